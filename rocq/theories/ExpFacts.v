(** * The exponential series in Cl(3,0) (proofs only). *)

Require Import Reals Lra Lia List Bool Setoid Morphisms.
From Coquelicot Require Import Coquelicot.
Require Import Verif.Types Verif.SpecCl Verif.SpecExp Verif.RealInst Verif.AlgTac
  Verif.AlgFacts Verif.AlgSpec Verif.AlgThm Verif.FuncFacts.
Import ListNotations.
Local Open Scope R_scope.

Lemma Rseries_ext (u v : nat -> R) (l : R) :
  (forall n, u n = v n) -> is_series u l -> is_series v l.
Proof. apply is_series_ext. Qed.

Lemma is_cexp_unique a e e' : is_cexp a e -> is_cexp a e' -> ceq e e'.
Proof.
  intros H H' k. pose proof (is_series_unique _ _ (H k)) as h.
  rewrite <- h; apply is_series_unique, H'.
Qed.
Lemma cpow_ceq a b n : ceq a b -> ceq (cpow a n) (cpow b n).
Proof. intros H; induction n as [|n IH]; cbn; [reflexivity | rewrite IH, H; reflexivity]. Qed.
Lemma is_cexp_ceq a b e f : ceq a b -> ceq e f -> is_cexp a e -> is_cexp b f.
Proof.
  intros Hab Hef H k. rewrite <- (Hef k).
  apply (Rseries_ext (fun n => cpow a n k / INR (fact n))); [|apply H].
  intros n; rewrite (cpow_ceq a b n Hab k); reflexivity.
Qed.

(** ** Convergence *)
Lemma coef_le a k : Rabs (a k) <= cnorm a.
Proof.
  rewrite <- (sqrt_Rsqr_abs (a k)); apply sqrt_le_1_alt; unfold Rsqr.
  unfold cnorm2, rsum, all_blades; cbn [map fold_right].
  pose proof (Rle_0_sqr (a bS)); pose proof (Rle_0_sqr (a bE1)); pose proof (Rle_0_sqr (a bE2));
  pose proof (Rle_0_sqr (a bE3)); pose proof (Rle_0_sqr (a bE12)); pose proof (Rle_0_sqr (a bE13));
  pose proof (Rle_0_sqr (a bE23)); pose proof (Rle_0_sqr (a bE123)); unfold Rsqr in *.
  dblade k; fold bS bE1 bE2 bE3 bE12 bE13 bE23 bE123; lra.
Qed.
Lemma cnorm_gp_le a b : cnorm (gp a b) <= 2 * cnorm a * cnorm b.
Proof.
  apply Rsqr_incr_0_var; unfold Rsqr.
  - rewrite cnorm_sq. pose proof (gp_norm_bound a b).
    pose proof (cnorm_sq a) as Ha; pose proof (cnorm_sq b) as Hb.
    replace (2 * cnorm a * cnorm b * (2 * cnorm a * cnorm b)) with
      (4 * (cnorm a * cnorm a) * (cnorm b * cnorm b)) by ring.
    rewrite Ha, Hb. pose proof (cnorm2_nonneg a); pose proof (cnorm2_nonneg b). nra.
  - pose proof (cnorm_nonneg a); pose proof (cnorm_nonneg b); nra.
Qed.
Lemma cpow_norm a n : cnorm (cpow a n) <= (2 * cnorm a) ^ n.
Proof.
  induction n as [|n IH]; cbn [cpow pow].
  - unfold cnorm; replace (cnorm2 cone) with 1 by dring; rewrite sqrt_1; lra.
  - eapply Rle_trans; [apply cnorm_gp_le|].
    pose proof (cnorm_nonneg a); apply Rmult_le_compat_l; [lra | exact IH].
Qed.
Lemma exp_series x : is_series (fun n => x ^ n / INR (fact n)) (exp x).
Proof.
  apply (Rseries_ext (fun n => / INR (fact n) * x ^ n)); [intros; unfold Rdiv; ring|].
  apply is_series_Reals. unfold exp; destruct (exist_exp x) as [l Hl]; exact Hl.
Qed.
Lemma cpow_abs_series a k : ex_series (fun n => Rabs (cpow a n k / INR (fact n))).
Proof.
  apply (@ex_series_le R_AbsRing R_CompleteNormedModule _
    (fun n => (2 * cnorm a) ^ n / INR (fact n))).
  - intros n; unfold norm; cbn. unfold abs; cbn. rewrite Rabs_Rabsolu.
    unfold Rdiv; rewrite Rabs_mult, (Rabs_pos_eq (/ INR (fact n)))
      by (apply Rlt_le, Rinv_0_lt_compat, INR_fact_lt_0).
    apply Rmult_le_compat_r; [apply Rlt_le, Rinv_0_lt_compat, INR_fact_lt_0|].
    eapply Rle_trans; [apply coef_le | apply cpow_norm].
  - eexists; apply exp_series.
Qed.
Lemma cexp_exists a : exists e, is_cexp a e.
Proof.
  exists (fun k => Series (fun n => cpow a n k / INR (fact n))); intro k.
  apply Series_correct, ex_series_Rabs, cpow_abs_series.
Qed.

Lemma zero_series : is_series (fun _ : nat => 0) 0.
Proof.
  apply is_series_Reals; intros eps He; exists 0%nat; intros n _.
  unfold R_dist; replace (sum_f_R0 (fun _ => 0) n) with 0.
  - rewrite Rminus_0_r, Rabs_R0; exact He.
  - induction n as [|n IHn]; cbn; [reflexivity | rewrite <- IHn; ring].
Qed.
Lemma rsum_series : forall (l : list blade) (f : blade -> nat -> R) (g : blade -> R),
  (forall i, is_series (f i) (g i)) ->
  is_series (fun n => rsum (map (fun i => f i n) l)) (rsum (map g l)).
Proof.
  intros l f g H; induction l as [|i l IH]; cbn [map rsum fold_right].
  - apply zero_series.
  - exact (is_series_plus (f i) (fun n => rsum (map (fun i => f i n) l)) _ _ (H i) IH).
Qed.

(** ** Sums of commuting elements *)
Section Commute.
Context (a b : clf) (Hc : ceq (gp a b) (gp b a)).

Lemma cpow_comm i : ceq (gp (cpow a i) b) (gp b (cpow a i)).
Proof.
  induction i as [|i IH]; cbn [cpow].
  - rewrite gp_one_l, gp_one_r; reflexivity.
  - rewrite gp_assoc, IH, <- gp_assoc, Hc, gp_assoc; reflexivity.
Qed.

Definition X (k : blade) (i j : nat) : R :=
  gp (cpow a i) (cpow b j) k / (INR (fact i) * INR (fact j)).
Definition T (n : nat) : clf := fun k => sum_f_R0 (fun i => X k i (n - i)) n.

Lemma gp_sum : forall (c : clf) (f : nat -> clf) n k,
  gp c (fun k => sum_f_R0 (fun i => f i k) n) k = sum_f_R0 (fun i => gp c (f i) k) n.
Proof.
  intros c f n k; induction n as [|n IH]; [reflexivity|].
  cbn [sum_f_R0]; rewrite <- IH.
  change (gp c (cadd (fun k => sum_f_R0 (fun i => f i k) n) (f (S n))) k =
    cadd (gp c (fun k => sum_f_R0 (fun i => f i k) n)) (gp c (f (S n))) k).
  apply gp_add_r.
Qed.

Lemma gp_X_a i j k : gp a (fun k => X k i j) k = INR (S i) * X k (S i) j.
Proof.
  unfold X.
  assert (E : ceq (fun k => gp (cpow a i) (cpow b j) k / (INR (fact i) * INR (fact j)))
     (cscale (/ (INR (fact i) * INR (fact j))) (gp (cpow a i) (cpow b j))))
   by (intro; unfold cscale, Rdiv; ring).
  rewrite (gp_ceq _ _ _ _ (ceq_refl a) E k), (gp_scale_r _ a _ k); unfold cscale.
  rewrite <- (gp_assoc a _ _ k); cbn [cpow].
  rewrite fact_simpl, mult_INR.
  field; repeat split; try apply INR_fact_neq_0; apply not_0_INR; lia.
Qed.
Lemma gp_X_b i j k : gp b (fun k => X k i j) k = INR (S j) * X k i (S j).
Proof.
  unfold X.
  assert (E : ceq (fun k => gp (cpow a i) (cpow b j) k / (INR (fact i) * INR (fact j)))
     (cscale (/ (INR (fact i) * INR (fact j))) (gp (cpow a i) (cpow b j))))
   by (intro; unfold cscale, Rdiv; ring).
  rewrite (gp_ceq _ _ _ _ (ceq_refl b) E k), (gp_scale_r _ b _ k); unfold cscale.
  assert (E' : ceq (gp b (gp (cpow a i) (cpow b j))) (gp (cpow a i) (cpow b (S j)))).
  { cbn [cpow]; rewrite <- gp_assoc, <- cpow_comm, gp_assoc; reflexivity. }
  rewrite (E' k), (fact_simpl j), mult_INR.
  field; repeat split; try apply INR_fact_neq_0; apply not_0_INR; lia.
Qed.

Lemma T_step n : ceq (gp (cadd a b) (T n)) (cscale (INR (S n)) (T (S n))).
Proof.
  intro k; rewrite (gp_add_l a b _ k); unfold cadd, cscale, T.
  rewrite !gp_sum.
  rewrite (sum_eq _ (fun i => INR (S i) * X k (S i) (n - i))) by (intros; apply gp_X_a).
  rewrite (sum_eq (fun i => gp b _ k) (fun i => INR (S n - i) * X k i (S n - i))).
  2:{ intros i Hi; rewrite gp_X_b. replace (S n - i)%nat with (S (n - i)) by lia; reflexivity. }
  (* the two sums over 0..n+1 *)
  assert (E1 : sum_f_R0 (fun i => INR (S i) * X k (S i) (n - i)) n =
               sum_f_R0 (fun i => INR i * X k i (S n - i)) (S n)).
  { rewrite (decomp_sum (fun i => INR i * X k i (S n - i))) by lia.
    cbn [INR pred]; rewrite Rmult_0_l, Rplus_0_l.
    apply sum_eq; intros i Hi; reflexivity. }
  assert (E2 : sum_f_R0 (fun i => INR (S n - i) * X k i (S n - i)) n =
               sum_f_R0 (fun i => INR (S n - i) * X k i (S n - i)) (S n)).
  { cbn [sum_f_R0]; rewrite Nat.sub_diag; cbn [INR]; ring. }
  rewrite E1, E2, <- sum_plus, scal_sum; apply sum_eq; intros i Hi.
  rewrite minus_INR by exact Hi; ring.
Qed.

Lemma binomial n k : cpow (cadd a b) n k / INR (fact n) = T n k.
Proof.
  revert k; induction n as [|n IH]; intro k.
  - unfold T, X; cbn [sum_f_R0 cpow fact INR Nat.sub].
    rewrite (gp_one_l cone k); field.
  - cbn [cpow].
    assert (E : ceq (cpow (cadd a b) n) (cscale (INR (fact n)) (T n))).
    { intro j; unfold cscale; rewrite <- IH; field; apply INR_fact_neq_0. }
    rewrite (gp_ceq _ _ _ _ (ceq_refl _) E k), (gp_scale_r _ _ _ k); unfold cscale at 1.
    rewrite (T_step n k); unfold cscale; rewrite fact_simpl, mult_INR.
    field; split; [apply INR_fact_neq_0 | apply not_0_INR; lia].
Qed.

Lemma cexp_add ea eb : is_cexp a ea -> is_cexp b eb -> is_cexp (cadd a b) (gp ea eb).
Proof.
  intros Ha Hb k.
  apply (Rseries_ext (fun n => T n k)); [intros n; symmetry; apply binomial|].
  pose (cau := fun i n => sum_f_R0 (fun p => (cpow a p i / INR (fact p)) *
      (cpow b (n - p) (bxor i k) / INR (fact (n - p)))) n).
  assert (Hcau : forall i, is_series (cau i) (ea i * eb (bxor i k))).
  { intro i; apply (is_series_mult (fun p => cpow a p i / INR (fact p))
      (fun p => cpow b p (bxor i k) / INR (fact p)));
      [apply Ha | apply Hb | apply cpow_abs_series | apply cpow_abs_series]. }
  assert (E : forall n, T n k = rsum (map (fun i => bsign i (bxor i k) * cau i n) all_blades)).
  { intro n; unfold T, cau, X, rsum, all_blades; cbn [map fold_right].
    rewrite !scal_sum. rewrite Rplus_0_r. rewrite <- !sum_plus. apply sum_eq; intros i Hi.
    unfold gp, rsum, all_blades; cbn [map fold_right].
    field; split; apply INR_fact_neq_0. }
  apply (Rseries_ext (fun n => rsum (map (fun i => bsign i (bxor i k) * cau i n) all_blades)));
    [intros; symmetry; apply E|].
  assert (S1 : forall i, is_series (fun n => bsign i (bxor i k) * cau i n)
     (bsign i (bxor i k) * ea i * eb (bxor i k))).
  { intro i; rewrite Rmult_assoc; apply (is_series_scal (bsign i (bxor i k)) (cau i)), Hcau. }
  exact (rsum_series all_blades _ _ S1).
Qed.
End Commute.

(** ** Elements whose square is a non-positive scalar *)
Lemma cos_series m : is_series (fun n => cos_n n * (m * m) ^ n) (cos m).
Proof.
  apply is_series_Reals; unfold cos, Rsqr.
  destruct (exist_cos (m * m)) as [l Hl]; exact Hl.
Qed.
Lemma sin_series m : exists l : R, is_series (fun n => sin_n n * (m * m) ^ n) l /\ sin m = m * l.
Proof.
  unfold sin, Rsqr; destruct (exist_sin (m * m)) as [l Hl]; exists l; split; [|reflexivity].
  apply is_series_Reals; exact Hl.
Qed.

Lemma sinc_series m : is_series (fun n => sin_n n * (m * m) ^ n) (sinc m).
Proof.
  destruct (sin_series m) as (l & Hl & Es); unfold sinc.
  destruct (Req_EM_T m 0) as [->|Hm].
  - apply (Rseries_ext (fun n => sin_n n * 0 ^ n)); [intros; rewrite Rmult_0_l; reflexivity|].
    assert (l = 1) as <-; [|apply (Rseries_ext (fun n => sin_n n * (0 * 0) ^ n)); [intros; rewrite Rmult_0_l; reflexivity | exact Hl]].
    rewrite <- (is_series_unique _ _ Hl).
    apply is_series_unique, is_series_Reals; intros eps He; exists 0%nat; intros n _.
    unfold R_dist; replace (sum_f_R0 _ n) with 1.
    + unfold Rminus; rewrite Rplus_opp_r, Rabs_R0; exact He.
    + induction n as [|n IH]; cbn [sum_f_R0].
      * unfold sin_n; cbn; field.
      * rewrite <- IH; cbn [pow]; rewrite !Rmult_0_l, Rmult_0_r; ring.
  - replace (sin m / m) with l by (rewrite Es; field; exact Hm); exact Hl.
Qed.
Lemma sinc_mul m : m * sinc m = sin m.
Proof.
  unfold sinc; destruct (Req_EM_T m 0) as [->|Hm]; [rewrite sin_0; ring | field; exact Hm].
Qed.

Lemma even_odd_series (u : nat -> R) (l1 l2 : R) :
  is_series (fun n => u (2 * n)%nat) l1 -> is_series (fun n => u (2 * n + 1)%nat) l2 ->
  is_series u (l1 + l2).
Proof.
  intros H1 H2.
  assert (P1 : forall (v : nat -> R) x l, x = 1 -> is_series v l -> is_pseries v x l).
  { intros v x l -> H; apply (Rseries_ext v) with (2 := H).
    intros n; change (v n = (pow_n 1 n) * v n); rewrite pow_n_pow, pow1; ring. }
  assert (H : is_pseries u 1 (l1 + 1 * l2)).
  { apply is_pseries_odd_even; apply P1; try assumption; ring. }
  rewrite Rmult_1_l in H.
  apply (Rseries_ext (fun n => (pow_n 1 n) * u n)) with (2 := H).
  intros n; rewrite pow_n_pow, pow1; ring.
Qed.

Section SquareScalar.
Context (a : clf) (m : R) (Ha : ceq (gp a a) (cscale (- (m * m)) cone)).
Lemma cpow_even n : ceq (cpow a (2 * n)) (cscale ((- (m * m)) ^ n) cone).
Proof.
  induction n as [|n IH].
  - cbn; intro k; unfold cscale; ring.
  - replace (2 * S n)%nat with (S (S (2 * n))) by lia; cbn [cpow].
    rewrite <- gp_assoc, Ha, IH, gp_scale_l, gp_one_l; intro k; unfold cscale; cbn [pow]; ring.
Qed.
Lemma cpow_odd n : ceq (cpow a (2 * n + 1)) (cscale ((- (m * m)) ^ n) a).
Proof.
  replace (2 * n + 1)%nat with (S (2 * n)) by lia; cbn [cpow].
  rewrite cpow_even, gp_scale_r, gp_one_r; reflexivity.
Qed.
Lemma opp_pow n x : (- x) ^ n = (-1) ^ n * x ^ n.
Proof. replace (- x) with (-1 * x) by ring; apply Rpow_mult_distr. Qed.
Lemma cexp_square : is_cexp a (cadd (cscale (cos m) cone) (cscale (sinc m) a)).
Proof.
  intro k; unfold cadd, cscale; apply even_odd_series.
  - apply (Rseries_ext (fun n => cone k * (cos_n n * (m * m) ^ n))).
    + intro n; rewrite (cpow_even n k); unfold cscale, cos_n; rewrite opp_pow; unfold Rdiv; ring.
    + rewrite (Rmult_comm (cos m)); apply (is_series_scal (cone k) (fun n => cos_n n * (m * m) ^ n)), cos_series.
  - apply (Rseries_ext (fun n => a k * (sin_n n * (m * m) ^ n))).
    + intro n; rewrite (cpow_odd n k); unfold cscale, sin_n; rewrite opp_pow; unfold Rdiv; ring.
    + rewrite (Rmult_comm (sinc m)); apply (is_series_scal (a k) (fun n => sin_n n * (m * m) ^ n)), sinc_series.
Qed.
End SquareScalar.

Lemma cexp_scalar s : is_cexp (cscale s cone) (cscale (exp s) cone).
Proof.
  assert (P : forall n, ceq (cpow (cscale s cone) n) (cscale (s ^ n) cone)).
  { induction n as [|n IH]; cbn [cpow pow]; [intro k; unfold cscale; ring|].
    rewrite IH, gp_scale_l, gp_one_l; intro k; unfold cscale; ring. }
  intro k; unfold cscale at 2.
  apply (Rseries_ext (fun n => cone k * (s ^ n / INR (fact n)))).
  - intro n; rewrite (P n k); unfold cscale, Rdiv; ring.
  - rewrite (Rmult_comm (exp s)); apply (is_series_scal (cone k) (fun n => s ^ n / INR (fact n))), exp_series.
Qed.
