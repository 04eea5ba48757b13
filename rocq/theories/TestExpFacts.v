(** * The reference exponential of the tests in exact arithmetic (proofs only). *)

Require Import Reals Lra Lia List Bool Setoid Morphisms.
From Flocq Require Import Core.
From Coquelicot Require Import Coquelicot.
Require Import Verif.Num Verif.Types Verif.Priv Verif.OpsUni Verif.OpsAdd
  Verif.OpsSub Verif.OpsMul Verif.Const Verif.Validity Verif.Func Verif.SpecCl Verif.SpecExp Verif.RealInst
  Verif.AlgTac Verif.AlgMul Verif.AlgFacts Verif.AlgSpec Verif.AlgThm Verif.FuncFacts Verif.ExpFacts
  Verif.ExpThm Verif.TestExp.
Import ListNotations.
Local Open Scope R_scope.

(** ** A norm that products respect *)
Definition opn (a : clf) : R := sqrt 2 * cnorm a.
Lemma sqrt2_pos : 0 < sqrt 2.
Proof. apply sqrt_lt_R0; lra. Qed.
Lemma sqrt2_sq : sqrt 2 * sqrt 2 = 2.
Proof. apply sqrt_sqrt; lra. Qed.
Lemma opn_nonneg a : 0 <= opn a.
Proof. unfold opn; pose proof sqrt2_pos; pose proof (cnorm_nonneg a); nra. Qed.
Lemma opn_ceq a b : ceq a b -> opn a = opn b.
Proof. intros H; unfold opn; rewrite (cnorm_ceq _ _ H); reflexivity. Qed.
Global Instance opn_proper : Proper (ceq ==> eq) opn.
Proof. intros a b; apply opn_ceq. Qed.
Lemma opn_gp a b : opn (gp a b) <= opn a * opn b.
Proof.
  pose proof sqrt2_pos; pose proof sqrt2_sq; pose proof (cnorm_nonneg a); pose proof (cnorm_nonneg b).
  unfold opn. replace (sqrt 2 * cnorm a * (sqrt 2 * cnorm b)) with (sqrt 2 * (sqrt 2 * (cnorm a * cnorm b))) by ring.
  apply Rmult_le_compat_l; [lra|]. apply Rsqr_incr_0_var; unfold Rsqr; [|apply Rmult_le_pos; [lra|nra]].
  rewrite cnorm_sq. replace (sqrt 2 * (cnorm a * cnorm b) * (sqrt 2 * (cnorm a * cnorm b))) with
    ((sqrt 2 * sqrt 2) * (cnorm a * cnorm a) * (cnorm b * cnorm b)) by ring.
  rewrite sqrt2_sq, !cnorm_sq; apply gp_norm_bound.
Qed.
Lemma opn_add a b : opn (cadd a b) <= opn a + opn b.
Proof. unfold opn; pose proof sqrt2_pos; pose proof (cnorm_triangle a b); nra. Qed.
Lemma opn_scale r a : opn (cscale r a) = Rabs r * opn a.
Proof. unfold opn; rewrite cnorm_scale; ring. Qed.
Lemma opn_opp a : opn (copp a) = opn a.
Proof. unfold opn, cnorm; rewrite cnorm2_opp; reflexivity. Qed.
Lemma opn_sub_swap a b : opn (csub a b) = opn (csub b a).
Proof. rewrite <- opn_opp; apply opn_ceq; intro k; unfold copp, csub; ring. Qed.
Lemma opn_one : opn cone = sqrt 2.
Proof. unfold opn, cnorm; replace (cnorm2 cone) with 1 by dring; rewrite sqrt_1; ring. Qed.
Lemma sqrt2_val : 1414 / 1000 <= sqrt 2 <= 14143 / 10000.
Proof.
  split; [rewrite <- (sqrt_square (1414 / 1000)) by lra | rewrite <- (sqrt_square (14143 / 10000)) by lra];
    apply sqrt_le_1_alt; lra.
Qed.

(** ** Terms and partial sums of the series *)
Definition term (a : clf) (n : nat) : clf := cscale (/ INR (fact n)) (cpow a n).
Fixpoint psum (a : clf) (n : nat) : clf :=
  match n with O => cone | S m => cadd (psum a m) (term a (S m)) end.

Lemma psum_sum a n k : psum a n k = sum_f_R0 (fun j => cpow a j k / INR (fact j)) n.
Proof.
  induction n as [|n IH]; cbn [psum sum_f_R0].
  - cbn; field.
  - unfold cadd; rewrite IH; unfold term, cscale, Rdiv; ring.
Qed.
Lemma term_step a n : ceq (term a (S n)) (cscale (/ INR (S n)) (gp (term a n) a)).
Proof.
  unfold term; rewrite gp_scale_l, (cpow_comm a a ltac:(reflexivity) n); cbn [cpow].
  intro k; unfold cscale; rewrite fact_simpl, mult_INR; field; split; first [apply INR_fact_neq_0 | apply not_0_INR; lia].
Qed.
Lemma term_norm a n : opn (term a (S n)) <= opn (term a n) * (opn a / INR (S n)).
Proof.
  rewrite term_step, opn_scale, Rabs_pos_eq by (apply Rlt_le, Rinv_0_lt_compat, lt_0_INR; lia).
  pose proof (opn_gp (term a n) a). apply Rle_trans with (/ INR (S n) * (opn (term a n) * opn a)).
  - apply Rmult_le_compat_l; [apply Rlt_le, Rinv_0_lt_compat, lt_0_INR; lia | assumption].
  - unfold Rdiv; lra.
Qed.

Section Small.
Context (a : clf) (Ha : cnorm a <= / 2).
Lemma small_opn : opn a <= 71 / 100.
Proof. unfold opn; pose proof sqrt2_val; pose proof (cnorm_nonneg a); nra. Qed.
Lemma term_1 : opn (term a 1) <= 71 / 100.
Proof.
  unfold term; rewrite opn_scale; cbn [cpow fact INR Init.Nat.mul Init.Nat.add]. rewrite Rinv_1, Rabs_R1, Rmult_1_l, gp_one_r.
  exact small_opn.
Qed.
Lemma term_2 : opn (term a 2) <= 253 / 1000.
Proof.
  pose proof (term_norm a 1) as H; pose proof term_1 as H1; pose proof small_opn as H2; pose proof (opn_nonneg a).
  pose proof (opn_nonneg (term a 1)). cbn [INR] in H.
  assert (opn (term a 1) * (opn a / (1 + 1)) <= 71 / 100 * (71 / 100 / 2)) by (apply Rmult_le_compat; lra).
  lra.
Qed.
Lemma term_next n : (2 <= n)%nat -> opn (term a (S n)) <= opn (term a n) / 4.
Proof.
  intros Hn. pose proof (term_norm a n) as H; pose proof small_opn as H2; pose proof (opn_nonneg a).
  assert (3 <= INR (S n)) by (replace 3 with (INR 3) by (cbn; ring); apply le_INR; lia).
  assert (opn a / INR (S n) <= / 4).
  { apply Rmult_le_reg_r with (INR (S n)); [lra|]. unfold Rdiv; rewrite Rmult_assoc, Rinv_l by lra; lra. }
  pose proof (opn_nonneg (term a n)).
  assert (opn (term a n) * (opn a / INR (S n)) <= opn (term a n) * / 4) by (apply Rmult_le_compat_l; assumption).
  lra.
Qed.
Lemma term_far n : opn (term a (2 + n)) <= 253 / 1000 * (/ 4) ^ n.
Proof.
  induction n as [|n IH]; [cbn [Nat.add pow]; pose proof term_2; lra|].
  replace (2 + S n)%nat with (S (2 + n)) by lia. pose proof (term_next (2 + n) ltac:(lia)). cbn [pow]; lra.
Qed.
Lemma term_le n : (2 <= n)%nat -> opn (term a n) <= 253 / 1000.
Proof.
  intros Hn; replace n with (2 + (n - 2))%nat by lia. pose proof (term_far (n - 2)) as h.
  assert ((/ 4) ^ (n - 2) <= 1) by (rewrite <- (pow1 (n - 2)); apply pow_incr; lra). lra.
Qed.
Lemma psum_near n j : (2 <= n)%nat -> opn (csub (psum a (n + j)) (psum a n)) <= opn (term a n) * ((1 - (/ 4) ^ j) / 3).
Proof.
  intros Hn. assert (T : forall i, opn (term a (n + i)) <= opn (term a n) * (/ 4) ^ i).
  { induction i as [|i IH]; [rewrite Nat.add_0_r; cbn; lra|].
    replace (n + S i)%nat with (S (n + i)) by lia. pose proof (term_next (n + i) ltac:(lia)). cbn [pow]; lra. }
  induction j as [|j IH].
  - rewrite Nat.add_0_r. rewrite (opn_ceq _ (cscale 0 cone)) by (intro k; unfold csub, cscale; ring).
    rewrite opn_scale, Rabs_R0. cbn [pow]; lra.
  - replace (n + S j)%nat with (S (n + j)) by lia; cbn [psum].
    rewrite (opn_ceq _ (cadd (csub (psum a (n + j)) (psum a n)) (term a (S (n + j))))) by (intro k; unfold csub, cadd; ring).
    eapply Rle_trans; [apply opn_add|]. specialize (T (S j)). replace (n + S j)%nat with (S (n + j)) in T by lia.
    cbn [pow] in *. nra.
Qed.
Lemma psum_near' n m : (2 <= n <= m)%nat -> opn (csub (psum a m) (psum a n)) <= opn (term a n) / 3.
Proof.
  intros Hn; replace m with (n + (m - n))%nat by lia. pose proof (psum_near n (m - n) ltac:(lia)) as h.
  assert (0 <= (/ 4) ^ (m - n)) by (apply pow_le; lra). pose proof (opn_nonneg (term a n)). nra.
Qed.

(** Coefficients that are close make elements that are close. *)
Lemma cnorm_coefs c e : 0 <= e -> (forall k, Rabs (c k) <= e) -> cnorm c <= 3 * e.
Proof.
  intros He Hk. unfold cnorm. rewrite <- (sqrt_square (3 * e)) by lra. apply sqrt_le_1_alt.
  assert (S : forall k, c k * c k <= e * e).
  { intro k; specialize (Hk k). rewrite <- (Rabs_pos_eq (c k * c k)) by (pose proof (Rle_0_sqr (c k)); assumption).
    rewrite Rabs_mult; apply Rmult_le_compat; try apply Rabs_pos; assumption. }
  pose proof (S bS); pose proof (S bE1); pose proof (S bE2); pose proof (S bE3); pose proof (S bE12);
  pose proof (S bE13); pose proof (S bE23); pose proof (S bE123).
  unfold cnorm2, rsum, all_blades; cbn [map fold_right]. nra.
Qed.
Lemma series_close E : is_cexp a E -> forall e, 0 < e -> forall n0, exists n, (n0 <= n)%nat /\ forall k, Rabs (psum a n k - E k) < e.
Proof.
  intros HE e He n0.
  assert (G : forall k, exists N, forall n, (n >= N)%nat -> Rabs (psum a n k - E k) < e).
  { intro k. destruct (proj1 (is_series_Reals _ _) (HE k) e He) as [N HN]. exists N; intros n Hn.
    rewrite psum_sum; apply HN, Hn. }
  destruct (G bS) as [N0 H0], (G bE1) as [N1 H1], (G bE2) as [N2 H2], (G bE3) as [N3 H3],
    (G bE12) as [N4 H4], (G bE13) as [N5 H5], (G bE23) as [N6 H6], (G bE123) as [N7 H7].
  exists (n0 + N0 + N1 + N2 + N3 + N4 + N5 + N6 + N7)%nat; split; [lia|].
  intro k; dblade k; first [apply H0 | apply H1 | apply H2 | apply H3 | apply H4 | apply H5 | apply H6 | apply H7]; lia.
Qed.
Lemma tail E n : is_cexp a E -> (2 <= n)%nat -> opn (csub E (psum a n)) <= opn (term a n) / 3.
Proof.
  intros HE Hn. apply Rnot_lt_le; intros Hlt.
  set (d := opn (csub E (psum a n)) - opn (term a n) / 3).
  destruct (series_close E HE (d / 5) ltac:(unfold d; lra) n) as (m & Hm & Hk).
  pose proof (psum_near' n m ltac:(lia)) as H1.
  assert (H2 : cnorm (csub E (psum a m)) <= 3 * (d / 5)).
  { apply cnorm_coefs; [unfold d; lra|]. intro k; unfold csub. rewrite Rabs_minus_sym. apply Rlt_le, Hk. }
  pose proof sqrt2_val.
  assert (H3 : opn (csub E (psum a m)) <= 14143 / 10000 * (3 * (d / 5))).
  { unfold opn; apply Rmult_le_compat; try lra; try apply cnorm_nonneg. }
  pose proof (opn_add (csub E (psum a m)) (csub (psum a m) (psum a n))) as H4.
  rewrite (opn_ceq (cadd _ _) (csub E (psum a n))) in H4 by (intro k; unfold cadd, csub; ring).
  unfold d in *; lra.
Qed.

Lemma psum_bound n : (1 <= n)%nat -> 36 / 100 <= opn (psum a n) <= 247 / 100.
Proof.
  intros Hn. assert (H : opn (csub (psum a n) cone) <= 1048 / 1000).
  { destruct (Nat.eq_dec n 1) as [-> | ne].
    - cbn [psum]. rewrite (opn_ceq _ (term a 1)) by (intro k; unfold csub, cadd; ring). pose proof term_1; lra.
    - pose proof (psum_near' 2 n ltac:(lia)) as h. pose proof term_1; pose proof term_2.
      pose proof (opn_add (csub (psum a n) (psum a 2)) (cadd (term a 1) (term a 2))) as g.
      pose proof (opn_add (term a 1) (term a 2)).
      rewrite (opn_ceq (cadd (csub _ _) _) (csub (psum a n) cone)) in g by (intro k; cbn [psum]; unfold csub, cadd; ring). lra. }
  pose proof sqrt2_val. pose proof opn_one.
  pose proof (opn_add cone (csub (psum a n) cone)) as g1.
  rewrite (opn_ceq (cadd _ _) (psum a n)) in g1 by (intro k; unfold csub, cadd; ring).
  pose proof (opn_add (psum a n) (csub cone (psum a n))) as g2.
  rewrite (opn_ceq (cadd _ _) cone) in g2 by (intro k; unfold csub, cadd; ring).
  rewrite (opn_sub_swap cone) in g2. lra.
Qed.
Lemma cexp_bound E : is_cexp a E -> opn E <= 247 / 100.
Proof.
  intros HE. pose proof (tail E 2 HE ltac:(lia)) as h. pose proof term_1; pose proof term_2.
  pose proof (opn_add (csub E (psum a 2)) (psum a 2)) as g.
  rewrite (opn_ceq (cadd _ _) E) in g by (intro k; unfold csub, cadd; ring).
  pose proof (opn_add cone (term a 1)); pose proof (opn_add (cadd cone (term a 1)) (term a 2)).
  change (psum a 2) with (cadd (cadd cone (term a 1)) (term a 2)) in *. rewrite opn_one in *. pose proof sqrt2_val. lra.
Qed.
End Small.

(** ** What commutes with [a] commutes with its exponential *)
Lemma cexp_comm a b E : is_cexp a E -> ceq (gp a b) (gp b a) -> ceq (gp E b) (gp b E).
Proof.
  intros HE Hc k.
  assert (P : forall n, gp (cpow a n) b k = gp b (cpow a n) k) by (intro n; apply (cpow_comm a b Hc n)).
  assert (S1 : is_series (fun n => gp (cpow a n) b k / INR (fact n)) (gp E b k)).
  { apply (Rseries_ext (fun n => rsum (map (fun i => bsign i (bxor i k) * b (bxor i k) * (cpow a n i / INR (fact n))) all_blades))).
    - intro n; unfold gp, rsum, all_blades; cbn [map fold_right]; unfold Rdiv; ring.
    - replace (gp E b k) with (rsum (map (fun i => bsign i (bxor i k) * b (bxor i k) * E i) all_blades))
        by (unfold gp, rsum, all_blades; cbn [map fold_right]; ring).
      apply (rsum_series all_blades (fun i n => bsign i (bxor i k) * b (bxor i k) * (cpow a n i / INR (fact n)))).
      intro i; apply (is_series_scal (bsign i (bxor i k) * b (bxor i k)) (fun n => cpow a n i / INR (fact n))), HE. }
  assert (S2 : is_series (fun n => gp b (cpow a n) k / INR (fact n)) (gp b E k)).
  { apply (Rseries_ext (fun n => rsum (map (fun i => bsign i (bxor i k) * b i * (cpow a n (bxor i k) / INR (fact n))) all_blades))).
    - intro n; unfold gp, rsum, all_blades; cbn [map fold_right]; unfold Rdiv; ring.
    - replace (gp b E k) with (rsum (map (fun i => bsign i (bxor i k) * b i * E (bxor i k)) all_blades))
        by (unfold gp, rsum, all_blades; cbn [map fold_right]; ring).
      apply (rsum_series all_blades (fun i n => bsign i (bxor i k) * b i * (cpow a n (bxor i k) / INR (fact n)))).
      intro i; apply (is_series_scal (bsign i (bxor i k) * b i) (fun n => cpow a n (bxor i k) / INR (fact n))), HE. }
  rewrite <- (is_series_unique _ _ S1), <- (is_series_unique _ _ S2).
  apply Series_ext; intro n; rewrite P; reflexivity.
Qed.
Lemma psum_comm a n : ceq (gp a (psum a n)) (gp (psum a n) a).
Proof.
  induction n as [|n IH]; cbn [psum]; [rewrite gp_one_l, gp_one_r; reflexivity|].
  rewrite gp_add_l, gp_add_r, IH. unfold term; rewrite gp_scale_l, gp_scale_r, (cpow_comm a a ltac:(reflexivity)); reflexivity.
Qed.
Lemma gp_scale_comm r a : ceq (gp a (cscale r a)) (gp (cscale r a) a).
Proof. rewrite gp_scale_l, gp_scale_r; reflexivity. Qed.
Lemma cexp_inverse a E Em : is_cexp a E -> is_cexp (cscale (-1) a) Em -> ceq (gp Em E) cone.
Proof.
  intros HE HEm. apply (is_cexp_unique (cscale 0 cone)).
  - apply (is_cexp_ceq (cadd (cscale (-1) a) a) _ (gp Em E)); [intro k; unfold cadd, cscale; ring | reflexivity |].
    apply cexp_add; [symmetry; apply gp_scale_comm | exact HEm | exact HE].
  - apply (is_cexp_ceq (cscale 0 cone) _ (cscale (exp 0) cone)); [reflexivity | rewrite exp_0; intro k; unfold cscale; ring | apply cexp_scalar].
Qed.
Lemma cexp_double a E : is_cexp a E -> is_cexp (cscale 2 a) (gp E E).
Proof.
  intros HE. apply (is_cexp_ceq (cadd a a) _ (gp E E)); [intro k; unfold cadd, cscale; ring | reflexivity |].
  apply cexp_add; [reflexivity | exact HE | exact HE].
Qed.

(** ** Stopping *)
Definition stops (a : clf) (k : nat) : Prop := opn (gp (psum a k) (term a (S k))) < bpow radix2 (-49) * opn (psum a (S k)).
Lemma b49 : bpow radix2 (-49) = / 562949953421312.
Proof. reflexivity. Qed.

Lemma stops_at a : cnorm a <= / 2 -> stops a 27.
Proof.
  intros Ha; unfold stops. pose proof (opn_gp (psum a 27) (term a 28)) as h.
  pose proof (term_far a Ha 26) as h1. change (2 + 26)%nat with 28%nat in h1.
  pose proof (psum_bound a Ha 27 ltac:(lia)); pose proof (psum_bound a Ha 28 ltac:(lia)).
  pose proof (opn_nonneg (term a 28)).
  assert (opn (psum a 27) * opn (term a 28) <= 247 / 100 * (253 / 1000 * (/ 4) ^ 26)) by (apply Rmult_le_compat; lra).
  rewrite b49 in *. lra.
Qed.

Lemma stopped a k E : cnorm a <= / 2 -> (1 <= k)%nat -> stops a k -> is_cexp a E ->
  exists d, ceq (psum a (S k)) (gp E (cadd cone d)) /\ ceq (gp a d) (gp d a) /\ opn d <= bpow radix2 (-44).
Proof.
  intros Ha Hk Hst HE. destruct (cexp_exists (cscale (-1) a)) as [Em HEm].
  assert (Ham : cnorm (cscale (-1) a) <= / 2) by (rewrite cnorm_scale, Rabs_left; lra).
  pose proof (cexp_bound _ Ham Em HEm) as Bm.
  pose proof (cexp_inverse a E Em HE HEm) as Inv.
  assert (Inv' : ceq (gp E Em) cone).
  { rewrite <- Inv. apply (cexp_comm a Em E HE). symmetry. apply (cexp_comm (cscale (-1) a) a Em HEm). symmetry; apply gp_scale_comm. }
  set (p := term a (S k)) in *. set (S1 := psum a (S k)) in *. set (S0 := psum a k) in *.
  pose proof (tail a Ha E (S k) HE ltac:(lia)) as Ht. fold p S1 in Ht.
  pose proof (term_le a Ha (S k) ltac:(lia)) as Hp. fold p in Hp.
  pose proof (psum_bound a Ha (S k) ltac:(lia)) as HS1. fold S1 in HS1.
  unfold stops in Hst; fold p S1 S0 in Hst. rewrite b49 in Hst.
  pose proof (opn_nonneg p) as P0.
  (* the last term *)
  assert (H1 : opn (csub E S0) <= 4 / 3 * opn p).
  { pose proof (opn_add (csub E S1) p) as g.
    rewrite (opn_ceq (cadd _ _) (csub E S0)) in g by (intro j; unfold S1, S0, p; cbn [psum]; unfold csub, cadd; ring). lra. }
  assert (H2 : opn (gp E p) <= opn (gp S0 p) + opn p * (337337 / 1000000)).
  { pose proof (opn_add (gp S0 p) (gp (csub E S0) p)) as g.
    rewrite <- gp_add_l in g.
    rewrite (gp_ceq (cadd S0 (csub E S0)) E p p) in g; [|intro j; unfold cadd, csub; ring | reflexivity].
    pose proof (opn_gp (csub E S0) p) as g2. nra. }
  assert (H3 : opn p <= 247 / 100 * opn (gp E p)).
  { rewrite <- (gp_one_l p) at 1. rewrite <- Inv, gp_assoc. pose proof (opn_gp Em (gp E p)) as g.
    pose proof (opn_nonneg (gp E p)). nra. }
  assert (H4 : opn p <= 40 * / 562949953421312) by nra.
  exists (gp Em (csub S1 E)). split; [|split].
  - rewrite gp_add_r, gp_one_r, <- gp_assoc, Inv', gp_one_l. intro j; unfold cadd, csub; ring.
  - assert (C1 : ceq (gp a Em) (gp Em a)) by (symmetry; apply (cexp_comm (cscale (-1) a) a Em HEm); symmetry; apply gp_scale_comm).
    assert (C2 : ceq (gp a E) (gp E a)) by (symmetry; apply (cexp_comm a a E HE); reflexivity).
    assert (C3 : ceq (gp a (csub S1 E)) (gp (csub S1 E) a)).
    { assert (Q : ceq (csub S1 E) (cadd S1 (cscale (-1) E))) by (intro j; unfold cadd, csub, cscale; ring).
      rewrite Q, gp_add_l, gp_add_r, gp_scale_l, gp_scale_r, C2. unfold S1; rewrite psum_comm; reflexivity. }
    rewrite <- gp_assoc, C1, !gp_assoc, C3; reflexivity.
  - pose proof (opn_gp Em (csub S1 E)) as g. rewrite (opn_sub_swap S1 E) in g. pose proof (opn_nonneg (csub E S1)).
    replace (bpow radix2 (-44)) with (32 * / 562949953421312) by (change (bpow radix2 (-44)) with (/ 17592186044416); lra).
    nra.
Qed.

(** ** Squaring *)
Fixpoint csquare (n : nat) (x : clf) : clf := match n with O => x | S m => csquare m (gp x x) end.
Lemma csquare_ceq n : forall x y, ceq x y -> ceq (csquare n x) (csquare n y).
Proof. induction n as [|n IH]; intros x y E; cbn [csquare]; [exact E|]. apply IH; rewrite E; reflexivity. Qed.
Lemma squared n : forall a E d D, is_cexp a E -> ceq (gp a d) (gp d a) -> 0 <= D -> opn d <= D ->
  exists E' d', is_cexp (cscale (2 ^ n) a) E' /\ ceq (csquare n (gp E (cadd cone d))) (gp E' (cadd cone d')) /\
    opn d' <= (1 + D) ^ (2 ^ n) - 1.
Proof.
  induction n as [|n IH]; intros a E d D HE Hc HD Hd.
  - exists E, d; split; [|split; [reflexivity | cbn; lra]].
    apply (is_cexp_ceq a _ E); [intro k; unfold cscale; cbn; ring | reflexivity | exact HE].
  - cbn [csquare].
    set (d2 := cadd (cscale 2 d) (gp d d)).
    assert (CE : ceq (gp E d) (gp d E)) by (apply (cexp_comm a d E HE Hc)).
    assert (Q : ceq (gp (gp E (cadd cone d)) (gp E (cadd cone d))) (gp (gp E E) (cadd cone d2))).
    { assert (C1 : ceq (gp (cadd cone d) E) (gp E (cadd cone d))) by (rewrite gp_add_l, gp_add_r, gp_one_l, gp_one_r, CE; reflexivity).
      rewrite (gp_assoc E (cadd cone d)), <- (gp_assoc (cadd cone d) E), C1, !gp_assoc.
      assert (C2 : ceq (gp (cadd cone d) (cadd cone d)) (cadd cone d2)).
      { rewrite gp_add_l, !gp_add_r, !gp_one_l, gp_one_r. unfold d2; intro k; unfold cadd, cscale; ring. }
      rewrite C2; reflexivity. }
    assert (Hc2 : ceq (gp (cscale 2 a) d2) (gp d2 (cscale 2 a))).
    { rewrite gp_scale_l, gp_scale_r. unfold d2. rewrite gp_add_l, gp_add_r, gp_scale_l, gp_scale_r.
      rewrite <- (gp_assoc a d d), !Hc, (gp_assoc d a d), Hc, <- !gp_assoc; reflexivity. }
    assert (Hd2 : opn d2 <= (1 + D) * (1 + D) - 1).
    { unfold d2. pose proof (opn_add (cscale 2 d) (gp d d)) as g. rewrite opn_scale, Rabs_pos_eq in g by lra.
      pose proof (opn_gp d d). pose proof (opn_nonneg d). nra. }
    destruct (IH (cscale 2 a) (gp E E) d2 ((1 + D) * (1 + D) - 1) (cexp_double a E HE) Hc2 ltac:(nra) Hd2) as (E' & d' & H1 & H2 & H3).
    exists E', d'; split; [|split].
    + apply (is_cexp_ceq (cscale (2 ^ n) (cscale 2 a)) _ E'); [intro k; unfold cscale; cbn [pow]; ring | reflexivity | exact H1].
    + rewrite <- H2. apply csquare_ceq, Q.
    + eapply Rle_trans; [exact H3|]. apply Req_le. f_equal.
      replace (1 + ((1 + D) * (1 + D) - 1)) with ((1 + D) ^ 2) by ring. rewrite <- pow_mult. reflexivity.
Qed.
