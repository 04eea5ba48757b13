(** * The reference exponential of the tests: theorems in exact arithmetic (proofs only). *)

Require Import Reals Lra Lia List Bool Setoid Morphisms ZArith.
From Flocq Require Import Core.
From Coquelicot Require Import Coquelicot.
Require Import Verif.Num Verif.Types Verif.Priv Verif.OpsUni Verif.OpsAdd
  Verif.OpsSub Verif.OpsMul Verif.Const Verif.Validity Verif.Func Verif.SpecCl Verif.SpecFunc Verif.SpecExp Verif.RealInst
  Verif.AlgTac Verif.AlgMul Verif.AlgFacts Verif.AlgSpec Verif.AlgThm Verif.FuncFacts Verif.ExpFacts
  Verif.ExpThm Verif.TestExp Verif.TestExpFacts.
Import ListNotations.
Local Open Scope R_scope.

Notation X := (exact TMvec).
Lemma xmul (a b : MultiVector R) : mul_Mvec_Mvec (X a) (X b) = X (mul_Mvec_Mvec a b).
Proof. exact (mul_exact TMvec TMvec a b). Qed.
Lemma xscale r (a : MultiVector R) : mul_Dub_Mvec (Some r) (X a) = X (mul_Dub_Mvec r a).
Proof. exact (mul_exact TDub TMvec r a). Qed.
Lemma xadd (a b : MultiVector R) : add_Mvec_Mvec (X a) (X b) = X (add_Mvec_Mvec a b).
Proof. reflexivity. Qed.
Lemma dmul (a b : MultiVector R) : ceq (den TMvec (mul_Mvec_Mvec a b)) (gp (den TMvec a) (den TMvec b)).
Proof. exact (mul_den TMvec TMvec a b). Qed.
Lemma dscale r (a : MultiVector R) : ceq (den TMvec (mul_Dub_Mvec r a)) (cscale r (den TMvec a)).
Proof. intro k; dvals; dblade k; dring. Qed.
Lemma dadd (a b : MultiVector R) : ceq (den TMvec (add_Mvec_Mvec a b)) (cadd (den TMvec a) (den TMvec b)).
Proof. exact (add_den TMvec TMvec a b). Qed.
Lemma half_val : IZR 1 * bpow radix2 (-1) = / 2.
Proof. cbn; lra. Qed.
Lemma sSmall_val : (sSmallMag : xreal) = Some (bpow radix2 (-49)).
Proof. cbn; f_equal; lra. Qed.

(** ** Halving *)
Lemma halve_step fuel a n : halve_loop (S fuel) (X a) n =
  if Rltb (/ 2) (cnorm (den TMvec a)) then halve_loop fuel (X (mul_Dub_Mvec (/ 2) a)) (S n) else Some (X a, n).
Proof.
  cbn [halve_loop]. rewrite magnitude_exact. cbn -[magnitude halve_loop mul_Dub_Mvec exact Rltb bpow cnorm den].
  replace (1 * bpow radix2 (-1)) with (/ 2) by (cbn; lra). rewrite xscale. reflexivity.
Qed.
Lemma halve_norm a : cnorm (den TMvec (mul_Dub_Mvec (/ 2) a)) = cnorm (den TMvec a) / 2.
Proof. rewrite (cnorm_ceq _ _ (dscale _ _)), cnorm_scale, Rabs_pos_eq by lra; lra. Qed.
Lemma halving n : forall a i, cnorm (den TMvec a) <= 2 ^ n / 2 -> (forall m, (m < n)%nat -> 2 ^ m / 2 < cnorm (den TMvec a)) ->
  exists b, ceq (den TMvec b) (cscale (/ 2 ^ n) (den TMvec a)) /\ cnorm (den TMvec b) <= / 2 /\
    (forall fuel, (n < fuel)%nat -> halve_loop fuel (X a) i = Some (X b, (i + n)%nat)) /\
    (forall fuel, (fuel <= n)%nat -> halve_loop fuel (X a) i = None).
Proof.
  induction n as [|n IH]; intros a i Hn Hm.
  - cbn [pow] in Hn. exists a; split; [intro k; unfold cscale; cbn; field|split; [lra|split]].
    + intros fuel Hf; destruct fuel; [lia|]. rewrite halve_step, Rltb_false by lra. rewrite Nat.add_0_r; reflexivity.
    + intros fuel Hf; destruct fuel; [reflexivity|lia].
  - destruct (IH (mul_Dub_Mvec (/ 2) a) (S i)) as (b & B1 & B2 & B3 & B4).
    { rewrite halve_norm. cbn [pow] in Hn; lra. }
    { intros m Lm; rewrite halve_norm. specialize (Hm (S m) ltac:(lia)). cbn [pow] in Hm; lra. }
    pose proof (Hm 0%nat ltac:(lia)) as H0; cbn [pow] in H0.
    exists b; split; [|split; [exact B2|split]].
    + rewrite B1, dscale. intro k; unfold cscale. cbn [pow]. field. apply pow_nonzero; lra.
    + intros fuel Hf; destruct fuel; [lia|]. rewrite halve_step, Rltb_true by lra. rewrite B3 by lia. do 2 f_equal; lia.
    + intros fuel Hf; destruct fuel; [reflexivity|]. rewrite halve_step, Rltb_true by lra. apply B4; lia.
Qed.
Lemma halvings_exist (r : R) : exists n, r <= 2 ^ n / 2 /\ (forall m, (m < n)%nat -> 2 ^ m / 2 < r).
Proof.
  assert (E : exists n, r <= 2 ^ n / 2).
  { destruct (Pow_x_infinity 2 ltac:(rewrite Rabs_pos_eq; lra) (2 * r)) as [n Hn]. exists n.
    specialize (Hn n ltac:(lia)). rewrite Rabs_pos_eq in Hn by (apply pow_le; lra). lra. }
  destruct E as [n Hn]. induction n as [|n IH].
  - exists 0%nat; split; [exact Hn|intros; lia].
  - destruct (Rle_dec r (2 ^ n / 2)) as [h|h]; [apply IH, h|]. exists (S n); split; [exact Hn|].
    intros m Lm. assert (2 ^ m <= 2 ^ n) by (apply Rle_pow; [lra|lia]). lra.
Qed.

(** ** The series *)
Lemma loop_step rounds b k nt es : cnorm (den TMvec b) <= / 2 -> (1 <= k)%nat ->
  ceq (den TMvec nt) (term (den TMvec b) k) -> ceq (den TMvec es) (psum (den TMvec b) k) ->
  exists nt' es', ceq (den TMvec nt') (term (den TMvec b) (S k)) /\ ceq (den TMvec es') (psum (den TMvec b) (S k)) /\
    ((stops (den TMvec b) k /\ series_loop (S rounds) (X b) k (X nt) (X es) = (true, X es')) \/
     (~ stops (den TMvec b) k /\ series_loop (S rounds) (X b) k (X nt) (X es) = series_loop rounds (X b) (S k) (X nt') (X es'))).
Proof.
  intros Hb Hk Hnt Hes.
  set (A := den TMvec b) in *.
  set (nt' := mul_Dub_Mvec (1 / INR (S k)) (mul_Mvec_Mvec nt b)).
  set (es' := add_Mvec_Mvec es nt').
  assert (N : ceq (den TMvec nt') (term A (S k))).
  { unfold nt'. rewrite dscale, dmul, Hnt. fold A. unfold term. rewrite gp_scale_l.
    assert (P : ceq (gp (cpow A k) A) (cpow A (S k))) by (cbn [cpow]; first [reflexivity | symmetry; apply (cpow_comm A A ltac:(reflexivity)) | apply (cpow_comm A A ltac:(reflexivity))]).
    rewrite P. intro j; unfold cscale. rewrite fact_simpl, mult_INR.
    pose proof (INR_fact_neq_0 k). assert (INR (S k) <> 0) by (apply not_0_INR; lia). field; split; assumption. }
  assert (E : ceq (den TMvec es') (psum A (S k))) by (unfold es'; rewrite dadd, Hes, N; reflexivity).
  exists nt', es'; split; [exact N|split; [exact E|]].
  assert (Z0 : 36 / 100 <= opn (psum A (S k))) by (apply (psum_bound A Hb); lia).
  assert (Z1 : 0 < cnorm (psum A (S k))) by (unfold opn in Z0; pose proof sqrt2_val; pose proof (cnorm_nonneg (psum A (S k))); nra).
  set (M := cnorm (psum A (S k))) in *.
  set (T := cnorm (gp (psum A k) (term A (S k)))).
  assert (St : stops A k <-> T / M < bpow radix2 (-49)).
  { unfold stops, opn. fold M T. pose proof sqrt2_pos. pose proof (bpow_gt_0 radix2 (-49)). split; intro h.
    - apply Rmult_lt_reg_r with M; [exact Z1|]. unfold Rdiv; rewrite Rmult_assoc, Rinv_l by lra. nra.
    - assert (T / M * M < bpow radix2 (-49) * M) by (apply Rmult_lt_compat_r; assumption).
      unfold Rdiv in *. rewrite Rmult_assoc, Rinv_l in * by lra. nra. }
  assert (L : series_loop (S rounds) (X b) k (X nt) (X es) =
    if Rltb (T / M) (bpow radix2 (-49)) then (true, X es') else series_loop rounds (X b) (S k) (X nt') (X es')).
  { cbn [series_loop]. cbv zeta. change (@narith_ring xreal Arith_X) with Ring0_X. rewrite xmul.
    assert (D : (1 / nlit (Z.of_nat (S k)) 0 : xreal)%num = Some (1 / INR (S k))).
    { cbn -[Z.of_nat INR xdiv]. rewrite <- INR_IZR_INZ, Rmult_1_r. unfold xdiv. unfold Reqb.
      destruct (Req_EM_T (INR (S k)) 0) as [h|h]; [apply not_0_INR in h; [contradiction|lia]|reflexivity]. }
    rewrite D, xscale. fold nt'. rewrite xadd. fold es'. rewrite xmul, !magnitude_exact.
    rewrite (cnorm_ceq (den TMvec es') _ E). fold M.
    assert (ET : cnorm (den TMvec (mul_Mvec_Mvec es nt')) = T).
    { unfold T; apply cnorm_ceq; rewrite dmul, Hes, N; reflexivity. }
    rewrite ET, sSmall_val. cbn -[exact series_loop Rltb bpow].
    unfold Reqb; destruct (Req_EM_T M 0) as [h|h]; [lra|]. reflexivity. }
  destruct (Rltb (T / M) (bpow radix2 (-49))) eqn:Q.
  - left; split; [apply St, Rltb_spec, Q|exact L].
  - right; split; [|exact L]. intro h; apply St in h. rewrite Rltb_true in Q by exact h; discriminate.
Qed.

Lemma loop_run : forall d rounds b k nt es, cnorm (den TMvec b) <= / 2 -> (1 <= k)%nat -> (k + d = 27)%nat -> (d < rounds)%nat ->
  ceq (den TMvec nt) (term (den TMvec b) k) -> ceq (den TMvec es) (psum (den TMvec b) k) ->
  exists j es', (1 <= j <= 27)%nat /\ stops (den TMvec b) j /\ ceq (den TMvec es') (psum (den TMvec b) (S j)) /\
    series_loop rounds (X b) k (X nt) (X es) = (true, X es').
Proof.
  induction d as [|d IH]; intros rounds b k nt es Hb Hk Hd Hr Hnt Hes; destruct rounds as [|rounds]; try lia;
    destruct (loop_step rounds b k nt es Hb Hk Hnt Hes) as (nt' & es' & N & E & [[St L]|[St L]]).
  - exists k, es'; split; [lia|split; [exact St|split; [exact E|exact L]]].
  - exfalso; apply St. replace k with 27%nat by lia. apply stops_at, Hb.
  - exists k, es'; split; [lia|split; [exact St|split; [exact E|exact L]]].
  - destruct (IH rounds b (S k) nt' es' Hb ltac:(lia) ltac:(lia) ltac:(lia) N E) as (j & es2 & J & S2 & E2 & L2).
    exists j, es2; split; [exact J|split; [exact S2|split; [exact E2|]]]. rewrite L; exact L2.
Qed.

(** ** Squaring *)
Lemma square_exact n : forall a, exists r, square_loop n (X a) = X r /\ ceq (den TMvec r) (csquare n (den TMvec a)).
Proof.
  induction n as [|n IH]; intro a; cbn [square_loop csquare].
  - exists a; split; reflexivity.
  - rewrite xmul. destruct (IH (mul_Mvec_Mvec a a)) as (r & R1 & R2). exists r; split; [exact R1|].
    rewrite R2. apply csquare_ceq, dmul.
Qed.

Lemma computeExp_sound (m : MultiVector R) (n : nat) :
  cnorm (den TMvec m) <= 2 ^ n / 2 -> (forall i, (i < n)%nat -> 2 ^ i / 2 < cnorm (den TMvec m)) ->
  exists r E, is_cexp (den TMvec m) E /\
    (forall fuel, computeExp fuel (X m) = if (fuel <=? n)%nat then None else Some (X r)) /\
    cnorm (csub (den TMvec r) E) <= ((1 + bpow radix2 (-44)) ^ (2 ^ n) - 1) * cnorm E.
Proof.
  intros Hn Hm.
  destruct (halving n m 0 Hn Hm) as (b & B1 & B2 & B3 & B4).
  set (es := add_Mvec_Mvec (add_Mvec_Mvec zero_Mvec one_Mvec) b : MultiVector R).
  assert (Nt : ceq (den TMvec b) (term (den TMvec b) 1)).
  { unfold term; cbn [cpow fact]. rewrite gp_one_r || rewrite gp_one_l. intro k; unfold cscale; cbn; field. }
  assert (Es : ceq (den TMvec es) (psum (den TMvec b) 1)).
  { unfold es. rewrite !dadd. cbn [psum]. rewrite <- Nt. intro k; unfold cadd. dblade k; dring. }
  destruct (loop_run 26 56 b 1 b es B2 ltac:(lia) ltac:(lia) ltac:(lia) Nt Es) as (j & es' & J & St & E' & L).
  destruct (cexp_exists (den TMvec b)) as [Eb HEb].
  destruct (stopped _ j Eb B2 ltac:(lia) St HEb) as (d & D1 & D2 & D3).
  destruct (squared n _ Eb d (bpow radix2 (-44)) HEb D2 (bpow_ge_0 _ _) D3) as (E & d' & S1 & S2 & S3).
  destruct (square_exact n es') as (r & R1 & R2).
  exists r, E; split; [|split].
  - apply (is_cexp_ceq (cscale (2 ^ n) (den TMvec b)) _ E); [|reflexivity|exact S1].
    rewrite B1. intro k; unfold cscale; field. apply pow_nonzero; lra.
  - intro fuel. unfold computeExp. rewrite isValid_exact.
    destruct (fuel <=? n)%nat eqn:Q.
    + apply Nat.leb_le in Q. rewrite B4 by exact Q; reflexivity.
    + apply Nat.leb_gt in Q. rewrite B3 by exact Q. cbv zeta.
      replace (add_Mvec_Mvec (add_Mvec_Mvec zero_Mvec one_Mvec) (X b)) with (X es) by reflexivity.
      rewrite L. cbn [Nat.add]. rewrite R1; reflexivity.
  - assert (Q : ceq (csub (den TMvec r) E) (gp E d')).
    { rewrite (R2 : ceq _ _), (csquare_ceq n _ _ E'), (csquare_ceq n _ _ D1), S2.
      rewrite gp_add_r, gp_one_r. intro k; unfold csub, cadd; ring. }
    rewrite (cnorm_ceq _ _ Q).
    pose proof (opn_gp E d') as g. unfold opn at 1 2 in g. pose proof sqrt2_pos. pose proof (cnorm_nonneg E).
    assert (cnorm (gp E d') <= cnorm E * opn d') by nra. nra.
Qed.

(** ** Trivectors *)
Require Import Verif.Compare Verif.LogThm.
Definition tri_mv (t : R) : MultiVector R := mkMvec zero_Sca zero_Vec zero_Biv (Tri t).
Lemma tri_den t : ceq (den TMvec (tri_mv t)) (den TTri (Tri t)).
Proof. intro k; dblade k; dring. Qed.
Lemma tri_norm t : cnorm (den TMvec (tri_mv t)) = Rabs t.
Proof. unfold cnorm. replace (cnorm2 (den TMvec (tri_mv t))) with (Rsqr t) by (unfold Rsqr; dring). apply sqrt_Rsqr_abs. Qed.
Lemma exp_tri_sca t : exists s, exp_Mvec (X (tri_mv t)) = X s /\ sca_0 (mvSca s) = (exp t + exp (- t)) / 2.
Proof.
  exists (Rexp_Mvec (tri_mv t)); split; [apply exp_Mvec_exact|].
  unfold Rexp_Mvec, tri_mv; cbn [mvVec mvTri mvSca mvBiv]; cbv zeta.
  change (sca_0 zero_Sca) with 0;
  change (tri_0 (Tri t)) with t; change (vec_0 zero_Vec) with 0; change (vec_1 zero_Vec) with 0;
  change (vec_2 zero_Vec) with 0; change (biv_0 zero_Biv) with 0; change (biv_1 zero_Biv) with 0;
  change (biv_2 zero_Biv) with 0.
  assert (E1 : (0 - 0) * (0 - 0) + (0 + - 0) * (0 + - 0) + (0 - 0) * (0 - 0) = 0) by ring.
  assert (E2 : (0 + 0) * (0 + 0) + (0 - - 0) * (0 - - 0) + (0 + 0) * (0 + 0) = 0) by ring.
  rewrite E1, E2, sqrt_0, exp_0, cos_0; clear E1 E2.
  cbv -[Rplus Rmult Rminus Ropp Rinv Rdiv R R0 R1 IZR Rsync cos exp sinc]. lra.
Qed.
Lemma cosh_big t : 1 <= Rabs t -> 122 / 100 <= (exp t + exp (- t)) / 2.
Proof.
  intros H.
  assert (G : forall u, 1 <= u -> 122 / 100 <= (exp u + exp (- u)) / 2).
  { intros u Hu. pose proof (exp_pos (- u)).
    assert (P : (5 / 4) ^ 4 <= exp u).
    { replace (exp u) with (exp (u / 4) ^ 4).
      - apply pow_incr; split; [lra|]. pose proof (exp_ineq1 (u / 4) ltac:(lra)); lra.
      - cbn [pow]. rewrite Rmult_1_r, <- !exp_plus. f_equal; field. }
    lra. }
  unfold Rabs in H; destruct (Rcase_abs t); [|apply G; lra].
  rewrite <- (Ropp_involutive t) at 1. rewrite Rplus_comm. apply G; lra.
Qed.
Lemma INR_pow2 n : INR (2 ^ n) = 2 ^ n.
Proof. induction n as [|n IH]; [reflexivity|]. cbn [Nat.pow pow]. rewrite mult_INR, IH; cbn [INR]; ring. Qed.
Lemma pow_near1 n : (n <= 43)%nat -> (1 + bpow radix2 (-44)) ^ (2 ^ n) - 1 <= bpow radix2 (-43) * 2 ^ n.
Proof.
  intros Hn. change (bpow radix2 (-44)) with (/ 17592186044416). change (bpow radix2 (-43)) with (/ 8796093022208).
  set (x := / 17592186044416 * 2 ^ n).
  assert (B : 1 <= 2 ^ n) by (apply pow_R1_Rle; lra).
  assert (C : 2 ^ n <= 2 ^ 43) by (apply Rle_pow; [lra|lia]). cbn [pow] in C.
  assert (Hx : 0 < x <= / 2) by (unfold x; lra).
  assert (P : (1 + / 17592186044416) ^ (2 ^ n) <= exp x).
  { unfold x; rewrite <- INR_pow2, Rmult_comm. rewrite <- Rpower_pow by lra.
    unfold Rpower. assert (L : ln (1 + / 17592186044416) <= / 17592186044416).
    { rewrite <- (ln_exp (/ 17592186044416)) at 2. apply Rcomplements.ln_le; [lra|]. pose proof (exp_ineq1 (/ 17592186044416) ltac:(lra)); lra. }
    destruct (Rmult_le_compat_l (INR (2 ^ n)) _ _ (pos_INR _) L) as [h|h]; [left; apply exp_increasing, h|rewrite h; lra]. }
  assert (Q : exp x * exp (- x) = 1) by (rewrite <- exp_plus, Rplus_opp_r; apply exp_0).
  pose proof (exp_ineq1 (- x) ltac:(lra)) as q. pose proof (exp_pos x).
  assert (exp x * (1 - x) <= 1) by nra.
  assert (exp x <= 1 + 2 * x) by nra. unfold x in *; lra.
Qed.
Lemma computeExp_accurate (m : MultiVector R) : cnorm (den TMvec m) <= 2 ^ 42 -> exists fuel r E,
  computeExp fuel (X m) = Some (X r) /\ is_cexp (den TMvec m) E /\
  cnorm (csub (den TMvec r) E) <= bpow radix2 (-43) * (1 + 4 * cnorm (den TMvec m)) * cnorm E.
Proof.
  intros H. destruct (halvings_exist (cnorm (den TMvec m))) as (n & N1 & N2).
  destruct (computeExp_sound m n N1 N2) as (r & E & HE & C & Er).
  exists (S n), r, E; split; [|split; [exact HE|]].
  - rewrite C. replace (S n <=? n)%nat with false by (symmetry; apply Nat.leb_gt; lia). reflexivity.
  - assert (Hn : (n <= 43)%nat).
    { destruct (le_lt_dec n 43) as [h|h]; [exact h|]. specialize (N2 43%nat h). cbn [pow] in *; lra. }
    pose proof (pow_near1 n Hn) as P. pose proof (cnorm_nonneg E) as E0. pose proof (bpow_gt_0 radix2 (-43)).
    assert (Q : 2 ^ n <= 1 + 4 * cnorm (den TMvec m)).
    { pose proof (cnorm_nonneg (den TMvec m)). destruct n as [|n]; [cbn [pow]; lra|]. specialize (N2 n ltac:(lia)). cbn [pow]; lra. }
    eapply Rle_trans; [exact Er|]. apply Rmult_le_compat_r; [exact E0|]. eapply Rle_trans; [exact P|]. nra.
Qed.
Lemma cnorm_comp a k : Rabs (a k) <= cnorm a.
Proof. apply coef_le. Qed.
Lemma trivector_far t : 1 <= Rabs t <= 2 ^ 20 -> exists s r fuel,
  exp_Mvec (X (tri_mv t)) = X s /\ computeExp fuel (X (tri_mv t)) = Some (X r) /\
  / 5 <= sca_0 (mvSca s) - sca_0 (mvSca r) /\ Rabs (sca_0 (mvSca r)) <= 2.
Proof.
  intros [H1 H2]. destruct (exp_tri_sca t) as (s & S1 & S2).
  destruct (halvings_exist (cnorm (den TMvec (tri_mv t)))) as (n & N1 & N2).
  destruct (computeExp_sound (tri_mv t) n N1 N2) as (r & E & HE & C & Er).
  exists s, r, (S n); split; [exact S1|split].
  - rewrite C. replace (S n <=? n)%nat with false by (symmetry; apply Nat.leb_gt; lia). reflexivity.
  - assert (Hn : (n <= 21)%nat).
    { destruct (le_lt_dec n 21) as [h|h]; [exact h|]. specialize (N2 21%nat h). rewrite tri_norm in N2. cbn [pow] in *; lra. }
    pose proof (pow_near1 n ltac:(lia)) as P.
    assert (C21 : 2 ^ n <= 2 ^ 21) by (apply Rle_pow; [lra|lia]).
    assert (HE2 : ceq E (cadd (cscale (cos t) cone) (cscale (sinc t) (den TTri (Tri t))))).
    { apply (is_cexp_unique (den TMvec (tri_mv t))); [exact HE|].
      apply (is_cexp_ceq (den TTri (Tri t)) _ (cadd (cscale (cos t) cone) (cscale (sinc t) (den TTri (Tri t))))); [symmetry; apply tri_den|reflexivity|].
      apply (cexp_square _ t); intro k; dblade k; dring. }
    assert (E0 : E bS = cos t) by (rewrite (HE2 bS); dring).
    assert (N0 : cnorm E = 1).
    { rewrite (cnorm_ceq _ _ HE2). rewrite <- sqrt_1; unfold cnorm; f_equal.
      pose proof (sin2_cos2 t) as q; unfold Rsqr in q.
      transitivity (cos t * cos t + (sinc t * t) * (sinc t * t)); [dring|].
      assert (Q : sinc t * t = sin t) by (unfold sinc; destruct (Req_EM_T t 0) as [e|e]; [rewrite e, sin_0; ring|field; exact e]).
      rewrite Q; lra. }
    pose proof (cnorm_comp (csub (den TMvec r) E) bS) as g. unfold csub at 1 in g. rewrite E0 in g.
    change (den TMvec r bS) with (sca_0 (mvSca r)) in g.
    rewrite N0, Rmult_1_r in Er. rewrite S2. pose proof (cosh_big t H1). pose proof (COS_bound t).
    change (bpow radix2 (-43)) with (/ 8796093022208) in P. cbn [pow] in C21.
    pose proof (Rle_abs (sca_0 (mvSca r) - cos t)). split; [lra|].
    apply Rabs_le; apply Rabs_le_inv in g; lra.
Qed.
Lemma sca_reject (a b : R) : / 5 <= a - b -> Rabs b <= 2 -> nearlyEquals_Sca (Sca (Some a)) (Sca (Some b)) (sSmallMag : xreal) = false.
Proof.
  intros H Hb. unfold nearlyEquals_Sca, nearlyEquals_arr.
  change (arr1_list (scaData (Sca (Some a)))) with [Some a]. change (arr1_list (scaData (Sca (Some b)))) with [Some b].
  destruct (isValid_arr [Some a] && isValid_arr [Some b]); [|reflexivity]. cbv zeta. rewrite sSmall_val.
  assert (T : bpow radix2 (-49) < / 10) by (rewrite b49; lra).
  change (inner_product [Some b] [Some b] (nzero : xreal)) with (Some (0 + b * b)).
  change (sumSqDif [Some a] [Some b] (nzero : xreal)) with (Some (0 + (a - b) * (a - b))).
  change (nsqrt (Some (0 + b * b))) with (xsqrt (Some (0 + b * b))).
  rewrite xsqrt_some by nra. replace (0 + b * b) with (Rsqr b) by (unfold Rsqr; ring). rewrite sqrt_Rsqr_abs.
  change (nltb (Some (Rabs b)) (lim_min : xreal)) with (Rltb (Rabs b) (1 * bpow radix2 (-1022))).
  destruct (Rltb (Rabs b) _) eqn:Q.
  - unfold allSmallDiff, nearlyEqualsAbs. destruct (bothAreValid _ _); [|reflexivity].
    change (Rltb (Rabs (a - b)) (bpow radix2 (-49)) = false). apply Rltb_false. rewrite Rabs_pos_eq; lra.
  - assert (B0 : 0 < Rabs b).
    { pose proof (bpow_gt_0 radix2 (-1022)). destruct (Rlt_dec (Rabs b) (1 * bpow radix2 (-1022))) as [h|h]; [rewrite Rltb_true in Q by exact h; discriminate|lra]. }
    assert (B1 : Rsqr b <> 0) by (intro e; apply Rsqr_0_uniq in e; rewrite e, Rabs_R0 in B0; lra).
    assert (D : ndiv (Some (0 + (a - b) * (a - b))) (Some (Rsqr b)) = Some (Rsqr ((a - b) / b))).
    { cbn. unfold Reqb; destruct (Req_EM_T (Rsqr b) 0) as [h|h]; [contradiction|]. f_equal. unfold Rsqr. field.
      intro e; apply B1; rewrite e; unfold Rsqr; ring. }
    rewrite D. change (nsqrt (Some ?x)) with (xsqrt (Some x)). rewrite xsqrt_some by apply Rle_0_sqr. rewrite sqrt_Rsqr_abs.
    change (Rltb (Rabs (Rabs ((a - b) / b))) (bpow radix2 (-49)) = false). apply Rltb_false. rewrite Rabs_Rabsolu.
    unfold Rdiv; rewrite Rabs_mult, (Rabs_pos_eq (a - b)) by lra.
    rewrite Rabs_inv. assert (/ 2 <= / Rabs b) by (apply Rinv_le_contravar; lra). nra.
Qed.
Lemma trivector_check t : 1 <= Rabs t <= 2 ^ 20 -> exists fuel, check fuel (X (tri_mv t)) = Some false.
Proof.
  intros H. destruct (trivector_far t H) as (s & r & fuel & S1 & C & D & B). exists fuel.
  unfold check. rewrite C, S1. cbv zeta. f_equal. unfold nearlyEquals_Mvec.
  change (mvSca (X s)) with (Sca (Some (sca_0 (mvSca s)))). change (mvSca (X r)) with (Sca (Some (sca_0 (mvSca r)))).
  rewrite sca_reject; [reflexivity|exact D|exact B].
Qed.

(** ** Vectors *)
Definition vec_mv (v : Vector R) : MultiVector R := mkMvec zero_Sca v zero_Biv zero_Tri.
Lemma vec_mv_den v : ceq (den TMvec (vec_mv v)) (den TVec v).
Proof. dvals; intro k; dblade k; dring. Qed.
Lemma exp_vec_sca v : exists s, exp_Mvec (X (vec_mv v)) = X s /\ sca_0 (mvSca s) <= 1.
Proof.
  exists (Rexp_Mvec (vec_mv v)); split; [apply exp_Mvec_exact|].
  unfold Rexp_Mvec, vec_mv; cbn [mvVec mvTri mvSca mvBiv]; cbv zeta.
  change (sca_0 zero_Sca) with 0;
  change (tri_0 zero_Tri) with 0; change (biv_0 zero_Biv) with 0; change (biv_1 zero_Biv) with 0;
  change (biv_2 zero_Biv) with 0.
  rewrite Ropp_0, exp_0.
  match goal with |- context [1 * cos (sqrt ?a) + 1 * cos (sqrt ?b)] =>
    set (p := cos (sqrt a)) in *; set (q := cos (sqrt b)) in *;
    pose proof (COS_bound (sqrt a)) as H1; pose proof (COS_bound (sqrt b)) as H2 end.
  fold p in H1; fold q in H2; clearbody p q.
  dvals; cbv -[Rplus Rmult Rminus Ropp Rinv Rdiv R R0 R1 IZR Rsync cos exp sinc Rle]. lra.
Qed.
Lemma sca_reject2 (a b : R) : a <= 1 -> 12 / 10 <= b -> nearlyEquals_Sca (Sca (Some a)) (Sca (Some b)) (sSmallMag : xreal) = false.
Proof.
  intros H Hb. unfold nearlyEquals_Sca, nearlyEquals_arr.
  change (arr1_list (scaData (Sca (Some a)))) with [Some a]. change (arr1_list (scaData (Sca (Some b)))) with [Some b].
  destruct (isValid_arr [Some a] && isValid_arr [Some b]); [|reflexivity]. cbv zeta. rewrite sSmall_val.
  assert (T : bpow radix2 (-49) < / 10) by (rewrite b49; lra).
  change (inner_product [Some b] [Some b] (nzero : xreal)) with (Some (0 + b * b)).
  change (sumSqDif [Some a] [Some b] (nzero : xreal)) with (Some (0 + (a - b) * (a - b))).
  change (nsqrt (Some (0 + b * b))) with (xsqrt (Some (0 + b * b))).
  rewrite xsqrt_some by nra. replace (0 + b * b) with (Rsqr b) by (unfold Rsqr; ring). rewrite sqrt_Rsqr by lra.
  change (nltb (Some b) (lim_min : xreal)) with (Rltb b (1 * bpow radix2 (-1022))).
  rewrite Rltb_false.
  - assert (D : ndiv (Some (0 + (a - b) * (a - b))) (Some (Rsqr b)) = Some (Rsqr ((b - a) / b))).
    { cbn. unfold Reqb; destruct (Req_EM_T (Rsqr b) 0) as [h|h]; [unfold Rsqr in h; nra|]. f_equal. unfold Rsqr. field. lra. }
    rewrite D. change (nsqrt (Some ?x)) with (xsqrt (Some x)). rewrite xsqrt_some by apply Rle_0_sqr. rewrite sqrt_Rsqr_abs.
    change (Rltb (Rabs (Rabs ((b - a) / b))) (bpow radix2 (-49)) = false). apply Rltb_false. rewrite Rabs_Rabsolu.
    eapply Rle_trans; [|apply Rle_abs].
    apply Rle_trans with (/ 10); [lra|]. apply Rmult_le_reg_r with b; [lra|]. unfold Rdiv. rewrite Rmult_assoc, Rinv_l by lra. lra.
  - assert (bpow radix2 (-1022) <= bpow radix2 0) by (apply bpow_le; lia). change (bpow radix2 0) with 1 in *. lra.
Qed.
Lemma vector_check v : 1 <= cnorm (den TVec v) <= 2 ^ 20 -> exists fuel, check fuel (X (vec_mv v)) = Some false.
Proof.
  intros H. destruct (exp_vec_sca v) as (s & S1 & S2).
  assert (En : cnorm (den TMvec (vec_mv v)) = cnorm (den TVec v)) by (apply cnorm_ceq, vec_mv_den).
  destruct (computeExp_accurate (vec_mv v)) as (fuel & r & E & C & HE & Er); [rewrite En; cbn [pow] in *; lra|].
  exists fuel. unfold check. rewrite C, S1. cbv zeta. f_equal. unfold nearlyEquals_Mvec.
  change (mvSca (X s)) with (Sca (Some (sca_0 (mvSca s)))). change (mvSca (X r)) with (Sca (Some (sca_0 (mvSca r)))).
  rewrite sca_reject2; [reflexivity|exact S2|].
  rewrite En in Er. set (m := cnorm (den TVec v)) in *.
  assert (HE2 : ceq E (cadd (cscale ((exp m + exp (- m)) / 2) cone) (cscale ((exp m - exp (- m)) / 2 / m) (den TVec v)))).
  { apply (is_cexp_unique (den TMvec (vec_mv v))); [exact HE|].
    eapply is_cexp_ceq; [symmetry; apply vec_mv_den|reflexivity|]. apply (cexp_square_pos _ m); [lra|apply vec_sq]. }
  assert (E0 : E bS = (exp m + exp (- m)) / 2) by (rewrite (HE2 bS); destruct v as [[? ? ?]]; dring).
  assert (P : cnorm E <= exp m).
  { pose proof (exp_pos m). pose proof (exp_pos (- m)).
    assert (exp (- m) <= exp m) by (left; apply exp_increasing; lra).
    rewrite (cnorm_ceq _ _ HE2). eapply Rle_trans; [apply cnorm_triangle|]. rewrite !cnorm_scale. fold m.
    assert (O : cnorm cone = 1) by (rewrite <- sqrt_1; unfold cnorm; f_equal; dring). rewrite O.
    rewrite !Rabs_pos_eq; [|unfold Rdiv; repeat apply Rmult_le_pos; try lra; left; apply Rinv_0_lt_compat; lra | lra].
    apply Req_le. field. lra. }
  pose proof (cnorm_comp (csub (den TMvec r) E) bS) as g. unfold csub at 1 in g. rewrite E0 in g.
  change (den TMvec r bS) with (sca_0 (mvSca r)) in g.
  assert (Hm1 : 1 <= Rabs m) by (rewrite Rabs_pos_eq; lra).
  pose proof (cosh_big m Hm1). apply Rabs_le_inv in g. pose proof (exp_pos m). pose proof (exp_pos (- m)).
  change (bpow radix2 (-43)) with (/ 8796093022208) in Er. cbn [pow] in H.
  pose proof (cnorm_nonneg E).
  assert (/ 8796093022208 * (1 + 4 * m) * cnorm E <= / 2000 * exp m) by (apply Rmult_le_compat; lra).
  lra.
Qed.
