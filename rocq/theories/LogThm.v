(** * Rotations, cardinal sine, exp(MultiVector), logG2 and sqrtG2 in exact
      arithmetic (proofs only). *)

Require Import Reals Lra Lia List Bool Setoid Morphisms.
From Flocq Require Import Core.
From Coquelicot Require Import Coquelicot.
Require Import Verif.Num Verif.Types Verif.Priv Verif.OpsUni Verif.OpsAdd
  Verif.OpsSub Verif.OpsMul Verif.Const Verif.Validity Verif.Func Verif.SpecCl Verif.SpecExp
  Verif.RealInst Verif.AlgTac Verif.AlgMul Verif.AlgFacts Verif.AlgSpec Verif.AlgThm
  Verif.FuncFacts Verif.ExpFacts Verif.ExpThm Verif.PiFacts.
Import ListNotations.
Local Open Scope R_scope.

(** ** The cardinal sine *)
Lemma sin_taylor a : 0 <= a <= 4 ->
  0 <= a - a ^ 3 / 6 + a ^ 5 / 120 - sin a <= a ^ 7 / 5040.
Proof.
  intros [H0 H4].
  pose proof (pre_sin_bound a 0 H0 H4) as [_ H2].
  pose proof (pre_sin_bound a 1 H0 H4) as [H1 _].
  unfold sin_approx, sin_term in *; cbn [sum_f_R0] in *.
  change (2 * 0 + 1)%nat with 1%nat in *; change (2 * 1 + 1)%nat with 3%nat in *;
  change (2 * 2 + 1)%nat with 5%nat in *; change (2 * 3 + 1)%nat with 7%nat in *.
  change (2 * (0 + 1))%nat with 2%nat in *.
  cbn [sum_f_R0] in *.
  change (2 * 0 + 1)%nat with 1%nat in *; change (2 * 1 + 1)%nat with 3%nat in *;
  change (2 * 2 + 1)%nat with 5%nat in *; change (2 * 3 + 1)%nat with 7%nat in *.
  assert (F1 : INR (fact 1) = 1) by reflexivity.
  assert (F3 : INR (fact 3) = 6) by (simpl; lra).
  assert (F5 : INR (fact 5) = 120) by (rewrite (fact_simpl 4), (fact_simpl 3), !mult_INR, F3; simpl; lra).
  assert (F7 : INR (fact 7) = 5040) by (rewrite (fact_simpl 6), (fact_simpl 5), !mult_INR, F5; simpl; lra).
  rewrite F3, F5 in H2; rewrite F3, F5, F7 in H1; change (INR (fact 1)) with 1 in *; clear F1 F3 F5 F7.
  cbn [pow] in *; lra.
Qed.

Lemma sync_lim_val : 1 / 10000 <= sync_lim <= 10001 / 100000000.
Proof.
  unfold sync_lim.
  replace (bpow radix2 (-66)) with (/ 73786976294838206464) by (simpl; lra).
  lra.
Qed.

Definition Rsync (x : R) : R :=
  if Rltb x sync_lim then x * x * (x * x) / 120 - x * x / 6 + 1 else sin x / x.
Lemma sync_exact x : sync (Some x : xreal) = Some (Rsync x).
Proof.
  unfold sync, Rsync.
  change (nltb (Some x : xreal) (nlit 7378697629483821 (-66))) with (Rltb x sync_lim).
  destruct (Rltb x sync_lim) eqn:E.
  - change (sq_Dub (Some x : xreal)) with (Some (x * x) : xreal).
    change (sq_Dub (Some ?y : xreal)) with (Some (y * y) : xreal).
    rewrite !lit0, !div_exact by (apply IZR_neq; lia); reflexivity.
  - change (msin (Some x : xreal)) with (Some (sin x) : xreal); apply div_exact.
    intros ->; pose proof sync_lim_val.
    rewrite Rltb_true in E by lra; discriminate.
Qed.

Lemma pow_le_lim x n : 0 <= x < sync_lim -> x ^ n <= (10001 / 100000000) ^ n.
Proof. intros H; apply pow_incr; pose proof sync_lim_val; lra. Qed.

Lemma Rsync_error x : 0 <= x -> Rabs (Rsync x - sinc x) <= 2 / 10 ^ 28.
Proof.
  intros H0; unfold Rsync; destruct (Rltb x sync_lim) eqn:E.
  - apply Rltb_spec in E.
    destruct (Rle_lt_or_eq_dec _ _ H0) as [Hx | <-].
    + unfold sinc; destruct (Req_EM_T x 0); [lra|].
      pose proof (sin_taylor x ltac:(pose proof sync_lim_val; lra)) as [H1 H2].
      replace (x * x * (x * x) / 120 - x * x / 6 + 1 - sin x / x) with
        ((x - x ^ 3 / 6 + x ^ 5 / 120 - sin x) / x) by (field; lra).
      rewrite Rabs_pos_eq by (apply Rle_mult_inv_pos; lra).
      apply Rmult_le_reg_r with x; [lra|].
      unfold Rdiv at 1; rewrite Rmult_assoc, Rinv_l, Rmult_1_r by lra.
      eapply Rle_trans; [exact H2|].
      replace (x ^ 7 / 5040) with (x ^ 6 / 5040 * x) by field.
      apply Rmult_le_compat_r; [lra|].
      pose proof (pow_le_lim x 6 ltac:(lra)); lra.
    + unfold sinc; destruct (Req_EM_T 0 0); [|lra].
      replace (0 * 0 * (0 * 0) / 120 - 0 * 0 / 6 + 1 - 1) with 0 by field.
      rewrite Rabs_R0; lra.
  - assert (x <> 0).
    { intros ->; pose proof sync_lim_val; rewrite Rltb_true in E by lra; discriminate. }
    unfold sinc; destruct (Req_EM_T x 0); [lra|].
    rewrite Rminus_diag_eq, Rabs_R0 by reflexivity; lra.
Qed.
Lemma Rsync_exact x : sync_lim <= x -> Rsync x = sinc x.
Proof.
  intros H; unfold Rsync; rewrite Rltb_false by exact H.
  unfold sinc; destruct (Req_EM_T x 0); [pose proof sync_lim_val; lra | reflexivity].
Qed.
Lemma Rsync_0 : Rsync 0 = sinc 0.
Proof.
  unfold Rsync; rewrite Rltb_true by (pose proof sync_lim_val; lra).
  unfold sinc; destruct (Req_EM_T 0 0); [field | lra].
Qed.

(** ** Rotation by the exponential of a bivector *)
Definition half_exp (B : BiVector R) : BiVector R := scale TBiv (1 / 2) B.

Lemma cnorm_half B : cnorm (den TBiv (half_exp B)) = cnorm (den TBiv B) / 2.
Proof.
  unfold half_exp; rewrite (cnorm_ceq _ _ (scale_den TBiv (1/2) B)), cnorm_scale.
  rewrite Rabs_pos_eq by lra; lra.
Qed.


Lemma rotate_rotor c q B v :
  rotate (rotor c q B) v =
  Vec ((c * c - q * q * cnorm2 (den TBiv B)) * vec_0 v + 2 * q * q * dot (axis B) v * biv_0 B
        + 2 * c * q * (biv_2 B * vec_1 v - biv_1 B * vec_2 v))
      ((c * c - q * q * cnorm2 (den TBiv B)) * vec_1 v + 2 * q * q * dot (axis B) v * biv_1 B
        + 2 * c * q * (biv_0 B * vec_2 v - biv_2 B * vec_0 v))
      ((c * c - q * q * cnorm2 (den TBiv B)) * vec_2 v + 2 * q * q * dot (axis B) v * biv_2 B
        + 2 * c * q * (biv_1 B * vec_0 v - biv_0 B * vec_1 v)).
Proof. apply (den_inj TVec); dvals; intro k; dblade k; dring. Qed.

Lemma rotate_exp : forall (B : BiVector R) (v : Vector R), 2 * tiny < cnorm (den TBiv B) ->
  exists r, exp_Biv (exact TBiv (half_exp B)) = exact TSpin r /\
    let m := cnorm (den TBiv B) in
    (* perpendicular to the plane of B *)
    (forall s, rotate r (scale TVec s (axis B)) = scale TVec s (axis B)) /\
    (* in the plane of B *)
    (dot (axis B) v = 0 ->
      ceq (den TVec (rotate r v))
          (csub (cscale (cos m) (den TVec v))
                (cscale (sin m / m) (gp (den TVec v) (den TBiv B))))).
Proof.
  intros B v HB; rewrite exp_Biv_exact, cnorm_half.
  pose proof tiny_pos as Ht.
  rewrite Rltb_true by lra; eexists; split; [reflexivity|]; cbv zeta.
  remember (cnorm (den TBiv B)) as m eqn:Em.
  assert (HmE : m * m = cnorm2 (den TBiv B)) by (subst m; apply cnorm_sq).
  assert (Hc : cos m = cos (m / 2) * cos (m / 2) - sin (m / 2) * sin (m / 2)).
  { rewrite <- cos_plus; f_equal; field. }
  assert (Hs : sin m = 2 * sin (m / 2) * cos (m / 2)).
  { rewrite <- sin_2a; f_equal; field. }
  assert (H1 : cos (m / 2) * cos (m / 2) + sin (m / 2) * sin (m / 2) = 1).
  { pose proof (sin2_cos2 (m / 2)) as h; unfold Rsqr in h; lra. }
  assert (Hr : rotor (cos (m / 2)) (sinc (m / 2)) (half_exp B) = rotor (cos (m / 2)) (sin (m / 2) / m) B).
  { apply (den_inj TSpin); rewrite !rotor_den; unfold half_exp; rewrite scale_den.
    intro k; unfold cadd, cscale; f_equal.
    unfold sinc; destruct (Req_EM_T (m / 2) 0); [lra|]; field; lra. }
  rewrite Hr; clear Hr.
  set (S := sin (m / 2)) in *; set (C := cos (m / 2)) in *.
  assert (Hq : S / m * (S / m) * cnorm2 (den TBiv B) = S * S) by (rewrite <- HmE; field; lra).
  clearbody S C; clear Em.
  split.
  - intros s; rewrite rotate_rotor.
    assert (Hd : dot (axis B) (scale TVec s (axis B)) = s * (m * m)).
    { rewrite HmE; unfold dot; clear; dvals; dring. }
    rewrite Hd, Hq.
    apply (den_inj TVec); intro k; clear - H1 Ht HB; dvals; dblade k;
      cbv -[Rplus Rminus Rmult Ropp Rdiv Rinv R R0 R1 IZR]; try ring;
      match goal with |- _ = ?r => transitivity ((C * C + S * S) * r); [field; lra | rewrite H1; ring] end.
  - intros Hd; rewrite rotate_rotor, Hd, Hq.
    rewrite Hc, Hs; intro k; clear - H1 Ht HB Hd; dvals; dblade k;
      cbv -[Rplus Rminus Rmult Ropp Rdiv Rinv R R0 R1 IZR];
      cbv -[Rplus Rminus Rmult Ropp Rdiv Rinv R R0 R1 IZR] in Hd; try ring; try (field; lra).
    transitivity (2 * S * C / m * (B * v + B0 * v0 + B1 * v1) * (-1)); [rewrite Hd; ring | field; lra].
Qed.

Lemma rotate_add r u v : rotate r (add_Vec_Vec u v) = add_Vec_Vec (rotate r u) (rotate r v).
Proof. apply (den_inj TVec); dvals; intro k; dblade k; dring. Qed.

Lemma rotate_exp_full : forall (B : BiVector R), 2 * tiny < cnorm (den TBiv B) ->
  exists r, exp_Biv (exact TBiv (scale TBiv (1 / 2) B)) = exact TSpin r /\
    let m := cnorm (den TBiv B) in
    forall s (w : Vector R), dot (axis B) w = 0 ->
      ceq (den TVec (rotate r (add_Vec_Vec (scale TVec s (axis B)) w)))
          (cadd (den TVec (scale TVec s (axis B)))
             (csub (cscale (cos m) (den TVec w))
                (cscale (sin m / m) (gp (den TVec w) (den TBiv B))))).
Proof.
  intros B HB; destruct (rotate_exp B (axis B) HB) as (r & Hr & _); exists r; split; [exact Hr|].
  cbv zeta; intros s w Hw; rewrite rotate_add.
  destruct (rotate_exp B w HB) as (r' & Hr' & Hp & Hq).
  unfold half_exp in *; rewrite Hr in Hr'; apply (exact_inj TSpin) in Hr'; subst r'.
  etransitivity; [apply (add_den TVec TVec)|].
  rewrite Hp, (Hq Hw); reflexivity.
Qed.

(** ** exp(MultiVector) *)
Definition Rexp_Mvec (M : MultiVector R) : MultiVector R :=
  let a0 := sca_0 (mvSca M) in
  let a1 := vec_0 (mvVec M) in
  let a2 := vec_1 (mvVec M) in
  let a3 := vec_2 (mvVec M) in
  let a12 := biv_2 (mvBiv M) in
  let a13 := - biv_1 (mvBiv M) in
  let a23 := biv_0 (mvBiv M) in
  let t := tri_0 (mvTri M) in
  let P := sqrt ((a3 - a12) * (a3 - a12) + (a2 + a13) * (a2 + a13) + (a1 - a23) * (a1 - a23)) in
  let N := sqrt ((a3 + a12) * (a3 + a12) + (a2 - a13) * (a2 - a13) + (a1 + a23) * (a1 + a23)) in
  let p := exp t in let n := exp (- t) in
  scale TMvec (/ 2 * exp a0)
   (mkMvec (Sca (p * cos P + n * cos N))
      (Vec (p * (a1 - a23) * Rsync P + n * (a1 + a23) * Rsync N)
           (p * (a2 + a13) * Rsync P + n * (a2 - a13) * Rsync N)
           (p * (a3 - a12) * Rsync P + n * (a3 + a12) * Rsync N))
      (Biv (- p * (a1 - a23) * Rsync P + n * (a1 + a23) * Rsync N)
           (- (p * (a2 + a13) * Rsync P - n * (a2 - a13) * Rsync N))
           (- p * (a3 - a12) * Rsync P + n * (a3 + a12) * Rsync N))
      (Tri (p * cos P - n * cos N))).

Lemma sqrt_exact x : 0 <= x -> nsqrt (Some x : xreal) = Some (sqrt x).
Proof. intros H; cbn; unfold Rltb; destruct (Rlt_dec x 0); [lra | reflexivity]. Qed.

Lemma mvec_some a b c d e f g h a' b' c' d' e' f' g' h' :
  a = a' -> b = b' -> c = c' -> d = d' -> e = e' -> f = f' -> g = g' -> h = h' ->
  mkMvec (Sca (Some a : xreal)) (Vec (Some b) (Some c) (Some d)) (Biv (Some e) (Some f) (Some g)) (Tri (Some h)) =
  exact TMvec (mkMvec (Sca a') (Vec b' c' d') (Biv e' f' g') (Tri h')).
Proof. intros -> -> -> -> -> -> -> ->; reflexivity. Qed.

Definition xsync (a : xreal) : xreal := sync a.
Lemma xsqrt_some x : 0 <= x -> xsqrt (Some x) = Some (sqrt x).
Proof. apply sqrt_exact. Qed.
Lemma exp_Mvec_exact : forall M : MultiVector R, exp_Mvec (exact TMvec M) = exact TMvec (Rexp_Mvec M).
Proof.
  intros M; unfold exp_Mvec, exp_Mvec_io.
  change (isValid_Mvec (exact TMvec M)) with (isValid TMvec (exact TMvec M)); rewrite isValid_exact.
  unfold Rexp_Mvec; cbn [snd]; dvals.
  change (@sync xreal Arith_X Libm_X) with xsync.
  cbv -[Rplus Rmult Rminus Ropp Rinv Rdiv R R0 R1 IZR xsync Rsync xsqrt cos sin exp sqrt].
  rewrite !xsqrt_some by (pose proof Rle_0_sqr as h; unfold Rsqr in h; repeat apply Rplus_le_le_0_compat; apply h).
  unfold xsync; rewrite !sync_exact.
  apply mvec_some; field.
Qed.

(** *** Spinor arguments *)
Lemma exp_Mvec_spinor : forall S : Spinor R, exists r E,
  exp_Mvec (exact TMvec (mkMvec (spinSca S) zero_Vec (spinBiv S) zero_Tri)) = exact TMvec r /\
  is_cexp (den TSpin S) E /\
  (spinBiv S = zero TBiv \/ sync_lim <= cnorm (den TBiv (spinBiv S)) -> ceq (den TMvec r) E) /\
  cnorm (csub (den TMvec r) E) <=
    exp (sca_0 (spinSca S)) * (2 / 10 ^ 28) * cnorm (den TBiv (spinBiv S)).
Proof.
  intros S; rewrite exp_Mvec_exact.
  set (s := sca_0 (spinSca S)); set (m := cnorm (den TBiv (spinBiv S))).
  set (r := Rexp_Mvec _).
  assert (Er : ceq (den TMvec r) (cscale (exp s) (cadd (cscale (cos m) cone) (cscale (Rsync m) (den TBiv (spinBiv S)))))).
  { unfold r, Rexp_Mvec.
    assert (E1 : forall x y z : R, (0 - z) * (0 - z) + (0 + - y) * (0 + - y) + (0 - x) * (0 - x) = x * x + y * y + z * z)
      by (intros; ring).
    assert (E2 : forall x y z : R, (0 + z) * (0 + z) + (0 - - y) * (0 - - y) + (0 + x) * (0 + x) = x * x + y * y + z * z)
      by (intros; ring).
    cbn [mvVec mvTri mvSca mvBiv].
    change (tri_0 zero_Tri) with 0; change (vec_0 zero_Vec) with 0; change (vec_1 zero_Vec) with 0;
    change (vec_2 zero_Vec) with 0.
    rewrite E1, E2, Ropp_0, exp_0; cbv zeta.
    assert (Em : sqrt (biv_0 (spinBiv S) * biv_0 (spinBiv S) + biv_1 (spinBiv S) * biv_1 (spinBiv S)
       + biv_2 (spinBiv S) * biv_2 (spinBiv S)) = m).
    { unfold m, cnorm; f_equal; clear; dvals; dring. }
    rewrite Em; clearbody m; fold s; clearbody s; clear r Em.
    dvals; intro k; dblade k; cbv -[Rplus Rmult Rminus Ropp Rinv Rdiv R R0 R1 IZR Rsync cos exp]; field. }
  exists r, (cscale (exp s) (cadd (cscale (cos m) cone) (cscale (sinc m) (den TBiv (spinBiv S))))).
  split; [reflexivity|]; split; [|split].
  - apply (is_cexp_ceq (cadd (cscale s cone) (den TBiv (spinBiv S))) _
      (gp (cscale (exp s) cone) (cadd (cscale (cos m) cone) (cscale (sinc m) (den TBiv (spinBiv S))))));
      [symmetry; apply spin_den | apply gp_scalar_l|].
    apply cexp_add; [|apply cexp_scalar | apply cexp_square, biv_sq].
    rewrite gp_scalar_l, gp_scale_r, gp_one_r; reflexivity.
  - intros H; rewrite Er.
    assert (Hs : Rsync m = sinc m).
    { destruct H as [H|H]; [|apply Rsync_exact, H].
      unfold m; rewrite H, (cnorm_ceq _ _ (zero_den TBiv)), cnorm_zero; apply Rsync_0. }
    rewrite Hs; reflexivity.
  - assert (E3 : ceq (csub (den TMvec r) (cscale (exp s) (cadd (cscale (cos m) cone) (cscale (sinc m) (den TBiv (spinBiv S))))))
      (cscale (exp s * (Rsync m - sinc m)) (den TBiv (spinBiv S)))).
    { rewrite Er; intro k; unfold csub, cscale, cadd; ring. }
    rewrite (cnorm_ceq _ _ E3), cnorm_scale, Rabs_mult, (Rabs_pos_eq (exp s)) by (apply Rlt_le, exp_pos).
    fold m; apply Rmult_le_compat_r; [apply cnorm_nonneg|].
    apply Rmult_le_compat_l; [apply Rlt_le, exp_pos | apply Rsync_error, cnorm_nonneg].
Qed.

(** *** Trivector and vector arguments *)
Lemma cosh_gt_1 t : t <> 0 -> 1 < (exp t + exp (- t)) / 2.
Proof.
  intros H; pose proof (exp_ineq1 t H); pose proof (exp_ineq1 (- t) ltac:(lra)); lra.
Qed.

Lemma exp_Mvec_tri_wrong : forall t : R, t <> 0 -> exists r E,
  exp_Mvec (exact TMvec (mkMvec zero_Sca zero_Vec zero_Biv (Tri t))) = exact TMvec r /\
  is_cexp (den TTri (Tri t)) E /\ ~ ceq (den TMvec r) E.
Proof.
  intros t Ht; rewrite exp_Mvec_exact.
  do 2 eexists; split; [reflexivity|]; split.
  - apply (cexp_square _ t); intro k; dblade k; dring.
  - intros H; specialize (H (B false false false)).
    unfold Rexp_Mvec in H; cbn [mvVec mvTri mvSca mvBiv] in H; cbv zeta in H.
    change (sca_0 zero_Sca) with 0 in H;
    change (tri_0 (Tri t)) with t in H; change (vec_0 zero_Vec) with 0 in H; change (vec_1 zero_Vec) with 0 in H;
    change (vec_2 zero_Vec) with 0 in H; change (biv_0 zero_Biv) with 0 in H; change (biv_1 zero_Biv) with 0 in H;
    change (biv_2 zero_Biv) with 0 in H.
    assert (E1 : (0 - 0) * (0 - 0) + (0 + - 0) * (0 + - 0) + (0 - 0) * (0 - 0) = 0) by ring.
    assert (E2 : (0 + 0) * (0 + 0) + (0 - - 0) * (0 - - 0) + (0 + 0) * (0 + 0) = 0) by ring.
    rewrite E1, E2, sqrt_0, exp_0, cos_0 in H; clear E1 E2.
    cbv -[Rplus Rmult Rminus Ropp Rinv Rdiv R R0 R1 IZR Rsync cos exp sinc] in H.
    pose proof (cosh_gt_1 t Ht); pose proof (COS_bound t); lra.
Qed.

(** Elements whose square is a positive scalar. *)
Section SquarePositive.
Context (a : clf) (m : R) (Hm : m <> 0) (Ha : ceq (gp a a) (cscale (m * m) cone)).
Let Pp : clf := cscale (/ 2) (cadd cone (cscale (/ m) a)).
Let Pm : clf := cscale (/ 2) (csub cone (cscale (/ m) a)).
Lemma gp_csub_l x y c : ceq (gp (csub x y) c) (csub (gp x c) (gp y c)).
Proof.
  assert (E : ceq (csub x y) (cadd x (cscale (-1) y))) by (intro k; unfold csub, cadd, cscale; ring).
  rewrite E, gp_add_l, gp_scale_l; intro k; unfold csub, cadd, cscale; ring.
Qed.
Lemma cpow_pm n : ceq (cpow a n) (cadd (cscale (m ^ n) Pp) (cscale ((- m) ^ n) Pm)).
Proof.
  induction n; cbn [cpow pow].
  - unfold Pp, Pm; intro k; unfold csub, cadd, cscale; field; exact Hm.
  - rewrite IHn.
    assert (Ep : ceq (gp a Pp) (cscale m Pp)).
    { unfold Pp; rewrite gp_scale_r, gp_add_r, gp_one_r, gp_scale_r, Ha.
      intro k; unfold csub, cadd, cscale; field; exact Hm. }
    assert (Em : ceq (gp a Pm) (cscale (- m) Pm)).
    { assert (E : ceq Pm (cscale (/ 2) (cadd cone (cscale (- / m) a))))
        by (unfold Pm; intro k; unfold csub, cadd, cscale; ring).
      rewrite E, gp_scale_r, gp_add_r, gp_one_r, gp_scale_r, Ha.
      intro k; unfold csub, cadd, cscale; field; exact Hm. }
    rewrite gp_add_r, !gp_scale_r, Ep, Em; intro k; unfold csub, cadd, cscale; ring.
Qed.
Lemma cexp_square_pos : is_cexp a
  (cadd (cscale ((exp m + exp (- m)) / 2) cone) (cscale ((exp m - exp (- m)) / 2 / m) a)).
Proof.
  intro k.
  apply (Rseries_ext (fun n => Pp k * (m ^ n / INR (fact n)) + Pm k * ((- m) ^ n / INR (fact n)))).
  - intro n; rewrite (cpow_pm n k); unfold cadd, cscale; field; apply INR_fact_neq_0.
  - replace (cadd (cscale ((exp m + exp (- m)) / 2) cone) (cscale ((exp m - exp (- m)) / 2 / m) a) k)
      with (Pp k * exp m + Pm k * exp (- m)).
    2:{ unfold Pp, Pm, cadd, csub, cscale; field; exact Hm. }
    apply (is_series_plus (fun n => Pp k * (m ^ n / INR (fact n))) (fun n => Pm k * ((- m) ^ n / INR (fact n))));
      apply (is_series_scal (V := R_NormedModule)); apply exp_series.
Qed.
End SquarePositive.

Lemma vec_sq (v : Vector R) :
  ceq (gp (den TVec v) (den TVec v)) (cscale (cnorm (den TVec v) * cnorm (den TVec v)) cone).
Proof. rewrite cnorm_sq; dvals; intro k; dblade k; dring. Qed.

Lemma exp_Mvec_vec_wrong : forall v : Vector R, v <> zero TVec -> exists r E,
  exp_Mvec (exact TMvec (mkMvec zero_Sca v zero_Biv zero_Tri)) = exact TMvec r /\
  is_cexp (den TVec v) E /\ ~ ceq (den TMvec r) E.
Proof.
  intros v Hv; rewrite exp_Mvec_exact.
  assert (Hm : 0 < cnorm (den TVec v)).
  { apply cnorm_pos; intros h; apply Hv, (den_inj TVec); rewrite h; symmetry; apply (zero_den TVec). }
  do 2 eexists; split; [reflexivity|]; split.
  - apply (cexp_square_pos _ (cnorm (den TVec v))); [lra | apply vec_sq].
  - intros H; specialize (H (B false false false)).
    unfold Rexp_Mvec in H; cbn [mvVec mvTri mvSca mvBiv] in H; cbv zeta in H.
    change (sca_0 zero_Sca) with 0 in H;
    change (tri_0 zero_Tri) with 0 in H; change (biv_0 zero_Biv) with 0 in H; change (biv_1 zero_Biv) with 0 in H;
    change (biv_2 zero_Biv) with 0 in H.
    rewrite Ropp_0, exp_0 in H.
    match type of H with context [1 * cos (sqrt ?a) + 1 * cos (sqrt ?b)] =>
      set (p := cos (sqrt a)) in *; set (q := cos (sqrt b)) in *;
      pose proof (COS_bound (sqrt a)) as H1; pose proof (COS_bound (sqrt b)) as H2 end.
    fold p in H1; fold q in H2; clearbody p q.
    assert (Hc := cosh_gt_1 _ (Rgt_not_eq _ _ Hm)).
    generalize dependent (cnorm (den TVec v)); intros m _ H Hc.
    dvals; cbv -[Rplus Rmult Rminus Ropp Rinv Rdiv R R0 R1 IZR Rsync cos exp sinc] in H.
    lra.
Qed.

(** ** Logarithm *)
Lemma atan2_upper y x : 0 < y -> x * x + y * y = 1 ->
  0 < Ratan2 y x < PI /\ cos (Ratan2 y x) = x /\ sin (Ratan2 y x) = y.
Proof.
  intros Hy H1.
  assert (Hx : x <> 0 -> sqrt (1 + (y / x) * (y / x)) = / Rabs x).
  { intros hx. replace (1 + y / x * (y / x)) with (/ Rabs x * / Rabs x).
    - apply sqrt_square; apply Rlt_le, Rinv_0_lt_compat, Rabs_pos_lt, hx.
    - assert (E : Rabs x * Rabs x = x * x) by (rewrite <- Rabs_mult; apply Rabs_pos_eq; nra).
      rewrite <- Rinv_mult, E. replace 1 with (x * x + y * y) at 2 by exact H1.
      replace (/ (x * x)) with ((x * x + y * y) / (x * x)) by (rewrite H1; field; exact hx).
      field; exact hx. }
  unfold Ratan2; destruct (Rlt_dec 0 x) as [h|h]; [|destruct (Rlt_dec x 0) as [h'|h']].
  - pose proof (atan_bound (y / x)).
    assert (Ha : 0 < atan (y / x)) by (rewrite <- atan_0; apply atan_increasing, Rdiv_lt_0_compat; lra).
    pose proof PI_RGT_0; split; [lra|].
    rewrite cos_atan, sin_atan; unfold Rsqr; rewrite Hx, Rabs_pos_eq by lra.
    split; field; lra.
  - destruct (Rle_dec 0 y); [|lra].
    pose proof (atan_bound (y / x)).
    assert (Ha : atan (y / x) < 0).
    { rewrite <- atan_0; apply atan_increasing.
      unfold Rdiv; pose proof (Rinv_lt_0_compat _ h'); nra. }
    pose proof PI_RGT_0; split; [lra|].
    rewrite neg_cos, neg_sin, cos_atan, sin_atan; unfold Rsqr; rewrite Hx, Rabs_left by lra.
    split; field; lra.
  - destruct (Rlt_dec 0 y); [|lra].
    assert (x = 0) by lra; subst x.
    pose proof PI_RGT_0; split; [lra|]; rewrite cos_PI2, sin_PI2; split; [reflexivity | nra].
Qed.

Lemma cnorm_unit_scale t (x : val R t) r : 0 <= r -> cnorm (den t x) = 1 -> cnorm (den t (scale t r x)) = r.
Proof. intros Hr H; rewrite (cnorm_ceq _ _ (scale_den t r x)), cnorm_scale, H, Rabs_pos_eq by exact Hr; ring. Qed.

Lemma exp_angle : forall th (d : BiVector R), cnorm (den TBiv d) = 1 -> th = 0 \/ tiny < th ->
  exp_Biv (exact TBiv (scale TBiv th d)) = exact TSpin (rotor (cos th) (sin th) d).
Proof.
  intros th d Hd Hth; rewrite exp_Biv_exact.
  assert (H0 : 0 <= th) by (pose proof tiny_pos; lra).
  rewrite (cnorm_unit_scale TBiv d th H0 Hd); apply f_equal, (den_inj TSpin).
  destruct Hth as [-> | Hth].
  - rewrite Rltb_false by (apply Rlt_le, tiny_pos).
    rewrite !rotor_den, cos_0, sin_0, zero_den; intro k; unfold cadd, cscale, czero; ring.
  - rewrite Rltb_true by exact Hth.
    rewrite !rotor_den, scale_den; intro k; unfold cadd, cscale; f_equal.
    rewrite <- (sinc_mul th); ring.
Qed.

Lemma unit_biv_sq (d : BiVector R) : cnorm (den TBiv d) = 1 ->
  ceq (gp (den TBiv d) (den TBiv d)) (cscale (-1) cone).
Proof. intros H; rewrite biv_sq, H; intro k; unfold cscale; ring. Qed.

(** Two angles in the same plane. *)
Lemma rotor_diff c q c' q' d : cnorm (den TBiv d) = 1 ->
  cnorm (csub (den TSpin (rotor c q d)) (den TSpin (rotor c' q' d))) =
  sqrt ((c - c') * (c - c') + (q - q') * (q - q')).
Proof.
  intros H; rewrite (cnorm_ceq _ (cadd (cscale (c - c') cone) (cscale (q - q') (den TBiv d)))).
  - unfold cnorm; rewrite cnorm2_rotor, <- cnorm_sq, H; f_equal; ring.
  - rewrite !rotor_den; intro k; unfold csub, cadd, cscale; ring.
Qed.

Lemma near_pi th d : cnorm (den TBiv d) = 1 -> 0 <= PI - th -> 
  cnorm (csub (den TSpin (rotor (cos th) (sin th) d)) (cscale (-1) cone)) <= PI - th.
Proof.
  intros Hd Ht.
  assert (E : ceq (cscale (-1) cone) (den TSpin (rotor (-1) 0 d)))
    by (rewrite rotor_den; intro k; unfold cadd, cscale; ring).
  rewrite E, rotor_diff by exact Hd.
  set (e := PI - th) in *.
  assert (Ec : cos th = - cos e).
  { unfold e; rewrite <- Rtrigo_facts.cos_pi_minus; f_equal; ring. }
  assert (Es : sin th = sin e).
  { unfold e; rewrite Rtrigo_facts.sin_pi_minus; reflexivity. }
  rewrite Ec, Es.
  replace ((- cos e - -1) * (- cos e - -1) + (sin e - 0) * (sin e - 0)) with (2 * (1 - cos e)).
  2:{ pose proof (sin2_cos2 e) as h; unfold Rsqr in h; nra. }
  assert (Hb : 2 * (1 - cos e) <= e * e).
  { replace (cos e) with (cos (2 * (e / 2))) by (f_equal; field).
    rewrite cos_2a_sin.
    assert (Hs : Rabs (sin (e / 2)) <= Rabs (e / 2)) by apply sin_le_abs.
    apply Rsqr_le_abs_1 in Hs; unfold Rsqr in Hs; nra. }
  eapply Rle_trans; [apply sqrt_le_1_alt; exact Hb|]; rewrite sqrt_square by exact Ht; lra.
Qed.

Lemma deps_val : deps = / 4503599627370496.
Proof. unfold deps; simpl; lra. Qed.
Lemma tiny_small : tiny <= / 4503599627370496.
Proof. rewrite <- deps_val; unfold tiny, deps; apply bpow_le; lia. Qed.
Lemma dmin_small : dmin <= / 4503599627370496.
Proof. rewrite <- deps_val; unfold dmin, deps; apply bpow_le; lia. Qed.

Definition pi53 : R := 7074237752028440 / 2251799813685248.
Lemma turnHalf_exact : (c_turnHalf : xreal) = Some pi53.
Proof.
  unfold c_turnHalf, c_pi; cbn [nlit Arith_X]; apply f_equal; unfold pi53.
  replace (bpow radix2 (-51)) with (/ 2251799813685248) by (simpl; lra); reflexivity.
Qed.
Lemma pi53_bounds : 0 < PI - pi53 <= / 4503599627370496.
Proof. pose proof pi_double; fold pi53 in *; lra. Qed.

(** Unit spinors near +1 and -1. *)
Lemma near_one c y : c * c + y * y = 1 -> sqrt ((1 - c) * (1 - c) + y * y) = sqrt (2 * (1 - c)).
Proof. intros H; f_equal; nra. Qed.

Lemma branch_bound c : 1 - deps < c -> sqrt (2 * (1 - c)) <= 24 / 33554432 / 32.
Proof.
  intros H; rewrite deps_val in H.
  rewrite <- (sqrt_square (24 / 33554432 / 32)) by lra.
  apply sqrt_le_1_alt; lra.
Qed.

Lemma spin_scale_inv t (x : val R t) M : M <> 0 ->
  ceq (den t x) (cscale M (den t (scale t (1 / M) x))).
Proof. intros H; rewrite scale_den; intro k; unfold cscale; field; exact H. Qed.

Lemma logG2_cases : forall (S : Spinor R) (ref : BiVector R),
  let M := cnorm (den TSpin S) in
  deps < M -> tiny < cnorm (den TBiv ref) ->
  exists th d, logG2 (exact TSpin S) (exact TBiv ref) =
      exact TSpin (mkSpin (Sca (ln M)) (scale TBiv th d)) /\
    cnorm (den TBiv d) = 1 /\ 0 <= th <= PI /\ (th = 0 \/ 2 * tiny < th) /\
    (Rabs (sca_0 (spinSca S)) <= (1 - deps) * M ->
       ceq (cscale M (den TSpin (rotor (cos th) (sin th) d))) (den TSpin S)) /\
    cnorm (csub (cscale M (den TSpin (rotor (cos th) (sin th) d))) (den TSpin S)) <= branch_error * M.
Proof.
  intros S ref M HM Href.
  pose proof deps_pos as Hd0; pose proof deps_val as Hdv; pose proof tiny_pos as Ht0; pose proof tiny_small as Hts.
  assert (HM0 : 0 < M) by lra.
  set (U := scale TSpin (1 / M) S).
  assert (HS : ceq (den TSpin S) (cscale M (den TSpin U))) by (apply (spin_scale_inv TSpin); lra).
  set (c := sca_0 (spinSca U)); set (y := cnorm (den TBiv (spinBiv U))).
  assert (HUd : ceq (den TSpin U) (cadd (cscale c cone) (den TBiv (spinBiv U)))) by apply spin_den.
  assert (Hy0 : 0 <= y) by apply cnorm_nonneg.
  assert (Hcy : c * c + y * y = 1).
  { assert (HU1 : cnorm2 (den TSpin U) = 1).
    { unfold U; rewrite (cnorm2_ceq _ _ (scale_den TSpin (1 / M) S)), cnorm2_scale, <- cnorm_sq; fold M; field; lra. }
    rewrite <- HU1; unfold y; rewrite cnorm_sq; unfold c; clear.
    generalize U; intro V; clear U; dvals; dring. }
  assert (HcS : c = sca_0 (spinSca S) / M).
  { unfold c, U; clear - HM0; clearbody M; dvals; cbv -[Rplus Rminus Rmult Ropp Rdiv Rinv R R0 R1 IZR]; field; lra. }
  assert (HbU : forall b, cnorm (csub (cscale M b) (den TSpin S)) = M * cnorm (csub b (den TSpin U))).
  { intro b; rewrite (cnorm_ceq _ (cscale M (csub b (den TSpin U)))).
    - rewrite cnorm_scale, Rabs_pos_eq by lra; reflexivity.
    - rewrite HS; intro k; unfold csub, cscale; ring. }
  assert (HL : logG2 (exact TSpin S) (exact TBiv ref) =
     if Rltb (1 - deps) c then exact TSpin (mkSpin (Sca (ln M)) zero_Biv)
     else if Rltb c (- (1 - deps)) then
       mkSpin (Sca (Some (ln M))) (mul_Dub_Biv c_turnHalf (direction TBiv (exact TBiv ref)))
     else mkSpin (Sca (Some (ln M)))
        (mul_Dub_Biv (Some (Ratan2 y c)) (snd (pairMagDirFrom TBiv (exact TBiv (spinBiv U)))))).
  { unfold logG2.
    change (isValid_Spin (exact TSpin S)) with (isValid TSpin (exact TSpin S)); rewrite isValid_exact.
    rewrite magnitude_exact; fold M; cbv zeta.
    unfold lim_epsilon; rewrite lit1; fold deps.
    change (nltb (Some deps : xreal) (Some M)) with (Rltb deps M); rewrite (Rltb_true _ _ HM).
    change (none_ : xreal) with (Some 1 : xreal); rewrite div_exact by lra.
    change (mul_Dub_Spin (Some (1 / M) : xreal) (exact TSpin S)) with (scale TSpin (Some (1 / M) : xreal) (exact TSpin S)).
    rewrite scale_exact; fold U.
    change (sca_0 (spinSca (exact TSpin U))) with (Some c).
    change (spinBiv (exact TSpin U)) with (exact TBiv (spinBiv U)).
    change (mlog (Some M : xreal)) with (xlog (Some M)); unfold xlog; rewrite (Rltb_true 0 M HM0).
    change (nsub (Some 1 : xreal) (Some deps)) with (Some (1 - deps) : xreal).
    change (nopp (Some (1 - deps) : xreal)) with (Some (- (1 - deps)) : xreal).
    change (nltb (Some (1 - deps) : xreal) (Some c)) with (Rltb (1 - deps) c).
    change (nltb (Some c : xreal) (Some (- (1 - deps)))) with (Rltb c (- (1 - deps))).
    destruct (Rltb (1 - deps) c); [reflexivity|].
    destruct (Rltb c (- (1 - deps))); [reflexivity|].
    rewrite pairMagDir_exact; reflexivity. }
  clearbody U.
  destruct (Rltb (1 - deps) c) eqn:E1.
  { (* near the positive axis *)
    apply Rltb_spec in E1.
    exists 0, c_e23; rewrite HL; split; [|split; [|split; [|split; [|split]]]].
    - apply f_equal, (den_inj TSpin); intro k; dblade k; dring.
    - unfold cnorm; replace (cnorm2 (den TBiv c_e23)) with 1 by dring; apply sqrt_1.
    - pose proof PI_RGT_0; lra.
    - left; reflexivity.
    - intros h; exfalso; pose proof (Rle_abs (sca_0 (spinSca S))).
      assert (c * M = sca_0 (spinSca S)) by (rewrite HcS; field; lra); nra.
    - rewrite HbU.
      assert (E : ceq (csub (den TSpin (rotor (cos 0) (sin 0) c_e23)) (den TSpin U))
         (cadd (cscale (1 - c) cone) (cscale (-1) (den TBiv (spinBiv U))))).
      { rewrite rotor_den, HUd, cos_0, sin_0; intro k; unfold csub, cadd, cscale; ring. }
      rewrite (cnorm_ceq _ _ E); unfold cnorm; rewrite cnorm2_rotor, <- cnorm_sq; fold y.
      replace (-1 * -1 * (y * y)) with (y * y) by ring; rewrite near_one by exact Hcy.
      rewrite (Rmult_comm branch_error); apply Rmult_le_compat_l; [lra|].
      eapply Rle_trans; [apply branch_bound, E1|]; unfold branch_error; lra. }
  assert (Hc1 : c <= 1 - deps).
  { apply Rnot_lt_le; intros h; apply Rltb_spec in h; congruence. }
  destruct (Rltb c (- (1 - deps))) eqn:E2.
  { (* near the negative axis *)
    apply Rltb_spec in E2.
    destruct (pairMagDir_split TBiv ref Href) as (m & d & Hp & _ & _ & Hd1 & _).
    pose proof pi53_bounds as Hpi.
    exists pi53, d; rewrite HL; split; [|split; [|split; [|split; [|split]]]].
    - unfold direction; rewrite Hp, turnHalf_exact; reflexivity.
    - exact Hd1.
    - unfold pi53 in *; lra.
    - right; unfold pi53; lra.
    - intros h; exfalso; pose proof (Rle_abs (- sca_0 (spinSca S))) as h'; rewrite Rabs_Ropp in h'.
      assert (c * M = sca_0 (spinSca S)) by (rewrite HcS; field; lra); nra.
    - rewrite HbU, (Rmult_comm branch_error); apply Rmult_le_compat_l; [lra|].
      assert (E : ceq (csub (den TSpin (rotor (cos pi53) (sin pi53) d)) (den TSpin U))
        (cadd (csub (den TSpin (rotor (cos pi53) (sin pi53) d)) (cscale (-1) cone))
              (cadd (cscale (-1 - c) cone) (cscale (-1) (den TBiv (spinBiv U)))))).
      { rewrite HUd; intro k; unfold csub, cadd, cscale; ring. }
      rewrite (cnorm_ceq _ _ E); eapply Rle_trans; [apply cnorm_triangle|].
      pose proof (near_pi pi53 d Hd1 ltac:(lra)) as Hn.
      unfold cnorm at 2; rewrite cnorm2_rotor, <- cnorm_sq; fold y.
      replace ((-1 - c) * (-1 - c) + -1 * -1 * (y * y)) with ((1 - - c) * (1 - - c) + y * y) by ring.
      rewrite near_one by lra.
      pose proof (branch_bound (- c) ltac:(lra)); unfold branch_error; lra. }
  assert (Hc2 : - (1 - deps) <= c).
  { apply Rnot_lt_le; intros h; apply Rltb_spec in h; congruence. }
  assert (Hy : 2 * tiny < y).
  { assert (deps * deps < y * y); [|pose proof tiny_small; nra].
    assert (c * c <= (1 - deps) * (1 - deps)) by nra.
    rewrite Hdv in *; nra. }
  destruct (pairMagDir_split TBiv (spinBiv U)) as (m & d & Hp & Hm0 & Hmd & Hd1 & Hmy); [fold y; lra|].
  fold y in Hmy; subst m.
  destruct (atan2_upper y c ltac:(lra) Hcy) as (Hth & Hcos & Hsin).
  exists (Ratan2 y c), d; rewrite HL; split; [|split; [|split; [|split; [|split]]]].
  - rewrite Hp; reflexivity.
  - exact Hd1.
  - lra.
  - right; pose proof (sin_lt_x (Ratan2 y c) ltac:(lra)); lra.
  - intros _; rewrite Hcos, Hsin, HS, HUd, rotor_den, Hmd; reflexivity.
  - rewrite HbU, Hcos, Hsin, (cnorm_ceq _ czero).
    + rewrite cnorm_zero; unfold branch_error; lra.
    + rewrite HUd, rotor_den, Hmd; intro k; unfold csub, cadd, cscale, czero; ring.
Qed.

Lemma biv_angle_norm th (d : BiVector R) : 0 <= th -> cnorm (den TBiv d) = 1 ->
  cnorm (den TBiv (scale TBiv th d)) = th.
Proof. apply (cnorm_unit_scale TBiv). Qed.

Lemma logG2_exp : forall (S : Spinor R) (ref : BiVector R),
  let M := cnorm (den TSpin S) in
  deps < M -> tiny < cnorm (den TBiv ref) ->
  exists L r, logG2 (exact TSpin S) (exact TBiv ref) = exact TSpin L /\
    exp_Spin (exact TSpin L) = exact TSpin r /\
    sca_0 (spinSca L) = ln M /\ cnorm (den TBiv (spinBiv L)) <= PI /\
    (Rabs (sca_0 (spinSca S)) <= (1 - deps) * M -> r = S) /\
    cnorm (csub (den TSpin r) (den TSpin S)) <= branch_error * M.
Proof.
  intros S ref M HM Href.
  destruct (logG2_cases S ref HM Href) as (th & d & HL & Hd & Hth & Htt & He & Hb).
  fold M in HL, He, Hb.
  exists (mkSpin (Sca (ln M)) (scale TBiv th d)), (scale TSpin M (rotor (cos th) (sin th) d)).
  split; [exact HL|]; split; [|split; [|split; [|split]]].
  - rewrite (exp_Spin_exact (mkSpin (Sca (ln M)) (scale TBiv th d)) (rotor (cos th) (sin th) d)).
    + cbn [spinSca]; change (sca_0 (Sca (ln M))) with (ln M).
      rewrite exp_ln by (pose proof deps_pos; lra); reflexivity.
    + apply exp_angle; [exact Hd | pose proof tiny_pos; lra].
  - reflexivity.
  - cbn [spinBiv]; rewrite biv_angle_norm by (lra || assumption); lra.
  - intros h; apply (den_inj TSpin); rewrite scale_den; apply He, h.
  - rewrite (cnorm_ceq _ (csub (cscale M (den TSpin (rotor (cos th) (sin th) d))) (den TSpin S)));
      [exact Hb | rewrite (scale_den TSpin); reflexivity].
Qed.

Lemma logG2_small : forall (S : Spinor R) (ref : BiVector xreal),
  cnorm (den TSpin S) <= deps -> logG2 (exact TSpin S) ref = null TSpin.
Proof.
  intros S ref H; unfold logG2.
  change (isValid_Spin (exact TSpin S)) with (isValid TSpin (exact TSpin S)); rewrite isValid_exact.
  rewrite magnitude_exact; cbv zeta.
  unfold lim_epsilon; rewrite lit1; fold deps.
  change (nltb (Some deps : xreal) (Some ?m)) with (Rltb deps m); rewrite (Rltb_false _ _ H); reflexivity.
Qed.

Lemma sqrtG2_square : forall (S : Spinor R) (ref : BiVector R),
  let M := cnorm (den TSpin S) in
  4 * deps <= M -> tiny < cnorm (den TBiv ref) ->
  exists q, sqrtG2 (exact TSpin S) (exact TBiv ref) = exact TSpin q /\
    0 <= sca_0 (spinSca q) /\ magSq TSpin q = M /\
    (Rabs (sca_0 (spinSca S)) <= (1 - deps) * M -> mul TSpin TSpin q q = S) /\
    cnorm (csub (den _ (mul TSpin TSpin q q)) (den TSpin S)) <= branch_error * M.
Proof.
  intros S ref M HM Href; pose proof deps_pos as Hd0.
  destruct (logG2_cases S ref ltac:(fold M; lra) Href) as (th & d & HL & Hd & Hth & Htt & He & Hb).
  fold M in HL, He, Hb.
  assert (E2 : exp (/ 2 * ln M) * exp (/ 2 * ln M) = M).
  { rewrite <- exp_plus; replace (/ 2 * ln M + / 2 * ln M) with (ln M) by field; apply exp_ln; lra. }
  set (g := exp (/ 2 * ln M)) in *.
  exists (scale TSpin g (rotor (cos (th / 2)) (sin (th / 2)) d)).
  assert (Hsq : ceq (den _ (mul TSpin TSpin (scale TSpin g (rotor (cos (th / 2)) (sin (th / 2)) d))
         (scale TSpin g (rotor (cos (th / 2)) (sin (th / 2)) d))))
     (cscale M (den TSpin (rotor (cos th) (sin th) d)))).
  { rewrite mul_den, !(scale_den TSpin), gp_scale_l, gp_scale_r, !rotor_den.
    rewrite gp_add_l, !gp_add_r, !gp_scale_l, !gp_scale_r, unit_biv_sq, !gp_one_l, gp_one_r by exact Hd.
    rewrite <- E2.
    assert (C2 : cos th = cos (th / 2) * cos (th / 2) - sin (th / 2) * sin (th / 2))
      by (rewrite <- cos_2a; f_equal; field).
    assert (S2 : sin th = 2 * sin (th / 2) * cos (th / 2))
      by (rewrite <- sin_2a; f_equal; field).
    rewrite C2, S2; intro k; unfold cadd, cscale; ring. }
  split; [|split; [|split; [|split]]].
  - unfold sqrtG2.
    change (isValid_Spin (exact TSpin S)) with (isValid TSpin (exact TSpin S)); rewrite isValid_exact.
    rewrite magnitude_exact; fold M; cbv zeta.
    unfold lim_epsilon; rewrite lit1, lit0, lit1; fold deps.
    change (nltb (Some M : xreal) (nmul (Some 4 : xreal) (Some deps))) with (Rltb M (4 * deps)).
    rewrite Rltb_false by exact HM.
    rewrite HL.
    change (mul_Dub_Spin (Some (bpow radix2 (-1)) : xreal) (exact TSpin ?x)) with
      (scale TSpin (Some (bpow radix2 (-1)) : xreal) (exact TSpin x)).
    rewrite scale_exact.
    replace (scale TSpin (bpow radix2 (-1)) (mkSpin (Sca (ln M)) (scale TBiv th d))) with
      (mkSpin (Sca (/ 2 * ln M)) (scale TBiv (th / 2) d)).
    2:{ replace (bpow radix2 (-1)) with (/ 2) by (simpl; lra).
        clear; clearbody M; apply (den_inj TSpin); dvals; intro k; dblade k;
        cbv -[Rplus Rminus Rmult Ropp Rdiv Rinv R R0 R1 IZR ln]; field. }
    apply (exp_Spin_exact (mkSpin (Sca (/ 2 * ln M)) (scale TBiv (th / 2) d))).
    apply exp_angle; [exact Hd | lra].
  - change (0 <= g * cos (th / 2)).
    apply Rmult_le_pos; [apply Rlt_le, exp_pos|]; apply cos_ge_0; lra.
  - assert (E : magSq TSpin (scale TSpin g (rotor (cos (th / 2)) (sin (th / 2)) d)) =
        g * g * (cos (th / 2) * cos (th / 2) + sin (th / 2) * sin (th / 2) * (cnorm (den TBiv d) * cnorm (den TBiv d)))).
    { rewrite cnorm_sq; clear; generalize g; intro; dvals; cbv -[Rplus Rminus Rmult Ropp Rdiv Rinv R R0 R1 IZR ln cos sin]; ring. }
    rewrite E, Hd, E2; pose proof (sin2_cos2 (th / 2)) as h; unfold Rsqr in h.
    replace (cos (th / 2) * cos (th / 2) + sin (th / 2) * sin (th / 2) * (1 * 1)) with 1 by lra; ring.
  - intros h; apply (den_inj TSpin); etransitivity; [exact Hsq|]; apply He, h.
  - erewrite cnorm_ceq; [exact Hb|]; rewrite Hsq; reflexivity.
Qed.

Lemma sqrtG2_small : forall (S : Spinor R) (ref : BiVector xreal),
  cnorm (den TSpin S) < 4 * deps -> sqrtG2 (exact TSpin S) ref = exact TSpin (zero TSpin).
Proof.
  intros S ref H; unfold sqrtG2.
  change (isValid_Spin (exact TSpin S)) with (isValid TSpin (exact TSpin S)); rewrite isValid_exact.
  rewrite magnitude_exact; cbv zeta.
  unfold lim_epsilon; rewrite lit1, lit0; fold deps.
  change (nltb (Some ?M : xreal) (nmul (Some 4 : xreal) (Some deps))) with (Rltb M (4 * deps)).
  rewrite (Rltb_true _ _ H); reflexivity.
Qed.

(** Without a usable plane the logarithm of a negative number is null. *)
Lemma logG2_no_plane : forall (S : Spinor R) (ref : BiVector R),
  let M := cnorm (den TSpin S) in
  deps < M -> sca_0 (spinSca S) < - (1 - deps) * M -> cnorm (den TBiv ref) <= tiny ->
  isValid TSpin (logG2 (exact TSpin S) (exact TBiv ref)) = false.
Proof.
  intros S ref M HM Hc Href; unfold logG2.
  pose proof deps_pos; pose proof deps_val.
  assert (HM0 : 0 < M) by lra.
  change (isValid_Spin (exact TSpin S)) with (isValid TSpin (exact TSpin S)); rewrite isValid_exact.
  rewrite magnitude_exact; fold M; cbv zeta.
  unfold lim_epsilon; rewrite lit1; fold deps.
  change (nltb (Some deps : xreal) (Some M)) with (Rltb deps M); rewrite (Rltb_true _ _ HM).
  change (none_ : xreal) with (Some 1 : xreal); rewrite div_exact by lra.
  change (mul_Dub_Spin (Some (1 / M) : xreal) (exact TSpin S)) with (scale TSpin (Some (1 / M) : xreal) (exact TSpin S)).
  rewrite scale_exact.
  set (U := scale TSpin (1 / M) S).
  change (sca_0 (spinSca (exact TSpin U))) with (Some (sca_0 (spinSca U))).
  assert (HcS : sca_0 (spinSca U) * M = sca_0 (spinSca S)).
  { unfold U; clear - HM0; clearbody M; dvals; cbv -[Rplus Rminus Rmult Ropp Rdiv Rinv R R0 R1 IZR]; field; lra. }
  set (c := sca_0 (spinSca U)) in *.
  change (nsub (Some 1 : xreal) (Some deps)) with (Some (1 - deps) : xreal).
  change (nopp (Some (1 - deps) : xreal)) with (Some (- (1 - deps)) : xreal).
  change (nltb (Some (1 - deps) : xreal) (Some c)) with (Rltb (1 - deps) c).
  change (nltb (Some c : xreal) (Some (- (1 - deps)))) with (Rltb c (- (1 - deps))).
  rewrite Rltb_false by nra.
  rewrite Rltb_true by nra.
  unfold direction; rewrite pairMagDir_tiny by exact Href.
  unfold isValid, isValid_Spin; apply andb_false_intro2; reflexivity.
Qed.
