(** * Accuracy of logarithm and square root of spinors on binary64: proofs. *)

Require Import Reals ZArith List Bool Lra Lia.
From Flocq Require Import Core Relative BinarySingleNaN.
Require Import Verif.Num Verif.Types Verif.Priv Verif.OpsUni Verif.OpsAdd Verif.OpsSub
  Verif.OpsMul Verif.Const Verif.Validity Verif.Func Verif.SpecCl Verif.RealInst Verif.AlgTac Verif.AlgMul Verif.AlgFacts Verif.SpecFunc
  Verif.FuncFacts Verif.SpecExp Verif.ExpFacts Verif.ExpThm Verif.LogThm Verif.Rel Verif.B64 Verif.B64Facts Verif.SpecValid Verif.ValidFacts
  Verif.SpecRound Verif.ArrErr Verif.IntFacts Verif.ErrFacts Verif.SpecAcc Verif.BoundFacts Verif.AccFacts Verif.NormFacts Verif.ExpAcc Verif.SpecConst Verif.PiFacts Verif.NearPi.
Import ListNotations.
Local Open Scope R_scope.

(** ** Real analysis *)
Lemma cos_quadratic : forall x, 2 - 2 * cos x <= x * x.
Proof.
  intros x. assert (E : cos x = 1 - 2 * (sin (x / 2) * sin (x / 2))).
  { replace x with (2 * (x / 2)) at 1 by field. rewrite cos_2a_sin. ring. }
  pose proof (sin_le_abs (x / 2)) as H. 
  assert (Q : sin (x / 2) * sin (x / 2) <= (x / 2) * (x / 2)).
  { assert (S : forall v, v * v = Rabs v * Rabs v) by (intros v; rewrite <- Rabs_mult; symmetry; apply Rabs_pos_eq, Rle_0_sqr).
    rewrite (S (sin _)), (S (x / 2)). apply Rmult_le_compat; try apply Rabs_pos; exact H. }
  rewrite E. nra.
Qed.
Lemma sinc_le1 : forall m, Rabs (sinc m) <= 1.
Proof.
  intros m. unfold sinc. destruct (Req_EM_T m 0) as [h|h]; [rewrite Rabs_R1; lra|].
  unfold Rdiv. rewrite Rabs_mult, Rabs_inv. pose proof (Rabs_pos_lt m h) as P.
  apply Rmult_le_reg_r with (Rabs m); [exact P|]. rewrite Rmult_assoc, Rinv_l, Rmult_1_r, Rmult_1_l by lra. apply sin_le_abs.
Qed.

(** Exponentials of bivectors are not further apart than the bivectors. *)
Lemma cexp_lip : forall (x y : BiVector R) EX EY, is_cexp (den TBiv x) EX -> is_cexp (den TBiv y) EY ->
  cnorm (csub EX EY) <= cnorm (csub (den TBiv x) (den TBiv y)).
Proof.
  intros x y EX EY HX HY.
  assert (QX : ceq EX (cadd (cscale (cos (cnorm (den TBiv x))) cone) (cscale (sinc (cnorm (den TBiv x))) (den TBiv x)))).
  { apply (is_cexp_unique (den TBiv x)); [exact HX|]. apply cexp_square, biv_sq. }
  assert (QY : ceq EY (cadd (cscale (cos (cnorm (den TBiv y))) cone) (cscale (sinc (cnorm (den TBiv y))) (den TBiv y)))).
  { apply (is_cexp_unique (den TBiv y)); [exact HY|]. apply cexp_square, biv_sq. }
  pose proof (cnorm_sq (den TBiv x)) as Px. pose proof (cnorm_sq (den TBiv y)) as Py.
  pose proof (cnorm_nonneg (den TBiv x)) as Nx. pose proof (cnorm_nonneg (den TBiv y)) as Ny.
  change (sqrt (cnorm2 (csub EX EY)) <= sqrt (cnorm2 (csub (den TBiv x) (den TBiv y)))). apply sqrt_le_1_alt.
  pose proof (sinc_mul (cnorm (den TBiv x))) as Sx. pose proof (sinc_mul (cnorm (den TBiv y))) as Sy.
  pose proof (sinc_le1 (cnorm (den TBiv x))) as Lx. pose proof (sinc_le1 (cnorm (den TBiv y))) as Ly.
  pose proof (sin2_cos2 (cnorm (den TBiv x))) as Tx. pose proof (sin2_cos2 (cnorm (den TBiv y))) as Ty. unfold Rsqr in Tx, Ty.
  pose proof (cos_quadratic (cnorm (den TBiv x) - cnorm (den TBiv y))) as C. rewrite cos_minus in C.
  revert Px Py Nx Ny Sx Sy Lx Ly Tx Ty C QX QY.
  generalize (cnorm (den TBiv x)) (cnorm (den TBiv y)). intros p q. 
  generalize (sin p) (cos p) (sinc p) (sin q) (cos q) (sinc q). intros sp cp kp sq cq kq Px Py Nx Ny Sx Sy Lx Ly Tx Ty C QX QY.
  destruct x as [[x1 x2 x3]], y as [[y1 y2 y3]].
  assert (Px' : p * p = x1 * x1 + x2 * x2 + x3 * x3) by (rewrite Px; dring).
  assert (Py' : q * q = y1 * y1 + y2 * y2 + y3 * y3) by (rewrite Py; dring).
  set (g := x1 * y1 + x2 * y2 + x3 * y3).
  assert (G : g <= p * q).
  { assert (g * g <= (p * q) * (p * q)).
    { replace (p * q * (p * q)) with ((p * p) * (q * q)) by ring. rewrite Px', Py'. unfold g.
      pose proof (Rle_0_sqr (x1 * y2 - x2 * y1)). pose proof (Rle_0_sqr (x1 * y3 - x3 * y1)). pose proof (Rle_0_sqr (x2 * y3 - x3 * y2)). unfold Rsqr in *. lra. }
    assert (0 <= p * q) by (apply Rmult_le_pos; assumption). nra. }
  assert (K : kp * kq <= 1).
  { apply Rle_trans with (Rabs (kp * kq)); [apply Rle_abs|]. rewrite Rabs_mult.
    pose proof (Rabs_pos kp). pose proof (Rabs_pos kq). nra. }
  assert (E1 : cnorm2 (csub EX EY) = 2 - 2 * (cp * cq) - 2 * (kp * kq) * g).
  { transitivity ((cp - cq) * (cp - cq) + ((kp * x1 - kq * y1) * (kp * x1 - kq * y1) + (kp * x2 - kq * y2) * (kp * x2 - kq * y2) + (kp * x3 - kq * y3) * (kp * x3 - kq * y3))).
    - unfold cnorm2. cbn [map all_blades rsum fold_right]. unfold csub. rewrite !(QX _), !(QY _). dring.
    - transitivity (cp * cp + cq * cq - 2 * (cp * cq) + (kp * kp * (x1 * x1 + x2 * x2 + x3 * x3) + kq * kq * (y1 * y1 + y2 * y2 + y3 * y3) - 2 * (kp * kq) * g)); [unfold g; ring|].
      rewrite <- Px', <- Py'. replace (kp * kp * (p * p)) with ((p * kp) * (p * kp)) by ring. replace (kq * kq * (q * q)) with ((q * kq) * (q * kq)) by ring.
      rewrite Sx, Sy. lra. }
  match goal with |- _ <= ?z => assert (E2 : z = p * p + q * q - 2 * g) end.
  { rewrite Px', Py'. unfold g. dring. }
  rewrite E1, E2.
  assert (H : 0 <= (1 - kp * kq) * (p * q - g)) by (apply Rmult_le_pos; lra).
  assert (S : sp * sq = (p * q) * (kp * kq)) by (rewrite <- Sx, <- Sy; ring).
  rewrite S in C. nra.
Qed.

Lemma atan2_scale : forall y x r, 0 < r -> Ratan2 (y * r) (x * r) = Ratan2 y x.
Proof.
  intros y x r Hr. assert (D : x <> 0 -> y * r / (x * r) = y / x) by (intros h; field; split; lra).
  unfold Ratan2.
  destruct (Rlt_dec 0 x) as [a|a]; destruct (Rlt_dec 0 (x * r)) as [b|b]; try nra.
  - rewrite D by lra. reflexivity.
  - destruct (Rlt_dec x 0) as [c|c]; destruct (Rlt_dec (x * r) 0) as [d|d]; try nra.
    + rewrite D by lra. destruct (Rle_dec 0 y), (Rle_dec 0 (y * r)); try nra; reflexivity.
    + destruct (Rlt_dec 0 y), (Rlt_dec 0 (y * r)); try nra; try reflexivity.
      destruct (Rlt_dec y 0), (Rlt_dec (y * r) 0); try nra; reflexivity.
Qed.
Lemma atan2_polar : forall y x, 0 < y -> let r := sqrt (x * x + y * y) in
  0 < r /\ 0 < Ratan2 y x < PI /\ cos (Ratan2 y x) = x / r /\ sin (Ratan2 y x) = y / r.
Proof.
  intros y x Hy r. assert (P : 0 < x * x + y * y) by nra. assert (Hr : 0 < r) by (apply sqrt_lt_R0, P).
  assert (Er : r * r = x * x + y * y) by (apply sqrt_sqrt; lra).
  destruct (atan2_upper (y / r) (x / r)) as (A & B & C).
  - apply Rdiv_lt_0_compat; assumption.
  - replace (x / r * (x / r) + y / r * (y / r)) with ((x * x + y * y) / (r * r)) by (field; lra). rewrite Er. field. lra.
  - split; [exact Hr|]. unfold Rdiv in *. rewrite (atan2_scale y x (/ r)) in * by (apply Rinv_0_lt_compat, Hr). auto.
Qed.
Lemma exp_near : forall d e, Rabs d <= e -> e <= / 16 -> Rabs (exp d - 1) <= 16 / 15 * e.
Proof.
  intros d e Hd He. apply Rabs_le_inv in Hd. pose proof (exp_ineq1_le d) as A. pose proof (exp_ineq1_le (- d)) as B.
  rewrite exp_Ropp in B. pose proof (exp_pos d) as P. apply Rabs_le. split; [lra|].
  assert (Q : exp d * (1 - e) <= 1).
  { apply Rle_trans with (exp d * / exp d); [|rewrite Rinv_r; lra]. apply Rmult_le_compat_l; lra. }
  nra.
Qed.

(** ** When the scalar dominates, the direction's scalar is 1 up to one rounding *)
Lemma ulp_gt : forall x, Rabs x * u53 < ulp radix2 fexp64 x.
Proof. intros x. exact (ulp_FLT_gt radix2 (-1074) 53 x). Qed.
Lemma absorb : forall q w, generic_format radix2 fexp64 q -> 0 <= q -> w <= q * u53 / 2 -> rnd64 (q + w) <= q.
Proof.
  intros q w G P H. unfold rnd64. apply round_N_le_midp; [apply (fexp_correct 53 1024); reflexivity|exact G|].
  rewrite succ_eq_pos by exact P. pose proof (ulp_gt q) as U. rewrite Rabs_pos_eq in U by exact P. lra.
Qed.
Lemma sqrt_of_square : forall a, generic_format radix2 fexp64 a -> bpow radix2 (-500) <= a ->
  rnd64 (sqrt (rnd64 (a * a))) <= a.
Proof.
  intros a G H. assert (Pa : 0 < a) by (pose proof (bpow_gt_0 radix2 (-500)); lra).
  assert (P2 : 0 < a * a) by (apply Rmult_lt_0_compat; exact Pa).
  assert (V : Valid_exp fexp64) by (apply (fexp_correct 53 1024); reflexivity).
  set (q := rnd64 (a * a)).
  unfold rnd64 at 1. apply round_N_le_midp; [exact V|exact G|]. rewrite succ_eq_pos by lra.
  pose proof (ulp_gt a) as Ua. rewrite Rabs_pos_eq in Ua by lra. pose proof u53_pos as Pu.
  assert (K : ulp radix2 fexp64 (a * a) <= 2 * a * ulp radix2 fexp64 a).
  { rewrite !ulp_neq_0 by lra. unfold cexp. pose proof (bpow_mag_le radix2 a ltac:(lra)) as L. rewrite Rabs_pos_eq in L by lra.
    assert (M : (mag radix2 (a * a) <= 2 * mag radix2 a)%Z).
    { apply mag_le_bpow; [lra|]. rewrite Rabs_pos_eq by lra. replace (2 * mag radix2 a)%Z with (mag radix2 a + mag radix2 a)%Z by ring.
      rewrite bpow_plus. pose proof (bpow_mag_gt radix2 a) as Q. rewrite Rabs_pos_eq in Q by lra. apply Rmult_le_0_lt_compat; lra. }
    assert (M2 : (-500 < mag radix2 a)%Z).
    { apply (lt_bpow radix2). eapply Rle_lt_trans; [exact H|]. pose proof (bpow_mag_gt radix2 a) as Q. rewrite Rabs_pos_eq in Q by lra. exact Q. }
    apply Rle_trans with (bpow radix2 1 * bpow radix2 (mag radix2 a - 1) * bpow radix2 (fexp64 (mag radix2 a))).
    - rewrite <- !bpow_plus. apply bpow_le. change (fexp64 (mag radix2 (a * a))) with (Z.max (mag radix2 (a * a) - 53) (-1074)).
      change (fexp64 (mag radix2 a)) with (Z.max (mag radix2 a - 53) (-1074)). lia.
    - apply Rmult_le_compat_r; [apply bpow_ge_0|]. change (bpow radix2 1) with 2. lra. }
  pose proof (error_le_half_ulp radix2 fexp64 (fun x => negb (Z.even x)) (a * a)) as E. change (round radix2 fexp64 _ (a * a)) with q in E.
  apply Rabs_le_inv in E.
  destruct (Rle_or_lt q (a * a)) as [h|h].
  - apply Rle_lt_trans with a; [|nra]. rewrite <- (sqrt_square a) by lra. apply sqrt_le_1_alt. exact h.
  - rewrite <- (sqrt_square ((a + (a + ulp radix2 fexp64 a)) / 2)) by nra. apply sqrt_lt_1_alt. split; [lra|].
    set (z := ulp radix2 fexp64 a) in *. nra.
Qed.

Lemma rnd_mono : forall x y, x <= y -> rnd64 x <= rnd64 y.
Proof. intros x y H. apply round_le; [apply (fexp_correct 53 1024); reflexivity|apply valid_rnd_N|exact H]. Qed.
Lemma rnd_fmt : forall x, generic_format radix2 fexp64 x -> rnd64 x = x.
Proof. intros x G. apply round_generic; [apply valid_rnd_N|exact G]. Qed.
Lemma fmt_rnd : forall x, generic_format radix2 fexp64 (rnd64 x).
Proof. intros x. apply generic_format_round; [apply (fexp_correct 53 1024); reflexivity|apply valid_rnd_N]. Qed.
Lemma fmt_b2r : forall x : f64, generic_format radix2 fexp64 (b2r x).
Proof. intros x. exact (generic_format_B2R 53 1024 x). Qed.
Lemma fmt_below_one : generic_format radix2 fexp64 (1 - u53).
Proof.
  apply generic_format_FLT. exists (Float radix2 (2 ^ 53 - 1) (-53)); [|reflexivity|cbn [Fexp]; change (SpecFloat.emin 53 1024) with (-1074)%Z; lia].
  unfold F2R. cbn [Fnum Fexp]. rewrite u53_val. change (bpow radix2 (-53)) with (/ 9007199254740992).
  change (2 ^ 53 - 1)%Z with 9007199254740991%Z. lra.
Qed.
Lemma rel_normal : forall x, bpow radix2 (-1000) <= x -> (1 - u53) * x <= rnd64 x.
Proof.
  intros x H. assert (P : 0 < x) by (pose proof (bpow_gt_0 radix2 (-1000)); lra).
  pose proof (relative_error_N_FLT radix2 (-1074) 53 ltac:(reflexivity) (fun x => negb (Z.even x)) x) as E.
  rewrite Rabs_pos_eq in E by lra. change (FLT_exp (-1074) 53) with fexp64 in E.
  assert (U : / 2 * bpow radix2 (- (53) + 1) = u53) by (rewrite u53_val; cbn; lra). rewrite U in E.
  specialize (E ltac:(eapply Rle_trans; [apply bpow_le|exact H]; lia)). apply Rabs_le_inv in E. lra.
Qed.
Lemma spin_norm2 : forall s : Spinor f64, cnorm2 (exactly TSpin s) =
  b2r (sca_0 (spinSca s)) * b2r (sca_0 (spinSca s)) + cnorm2 (exactly TBiv (spinBiv s)).
Proof. intros [[[c]] [[x y z]]]. unfold exactly, cnorm2. cbv -[B2R Rplus Rmult Ropp R0 IZR]. ring. Qed.
Lemma spin_parts_finite : forall s : Spinor f64, all_finite TSpin s -> fin (sca_0 (spinSca s)) = true /\ all_finite TBiv (spinBiv s).
Proof. intros [[[c]] [[x y z]]] H. unfold all_finite in *. cbn in *. inversion H; subst. auto. Qed.
Lemma direction_shape : forall t (x : val f64 t), all_finite t x ->
  bpow radix2 (-480) <= cnorm (exactly t x) <= bpow radix2 480 ->
  direction t x = scale t (Bdiv mode_NE (@none_ f64 Ring0_B) (magnitude t x)) x.
Proof.
  intros t x F H. destruct (magnitude_facts t x F H) as [Fg Eg]. destruct H as [H1 _].
  unfold direction, pairMagDirFrom. cbn [snd].
  change (nltb lim_denorm_min (magnitude t x)) with (Bltb (f64_lit 1 (-1074)) (magnitude t x)).
  rewrite tiny_lt; [reflexivity | exact Fg|]. rewrite u53_val in Eg. apply Rabs_le_inv in Eg.
  apply Rlt_le_trans with (bpow radix2 (-481)); [apply bpow_lt; lia|].
  replace (-481)%Z with (-480 + -1)%Z by reflexivity. rewrite bpow_plus. change (bpow radix2 (-1)) with (/ 2). lra.
Qed.

Lemma dominant_scalar : forall s : Spinor f64, all_finite TSpin s ->
  bpow radix2 (-60) <= cnorm (exactly TSpin s) <= bpow radix2 480 ->
  cnorm (exactly TBiv (spinBiv s)) <= bpow radix2 (-31) * cnorm (exactly TSpin s) ->
  1 - u53 <= Rabs (b2r (sca_0 (spinSca (direction TSpin s)))).
Proof.
  intros s F H HB.
  assert (H' : bpow radix2 (-480) <= cnorm (exactly TSpin s) <= bpow radix2 480).
  { split; [|apply H]. eapply Rle_trans; [apply bpow_le|apply H]; lia. }
  rewrite (direction_shape TSpin s F H'). destruct (magnitude_facts TSpin s F H') as [Fg Eg].
  destruct (direction_accurate TSpin s F H') as [Fd _]. rewrite (direction_shape TSpin s F H') in Fd.
  apply spin_parts_finite in Fd. destruct Fd as [Fc _].
  pose proof (spin_norm2 s) as N2. rewrite <- cnorm_sq in N2. 
  destruct (spin_parts_finite s F) as [Fa Fb].
  change (sca_0 (spinSca (scale TSpin (Bdiv mode_NE (@none_ f64 Ring0_B) (magnitude TSpin s)) s))) with
    (Bmult mode_NE (Bdiv mode_NE (@none_ f64 Ring0_B) (magnitude TSpin s)) (sca_0 (spinSca s))) in *.
  set (c := sca_0 (spinSca s)) in *. set (b := spinBiv s) in *. set (N := cnorm (exactly TSpin s)) in *. set (a := Rabs (b2r c)).
  assert (PN : 0 < N) by (pose proof (bpow_gt_0 radix2 (-60)); lra).
  assert (A2 : b2r c * b2r c = a * a) by (unfold a; rewrite <- Rabs_mult; symmetry; apply Rabs_pos_eq, Rle_0_sqr).
  rewrite A2 in N2. set (W := cnorm2 (exactly TBiv b)) in *. assert (PW : 0 <= W) by apply cnorm2_nonneg.
  assert (HW : W <= bpow radix2 (-62) * (N * N)).
  { unfold W. rewrite <- cnorm_sq. replace (-62)%Z with (-31 + -31)%Z by reflexivity. rewrite bpow_plus.
    replace (bpow radix2 (-31) * bpow radix2 (-31) * (N * N)) with ((bpow radix2 (-31) * N) * (bpow radix2 (-31) * N)) by ring.
    apply Rmult_le_compat; auto using cnorm_nonneg. }
  change (bpow radix2 (-62)) with (/ 4611686018427387904) in HW.
  assert (Pa : 0 <= a) by apply Rabs_pos.
  assert (La : N <= 2 * a) by nra.
  assert (Ua : a <= N) by nra.
  assert (La' : bpow radix2 (-61) <= a).
  { replace (-61)%Z with (-60 + -1)%Z by reflexivity. rewrite bpow_plus. change (bpow radix2 (-1)) with (/ 2). lra. }
  assert (Ga : generic_format radix2 fexp64 a) by (unfold a; apply generic_format_abs, fmt_b2r).
  set (q := rnd64 (a * a)).
  pose proof u53_pos as Pu. pose proof eta_pos as Pe.
  assert (Q1 : (1 - u53) * (a * a) <= q).
  { apply rel_normal. apply Rle_trans with (bpow radix2 (-61) * bpow radix2 (-61)); [rewrite <- bpow_plus; apply bpow_le; lia|].
    apply Rmult_le_compat; auto using bpow_ge_0. }
  assert (LN : bpow radix2 (-120) <= N * N).
  { replace (-120)%Z with (-60 + -60)%Z by reflexivity. rewrite bpow_plus. apply Rmult_le_compat; auto using bpow_ge_0; lra. }
  assert (M : b2r (magnitude TSpin s) <= a).
  { assert (WB : within 480 TBiv b).
    { apply norm_within; [exact Fb|]. eapply Rle_trans; [|apply H]. eapply Rle_trans; [exact HB|].
      change (bpow radix2 (-31)) with (/ 2147483648). nra. }
    destruct (magSq_within 480 TBiv b ltac:(lia) WB) as [Fw _].
    pose proof (magSq_error TBiv b Fw) as Ew. fold W in Ew. set (w := b2r (magSq TBiv b)) in *.
    assert (Ke : eta <= u53 / 1000 * (bpow radix2 (-120))) by (apply eta_rel, bpow_le; lia).
    assert (Hw : w <= q * u53 / 2).
    { apply Rabs_le_inv in Ew. rewrite u53_val in *. set (z := bpow radix2 (-120)) in *. nra. }
    destruct (magSq_within 480 TSpin s ltac:(lia) ltac:(apply norm_within; [exact F|apply H])) as [Fm _].
    destruct (bsqrt_ok _ Fm (magSq_notneg TSpin s)) as [_ Rm].
    change (magnitude TSpin s) with (Bsqrt mode_NE (magSq TSpin s)). rewrite Rm.
    assert (S : magSq TSpin s = Bplus mode_NE (Bmult mode_NE c c) (magSq TBiv b)) by reflexivity.
    assert (Bq : a * a <= bpow radix2 960).
    { replace 960%Z with (480 + 480)%Z by reflexivity. rewrite bpow_plus. apply Rmult_le_compat; lra. }
    destruct (bmult_ok c c Fa Fa) as [Fcc Rcc].
    { apply (rnd_lt _ 960); [lia|]. rewrite A2, Rabs_pos_eq by nra. exact Bq. }
    rewrite A2 in Rcc. fold q in Rcc.
    assert (Rs : b2r (magSq TSpin s) <= q).
    { rewrite S in *. pose proof (Bplus_correct 53 1024 _ _ mode_NE _ _ Fcc Fw) as C. 
      destruct (bplus_ok _ _ Fcc Fw) as [_ Rp].
      - rewrite Rcc. fold w. apply (rnd_lt _ 962); [lia|].
        apply Rabs_le. assert (q <= bpow radix2 960).
        { unfold q. rewrite <- (rnd_fmt (bpow radix2 960)) by (apply fmt_bpow; lia). apply rnd_mono, Bq. }
        replace 962%Z with (960 + 2)%Z by reflexivity. rewrite bpow_plus. change (bpow radix2 2) with 4.
        pose proof (bpow_gt_0 radix2 960). apply Rabs_le_inv in Ew. rewrite u53_val in *. set (z := bpow radix2 (-120)) in *. nra.
      - rewrite Rp, Rcc. fold w. apply absorb; [apply fmt_rnd| |exact Hw]. rewrite u53_val in Q1. nra. }
    eapply Rle_trans; [apply rnd_mono, sqrt_le_1_alt, Rs|]. apply sqrt_of_square; [exact Ga|]. eapply Rle_trans; [apply bpow_le|exact La']; lia. }
  set (m := b2r (magnitude TSpin s)) in *.
  assert (Pm : 0 < m) by (apply Rabs_le_inv in Eg; rewrite u53_val in Eg; nra).
  assert (I1 : / a <= 1 / m) by (unfold Rdiv; rewrite Rmult_1_l; apply Rinv_le_contravar; assumption).
  assert (PIa : 0 < / a) by (apply Rinv_0_lt_compat; lra).
  assert (I2 : 1 / m <= bpow radix2 62).
  { unfold Rdiv. rewrite Rmult_1_l. rewrite <- (Rinv_inv (bpow radix2 62)), <- bpow_opp. apply Rinv_le_contravar; [apply bpow_gt_0|].
    apply Rabs_le_inv in Eg. rewrite u53_val in Eg. replace (- (62))%Z with (-60 + -2)%Z by reflexivity. rewrite bpow_plus. change (bpow radix2 (-2)) with (/ 4). lra. }
  destruct one_ok as [F1 E1].
  destruct (bdiv_ok (@none_ f64 Ring0_B) (magnitude TSpin s) F1) as [Fi Ri]; [fold m; lra| |].
  { rewrite E1. fold m. apply (rnd_lt _ 62); [lia|]. rewrite Rabs_pos_eq; lra. }
  rewrite E1 in Ri. fold m in Ri.
  assert (I3 : (1 - u53) * / a <= b2r (Bdiv mode_NE (@none_ f64 Ring0_B) (magnitude TSpin s))).
  { rewrite Ri. eapply Rle_trans; [|apply rnd_mono, I1]. apply rel_normal.
    rewrite <- (Rinv_inv (bpow radix2 (-1000))), <- bpow_opp. apply Rinv_le_contravar; [lra|].
    eapply Rle_trans; [exact Ua|]. eapply Rle_trans; [apply H|]. apply bpow_le; lia. }
  set (i := b2r (Bdiv mode_NE (@none_ f64 Ring0_B) (magnitude TSpin s))) in *.
  assert (Pi : 0 <= i). { assert (0 <= (1 - u53) * / a) by (apply Rmult_le_pos; rewrite ?u53_val; lra). lra. }
  assert (Ui : i <= bpow radix2 62).
  { rewrite Ri. rewrite <- (rnd_fmt (bpow radix2 62)) by (apply fmt_bpow; lia). apply rnd_mono, I2. }
  assert (ia : 1 - u53 <= Rabs (i * b2r c)).
  { rewrite Rabs_mult, (Rabs_pos_eq i) by exact Pi. fold a. apply Rle_trans with ((1 - u53) * / a * a); [right; field; lra|].
    apply Rmult_le_compat_r; lra. }
  destruct (bmult_ok (Bdiv mode_NE (@none_ f64 Ring0_B) (magnitude TSpin s)) c Fi Fa) as [_ Rc].
  { fold i. apply (rnd_lt _ 542); [lia|]. rewrite Rabs_mult, (Rabs_pos_eq i) by exact Pi. fold a.
    replace 542%Z with (62 + 480)%Z by reflexivity. rewrite bpow_plus. apply Rmult_le_compat; lra. }
  rewrite Rc. fold i.
  rewrite <- round_NE_abs by (apply (fexp_correct 53 1024); reflexivity).
  rewrite <- (rnd_fmt (1 - u53)) at 1 by apply fmt_below_one. apply rnd_mono. exact ia.
Qed.

(** ** The logarithm *)
Lemma cexp_biv_norm : forall (b : BiVector f64) E, is_cexp (exactly TBiv b) E -> cnorm E = 1.
Proof.
  intros b E HE. set (X := exactly TBiv b) in *.
  assert (Q : ceq E (cadd (cscale (cos (cnorm X)) cone) (cscale (sinc (cnorm X)) X))).
  { apply (is_cexp_unique X); [exact HE|]. apply cexp_square. apply (biv_sq (mapv (fun v : f64 => b2r v) TBiv b)). }
  rewrite (cnorm_ceq _ _ Q). unfold cnorm at 1.
  pose proof (cnorm2_rotor (cos (cnorm X)) (sinc (cnorm X)) (mapv (fun v : f64 => b2r v) TBiv b)) as C.
  change (den TBiv (mapv (fun v : f64 => b2r v) TBiv b)) with X in C. rewrite C, <- cnorm_sq.
  replace (sinc (cnorm X) * sinc (cnorm X) * (cnorm X * cnorm X)) with ((cnorm X * sinc (cnorm X)) * (cnorm X * sinc (cnorm X))) by ring.
  rewrite sinc_mul. pose proof (sin2_cos2 (cnorm X)) as h. unfold Rsqr in h.
  replace (cos (cnorm X) * cos (cnorm X) + sin (cnorm X) * sin (cnorm X)) with 1 by lra. apply sqrt_1.
Qed.
Lemma cexp_spin : forall (l : f64) (b : BiVector f64) E Eb, is_cexp (exactly TSpin (mkSpin (Sca l) b)) E ->
  is_cexp (exactly TBiv b) Eb -> ceq E (cscale (exp (b2r l)) Eb).
Proof.
  intros l b E Eb HE HEb. apply (is_cexp_unique (exactly TSpin (mkSpin (Sca l) b))); [exact HE|].
  apply (is_cexp_ceq (cadd (cscale (b2r l) cone) (exactly TBiv b)) _ (gp (cscale (exp (b2r l)) cone) Eb)).
  - intros k. symmetry. apply spin_split.
  - apply gp_scalar_l.
  - apply cexp_add; [|apply cexp_scalar | exact HEb].
    rewrite gp_scalar_l, gp_scale_r, gp_one_r. reflexivity.
Qed.
(** Rotation by [t] in the plane of [b], and its distance from a computed one. *)
Lemma rotation_exp : forall (b : BiVector f64) t, let P := cnorm (exactly TBiv b) in 0 < P -> 0 <= t ->
  is_cexp (cscale (t / P) (exactly TBiv b)) (cadd (cscale (cos t) cone) (cscale (sin t / P) (exactly TBiv b))).
Proof.
  intros b t P HP Ht. set (X := exactly TBiv b) in *.
  apply (is_cexp_ceq (cscale (t / P) X) _ (cadd (cscale (cos t) cone) (cscale (sinc t) (cscale (t / P) X)))).
  - reflexivity.
  - intros k. unfold cadd, cscale. rewrite <- (sinc_mul t). field. lra.
  - apply cexp_square. pose proof (biv_sq (mapv (fun v : f64 => b2r v) TBiv b)) as Q.
    change (den TBiv (mapv (fun v : f64 => b2r v) TBiv b)) with X in Q. fold P in Q.
    rewrite gp_scale_l, gp_scale_r. intros k. unfold cscale. rewrite (Q k). unfold cscale. field. lra.
Qed.
Lemma rotation_lip : forall (x b : BiVector f64) t E, let P := cnorm (exactly TBiv b) in 0 < P -> 0 <= t ->
  is_cexp (exactly TBiv x) E ->
  cnorm (csub E (cadd (cscale (cos t) cone) (cscale (sin t / P) (exactly TBiv b))))
    <= cnorm (csub (exactly TBiv x) (cscale (t / P) (exactly TBiv b))).
Proof.
  intros x b t E P HP Ht HE.
  set (y := mapv (fun v : f64 => t / P * b2r v) TBiv b).
  assert (Y : ceq (den TBiv y) (cscale (t / P) (exactly TBiv b))).
  { intros k. unfold y, exactly, cscale. generalize (t / P). intros r. destruct b as [[b1 b2 b3]]. dblade k; cbv -[B2R Rmult Rplus Ropp R0 IZR]; ring. }
  pose proof (cexp_lip (mapv (fun v : f64 => b2r v) TBiv x) y E _ HE
    (is_cexp_ceq _ (den TBiv y) _ _ (fun k => eq_sym (Y k)) (fun k => eq_refl) (rotation_exp b t HP Ht))) as C.
  eapply Rle_trans; [exact C|]. right. apply cnorm_ceq. intros k. unfold csub. rewrite (Y k). reflexivity.
Qed.

Lemma exp_of_log : forall N m l d, 0 < N -> Rabs (m - N) <= 8 * u53 * N -> 0 < m -> Rabs (l - ln m) <= d -> d <= / 16 ->
  Rabs (exp l - N) <= N * (9 * u53 + 17 / 15 * d).
Proof.
  intros N m l d PN Hm Pm Hl Hd. pose proof u53_pos.
  assert (Pd : 0 <= d) by (pose proof (Rabs_pos (l - ln m)); lra).
  assert (E : exp l = m * exp (l - ln m)).
  { rewrite <- (exp_ln m) at 1 by exact Pm. rewrite <- exp_plus. f_equal. ring. }
  rewrite E. pose proof (exp_near _ _ Hl Hd) as K. set (x := exp (l - ln m)) in *.
  replace (m * x - N) with (m * (x - 1) + (m - N)) by ring. eapply Rle_trans; [apply Rabs_triang|].
  rewrite Rabs_mult, (Rabs_pos_eq m) by lra.
  assert (M : m <= N * (1 + 8 * u53)) by (apply Rabs_le_inv in Hm; lra).
  assert (Q : m * Rabs (x - 1) <= N * (1 + 8 * u53) * (16 / 15 * d)) by (apply Rmult_le_compat; [lra|apply Rabs_pos|exact M|exact K]).
  assert (P : 0 <= N * d) by (apply Rmult_le_pos; lra). rewrite u53_val in *. nra.
Qed.
Lemma ln_near : forall N m, 0 < N -> Rabs (m - N) <= 8 * u53 * N -> 0 < m /\ Rabs (ln m - ln N) <= 9 * u53.
Proof.
  intros N m PN H. pose proof u53_pos.
  assert (Pm : 0 < m) by (apply Rabs_le_inv in H; rewrite u53_val in H; nra). split; [exact Pm|].
  assert (B : forall a b, 0 < a -> 0 < b -> ln a - ln b <= a / b - 1).
  { intros a b Ha Hb. pose proof (exp_ineq1_le (ln a - ln b)) as E. unfold Rminus in E at 2. rewrite exp_plus, exp_Ropp, !exp_ln in E by assumption.
    unfold Rdiv. lra. }
  pose proof (B m N Pm PN) as B1. pose proof (B N m PN Pm) as B2. apply Rabs_le_inv in H.
  assert (m / N - 1 <= 9 * u53).
  { apply Rmult_le_reg_r with N; [exact PN|]. unfold Rdiv. replace ((m * / N - 1) * N) with (m - N) by (field; lra). nra. }
  assert (N / m - 1 <= 9 * u53).
  { apply Rmult_le_reg_r with m; [exact Pm|]. unfold Rdiv. replace ((N * / m - 1) * m) with (N - m) by (field; lra). rewrite u53_val in *. nra. }
  apply Rabs_le. lra.
Qed.
Lemma ln_le : forall x y, 0 < x -> x <= y -> ln x <= ln y.
Proof. intros x y P [H| ->]; [left; apply ln_increasing; assumption|right; reflexivity]. Qed.
Lemma ln_range : forall N, bpow radix2 (-51) <= N <= bpow radix2 480 -> Rabs (ln N) <= 480.
Proof.
  assert (L2 : ln 2 <= 1). { apply Rle_trans with (ln (exp 1)); [|rewrite ln_exp; lra]. apply ln_le; [lra|]. pose proof (exp_ineq1_le 1); lra. }
  assert (L0 : 0 <= ln 2) by (rewrite <- ln_1; apply ln_le; lra).
  assert (B : forall n, ln (2 ^ n) = INR n * ln 2) by (intros n; apply ln_pow; lra).
  intros N [H1 H2]. assert (PN : 0 < N) by (pose proof (bpow_gt_0 radix2 (-51)); lra).
  apply Rabs_le. split.
  - apply Rle_trans with (ln (bpow radix2 (-51))); [|apply ln_le; [apply bpow_gt_0|exact H1]].
    change (-51)%Z with (- (51))%Z. rewrite bpow_opp, ln_Rinv by apply bpow_gt_0.
    change 51%Z with (Z.of_nat 51). rewrite bpow_powerRZ, <- pow_powerRZ. change (IZR radix2) with 2. rewrite B. rewrite INR_IZR_INZ.
    change (IZR (Z.of_nat 51)) with 51. lra.
  - apply Rle_trans with (ln (bpow radix2 480)); [apply ln_le; [exact PN|exact H2]|].
    change 480%Z with (Z.of_nat 480). rewrite bpow_powerRZ, <- pow_powerRZ. change (IZR radix2) with 2. rewrite B. rewrite INR_IZR_INZ.
    change (IZR (Z.of_nat 480)) with 480. lra.
Qed.
Lemma biv_part_le : forall (s s' : Spinor f64) r,
  cnorm (csub (exactly TBiv (spinBiv s)) (cscale r (exactly TBiv (spinBiv s')))) <= cnorm (csub (exactly TSpin s) (cscale r (exactly TSpin s'))).
Proof.
  intros s s' r. rewrite <- (cnorm_cabs (csub (exactly TSpin s) _)). apply norm_mono. intros k. unfold cabs, csub, cscale.
  destruct s as [[[c]] [[x y z]]], s' as [[[c']] [[x' y' z']]]. unfold exactly.
  dblade k; cbv -[B2R Rplus Rmult Ropp R0 IZR Rabs Rminus]; try apply Rle_refl.
  unfold Rminus. rewrite Rmult_0_r, Ropp_0, Rplus_0_l, Rabs_R0. apply Rabs_pos.
Qed.
Lemma unit_minus : forall k U, cnorm U = 1 -> cnorm2 (csub (cscale k cone) U) = 1 + k * k - 2 * k * U bS.
Proof.
  intros k U H. assert (Q : cnorm2 U = 1) by (rewrite <- cnorm_sq, H; ring). rewrite <- Q at 1.
  unfold cnorm2, csub, cscale, cone. cbn [map all_blades rsum fold_right]. 
  cbv -[Rplus Rmult Ropp R0 IZR Rminus]. ring.
Qed.
Lemma PI_upper : PI <= 3142 / 1000.
Proof. pose proof pi_double as Q. assert (123 / 10 ^ 18 <= / 1000000) by (cbn; lra). lra. Qed.
Lemma turnHalf_near : fin (c_turnHalf : f64) = true /\ Rabs (b2r (c_turnHalf : f64) - PI) <= 4 * u53.
Proof.
  destruct pi_nearest as (_ & _ & _ & _ & [F N] & _). split; [exact F|]. pose proof PI_4. pose proof PI_RGT_0. pose proof eta_small. pose proof u53_pos.
  destruct (near64_ok PI) as [Fy Ey].
  { rewrite Rabs_pos_eq by lra. apply Rle_trans with (bpow radix2 2); [change (bpow radix2 2) with 4; lra|apply bpow_le; lia]. }
  rewrite (Rabs_pos_eq PI) in Ey by lra.
  assert (B : Rabs (b2r (near64 PI) - PI) <= 4 * u53).
  { eapply Rle_trans; [exact Ey|]. pose proof PI_upper.
    nra. }
  destruct (Req_dec (b2r (near64 PI)) (b2r (c_turnHalf : f64))) as [h|h]; [rewrite <- h; exact B|].
  left. eapply Rlt_le_trans; [apply (N _ Fy h)|exact B].
Qed.
Lemma almost_one : let o : f64 := (1 - lim_epsilon)%num in fin o = true /\ b2r o = 1 - 2 * u53.
Proof.
  assert (E : (1 - lim_epsilon)%num = f64_lit (2 ^ 52 - 1) (-52)) by (apply B2SF_inj; vm_compute; reflexivity).
  cbv zeta. rewrite E. destruct (lit_exact (2 ^ 52 - 1) (-52)) as [A B].
  - apply generic_format_FLT. exists (Float radix2 (2 ^ 52 - 1) (-52)); [reflexivity|reflexivity|cbn [Fexp]; change (SpecFloat.emin 53 1024) with (-1074)%Z; lia].
  - unfold F2R. cbn [Fnum Fexp]. apply Rlt_le_trans with (bpow radix2 1); [|apply bpow_le; lia].
    change (2 ^ 52 - 1)%Z with 4503599627370495%Z. change (bpow radix2 (-52)) with (/ 4503599627370496). change (bpow radix2 1) with 2.
    rewrite Rabs_pos_eq; lra.
  - split; [exact A|]. rewrite B, u53_val. change (2 ^ 52 - 1)%Z with 4503599627370495%Z. change (bpow radix2 (-52)) with (/ 4503599627370496). lra.
Qed.

Lemma log_cases : forall (F : Type) (A : Arith F) (L : Libm F) (s : Spinor F) plane, isValid_Spin s = true ->
  nltb lim_epsilon (magnitude TSpin s) = true -> let m := magnitude TSpin s in
  logG2 s plane = let d := scale TSpin (1 / m)%num s in let c := sca_0 (spinSca d) in
    mkSpin (Sca (mlog m)) (if nltb (1 - lim_epsilon)%num c then zero_Biv else
      if nltb c (- (1 - lim_epsilon))%num then scale TBiv c_turnHalf (direction TBiv plane)
      else scale TBiv (matan2 (magnitude TBiv (spinBiv d)) c) (direction TBiv (spinBiv d))).
Proof.
  intros F A L s plane V G m. unfold logG2. rewrite V. cbv zeta. fold m in G |- *. rewrite G.
  change (mul_Dub_Spin (1 / m)%num s) with (scale TSpin (1 / m)%num s).
  destruct (nltb (1 - lim_epsilon)%num _); [reflexivity|]. destruct (nltb _ (- (1 - lim_epsilon))%num); reflexivity.
Qed.

Lemma lt_true : forall x y, Rlt_bool x y = true -> x < y.
Proof. intros x y H. destruct (Rlt_bool_spec x y); [assumption|discriminate]. Qed.
Lemma lt_false : forall x y, Rlt_bool x y = false -> y <= x.
Proof. intros x y H. destruct (Rlt_bool_spec x y); [discriminate|assumption]. Qed.

Lemma polar_near : forall c g P nd r, 0 <= r -> r * r = c * c + g * g -> 0 <= nd -> nd * nd = c * c + P * P ->
  Rabs (g - P) <= 8 * u53 * P -> 0 <= P <= 1 + 15 * u53 -> Rabs (nd - 1) <= 141 / 10 * u53 -> Rabs (r - 1) <= 24 * u53.
Proof.
  intros c g P nd r Pr R2 Pn Q Eg HP Nd. pose proof u53_pos. rewrite u53_val in *.
  assert (Rr : Rabs (r * r - nd * nd) <= 18 * / 9007199254740992).
  { rewrite R2, Q. replace (c * c + g * g - (c * c + P * P)) with ((g - P) * (g - P + 2 * P)) by ring. rewrite Rabs_mult.
    assert (A : Rabs (g - P + 2 * P) <= 21 / 10 * P) by (apply Rabs_le_inv in Eg; apply Rabs_le; nra).
    eapply Rle_trans; [apply Rmult_le_compat; [apply Rabs_pos|apply Rabs_pos|exact Eg|exact A]|]. nra. }
  apply Rabs_le_inv in Nd. replace (r * r - nd * nd) with ((r - nd) * (r + nd)) in Rr by ring.
  rewrite Rabs_mult, (Rabs_pos_eq (r + nd)) in Rr by lra. pose proof (Rabs_pos (r - nd)) as Pd.
  assert (S : 199 / 100 <= r + nd).
  { destruct (Rle_or_lt (199 / 100) (r + nd)) as [h|h]; [exact h|]. exfalso.
    rewrite Rabs_minus_sym in Rr. rewrite Rabs_pos_eq in Rr by lra. nra. }
  assert (T : Rabs (r - nd) <= 91 / 10 * / 9007199254740992) by nra. apply Rabs_le_inv in T. apply Rabs_le. lra.
Qed.

Lemma polar_diff : forall c g P r t, c = r * cos t -> g = r * sin t -> Rabs (r - 1) <= 24 * u53 -> Rabs (g - P) <= 8 * u53 * P ->
  0 < P <= 1 + 15 * u53 -> Rabs (cos t - c) + Rabs (sin t / P - 1) * P <= 45 * u53.
Proof.
  intros c g P r t Hc Hg Hr Eg HP. pose proof u53_pos as Pu.
  assert (A1 : Rabs (cos t - c) = Rabs (cos t) * Rabs (r - 1)).
  { rewrite Hc, <- Rabs_mult, <- Rabs_Ropp. f_equal. ring. }
  assert (A2 : Rabs (sin t / P - 1) * P <= Rabs (sin t) * Rabs (r - 1) + 8 * u53 * P).
  { rewrite <- (Rabs_pos_eq P) at 2 by lra. rewrite <- Rabs_mult. replace ((sin t / P - 1) * P) with (- (sin t * (r - 1)) + (g - P)) by (rewrite Hg; field; lra).
    eapply Rle_trans; [apply Rabs_triang|]. rewrite Rabs_Ropp, Rabs_mult. lra. }
  assert (A3 : Rabs (cos t) + Rabs (sin t) <= 3 / 2).
  { pose proof (sin2_cos2 t) as T2. unfold Rsqr in T2.
    assert (S : forall v, v * v = Rabs v * Rabs v) by (intros v; rewrite <- Rabs_mult; symmetry; apply Rabs_pos_eq, Rle_0_sqr).
    rewrite (S (sin t)), (S (cos t)) in T2. pose proof (Rabs_pos (cos t)). pose proof (Rabs_pos (sin t)).
    set (x := Rabs (cos t)) in *. set (y := Rabs (sin t)) in *. pose proof (Rle_0_sqr (x - y)) as Q. unfold Rsqr in Q.
    assert ((x + y) * (x + y) <= 2) by lra. nra. }
  pose proof (Rabs_pos (r - 1)). pose proof (Rabs_pos (cos t)). pose proof (Rabs_pos (sin t)).
  assert (A4 : (Rabs (cos t) + Rabs (sin t)) * Rabs (r - 1) <= 3 / 2 * (24 * u53)) by (apply Rmult_le_compat; lra).
  rewrite u53_val in *. nra.
Qed.

(** The bivector left after normalising, away from the real axis. *)
Lemma branch_biv : forall s : Spinor f64, all_finite TSpin s -> bpow radix2 (-51) <= cnorm (exactly TSpin s) <= bpow radix2 480 ->
  Rabs (b2r (sca_0 (spinSca (direction TSpin s)))) <= 1 - 2 * u53 ->
  bpow radix2 (-32) <= cnorm (exactly TBiv (spinBiv (direction TSpin s))) <= 1 + 15 * u53.
Proof.
  intros s F H Hc.
  assert (H' : bpow radix2 (-480) <= cnorm (exactly TSpin s) <= bpow radix2 480).
  { split; [|apply H]. eapply Rle_trans; [apply bpow_le|apply H]; lia. }
  pose proof (direction_norm TSpin s F H') as Dn. pose proof (direction_unit TSpin s F H') as Du.
  pose proof (dominant_scalar s F) as DS. pose proof (biv_part_le (direction TSpin s) s (/ cnorm (exactly TSpin s))) as K.
  pose proof (spin_norm2 (direction TSpin s)) as Q.
  pose proof u53_pos as Pu. pose proof eta_small as Es. pose proof eta_pos as Pe.
  set (d := direction TSpin s) in *. set (N := cnorm (exactly TSpin s)) in *. set (b := exactly TBiv (spinBiv d)) in *.
  assert (PN : 0 < N) by (eapply Rlt_le_trans; [apply bpow_gt_0|apply H']).
  split.
  - assert (BIG : bpow radix2 (-31) * N < cnorm (exactly TBiv (spinBiv s))).
    { apply Rnot_le_lt. intros h. assert (1 - u53 <= Rabs (b2r (sca_0 (spinSca d)))); [|lra].
      apply DS; [|exact h]. split; [|apply H]. eapply Rle_trans; [apply bpow_le|apply H]; lia. }
    pose proof (norm_le_sub (cscale (/ N) (exactly TBiv (spinBiv s))) b) as T.
    rewrite (cnorm_ceq (csub (cscale (/ N) _) _) (cscale (-1) (csub b (cscale (/ N) (exactly TBiv (spinBiv s)))))) in T
      by (intros k; unfold csub, cscale; ring).
    rewrite !cnorm_scale in T. rewrite (Rabs_pos_eq (/ N)) in T by (left; apply Rinv_0_lt_compat; exact PN). rewrite Rabs_left in T by lra.
    assert (bpow radix2 (-31) < / N * cnorm (exactly TBiv (spinBiv s))).
    { apply Rmult_lt_reg_l with N; [exact PN|]. rewrite <- Rmult_assoc, Rinv_r, Rmult_1_l by lra. lra. }
    change (bpow radix2 (-31)) with (/ 2147483648) in *. change (bpow radix2 (-32)) with (/ 4294967296). rewrite u53_val in *. lra.
  - assert (cnorm b <= cnorm (exactly TSpin d)).
    { unfold cnorm. apply sqrt_le_1_alt. rewrite Q. fold b. pose proof (Rle_0_sqr (b2r (sca_0 (spinSca d)))) as Z. unfold Rsqr in Z. lra. }
    apply Rabs_le_inv in Du. lra.
Qed.

Section Log.
Context {L : Libm f64}.

Lemma log_shape : forall (s : Spinor f64) plane, log_domain s ->
  let m := magnitude TSpin s in let d := direction TSpin s in let c := sca_0 (spinSca d) in
  logG2 s plane = mkSpin (Sca (mlog m))
    (if nltb (1 - lim_epsilon)%num c then zero_Biv else if nltb c (- (1 - lim_epsilon))%num then scale TBiv c_turnHalf (direction TBiv plane)
     else scale TBiv (matan2 (magnitude TBiv (spinBiv d)) c) (direction TBiv (spinBiv d))).
Proof.
  intros s plane (F & H & V1 & V2) m d c.
  assert (H' : bpow radix2 (-480) <= cnorm (exactly TSpin s) <= bpow radix2 480).
  { split; [|apply H]. eapply Rle_trans; [apply bpow_le|apply H]; lia. }
  destruct (magnitude_facts TSpin s F H') as [Fm Em]. fold m in Fm, Em.
  assert (V : isValid_Spin s = true).
  { unfold isValid_Spin, isValid_Sca, isValid_Biv. apply andb_true_intro. split; apply isValid_number; assumption. }
  assert (G : nltb (lim_epsilon : f64) m = true).
  { change (Bltb (f64_lit 1 (-52)) m = true). destruct (lit_exact 1 (-52)) as [A B].
    - rewrite F2R_bpow. apply fmt_bpow; lia.
    - rewrite F2R_bpow, Rabs_pos_eq by apply bpow_ge_0. apply bpow_lt; lia.
    - rewrite Bltb_correct by assumption. apply Rlt_bool_true. rewrite B. 
      change (bpow radix2 (-51)) with (/ 2251799813685248) in H. change (bpow radix2 (-52)) with (/ 4503599627370496).
      rewrite u53_val in Em. apply Rabs_le_inv in Em. lra. }
  rewrite (log_cases f64 Arith_B L s plane V G). cbv zeta.
  pose proof (direction_shape TSpin s F H') as S. fold m in S |- *.
  change (scale TSpin (1 / m)%num s) with (scale TSpin (Bdiv mode_NE (@none_ f64 Ring0_B) m) s). rewrite <- S. reflexivity.
Qed.

(** Small angles, and angles close to a half turn, are not seen. *)
Lemma log_vanishes : forall (s : Spinor f64) plane, log_domain s ->
  cnorm (exactly TBiv (spinBiv s)) <= bpow radix2 (-31) * cnorm (exactly TSpin s) ->
  (0 < b2r (sca_0 (spinSca s)) -> spinBiv (logG2 s plane) = zero_Biv) /\
  (b2r (sca_0 (spinSca s)) < 0 -> spinBiv (logG2 s plane) = scale TBiv c_turnHalf (direction TBiv plane)).
Proof.
  intros s plane D HB. pose proof (log_shape s plane D) as SH. cbv zeta in SH. rewrite SH. clear SH. cbn [spinBiv].
  destruct D as (F & H & _).
  assert (H' : bpow radix2 (-480) <= cnorm (exactly TSpin s) <= bpow radix2 480).
  { split; [|apply H]. eapply Rle_trans; [apply bpow_le|apply H]; lia. }
  pose proof (dominant_scalar s F) as DS. specialize (DS ltac:(split; [eapply Rle_trans; [apply bpow_le|apply H]; lia|apply H]) HB).
  destruct (direction_accurate TSpin s F H') as [Fd Ed]. specialize (Ed bS).
  destruct (spin_parts_finite _ Fd) as [Fc _]. set (d := direction TSpin s) in *. set (c := sca_0 (spinSca d)) in *.
  set (S := exactly TSpin s) in *. set (N := cnorm S) in *.
  assert (PN : 0 < N) by (eapply Rlt_le_trans; [apply bpow_gt_0|apply H]).
  assert (E1 : exactly TSpin d bS = b2r c) by reflexivity. rewrite E1 in Ed. clear E1.
  change (b2r (sca_0 (spinSca s))) with (S bS). set (a := S bS / N) in *.
  assert (Ra : Rabs (S bS) / N = Rabs a).
  { unfold a, Rdiv. rewrite Rabs_mult, (Rabs_pos_eq (/ N)); [reflexivity|left; apply Rinv_0_lt_compat, PN]. }
  rewrite Ra in Ed. destruct almost_one as [Fo Eo]. pose proof eta_small. pose proof eta_pos. pose proof u53_pos. rewrite u53_val in *.
  split; intros h.
  - assert (Pa : 0 < a) by (apply Rmult_lt_0_compat; [exact h|apply Rinv_0_lt_compat, PN]).
    rewrite (Rabs_pos_eq a) in Ed by lra. apply Rabs_le_inv in Ed.
    assert (G : Bltb ((1 - lim_epsilon)%num : f64) c = true).
    { rewrite Bltb_correct by assumption. apply Rlt_bool_true. rewrite Eo. rewrite Rabs_pos_eq in DS; [lra|].
      apply Rnot_lt_le. intros n. rewrite Rabs_left in DS by exact n. lra. }
    match goal with |- (if ?x then _ else _) = _ => replace x with true by (symmetry; exact G) end. reflexivity.
  - assert (Pa : a < 0).
    { unfold a, Rdiv. rewrite <- (Rmult_0_l (/ N)). apply Rmult_lt_compat_r; [apply Rinv_0_lt_compat, PN|exact h]. }
    rewrite (Rabs_left a) in Ed by lra. apply Rabs_le_inv in Ed.
    assert (LC : b2r c <= - (1 - / 9007199254740992)).
    { destruct (Rle_or_lt 0 (b2r c)) as [n|n]; [rewrite Rabs_pos_eq in DS by exact n; lra|rewrite Rabs_left in DS by exact n; lra]. }
    assert (G1 : Bltb ((1 - lim_epsilon)%num : f64) c = false).
    { rewrite Bltb_correct by assumption. apply Rlt_bool_false. rewrite Eo. lra. }
    assert (G2 : Bltb c (Bopp ((1 - lim_epsilon)%num : f64)) = true).
    { rewrite Bltb_correct by (rewrite ?is_finite_Bopp; assumption). apply Rlt_bool_true. rewrite B2R_Bopp, Eo. lra. }
    match goal with |- (if ?x then _ else _) = _ => replace x with false by (symmetry; exact G1) end.
    match goal with |- (if ?x then _ else _) = _ => replace x with true by (symmetry; exact G2) end. reflexivity.
Qed.

(** The three ways the bivector is computed: how far its exponential is from
    the unit spinor [U], and how long it is. *)
Definition log_part (x : BiVector f64) (U : clf) (eps q : R) : Prop :=
  all_finite TBiv x /\ cnorm (exactly TBiv x) <= PI + eps + 64 * u53 /\
  forall E, is_cexp (exactly TBiv x) E -> cnorm (csub E U) <= eps + q.

Lemma half_turn : forall (b : BiVector f64) (a : f64) t eps, all_finite TBiv b ->
  bpow radix2 (-480) <= cnorm (exactly TBiv b) <= bpow radix2 480 -> fin a = true -> 0 <= t <= PI ->
  Rabs (b2r a - t) <= eps -> eps <= / 8192 ->
  all_finite TBiv (scale TBiv a (direction TBiv b)) /\
  cnorm (csub (exactly TBiv (scale TBiv a (direction TBiv b))) (cscale (t / cnorm (exactly TBiv b)) (exactly TBiv b))) <= eps + 49 * u53.
Proof.
  intros b a t eps F H Fa Ht Ha He. destruct (direction_accurate TBiv b F H) as [Fd _].
  pose proof (direction_norm TBiv b F H) as Dn. pose proof (direction_unit TBiv b F H) as Du.
  set (d := direction TBiv b) in *. set (X := exactly TBiv b) in *. set (P := cnorm X) in *. set (Y := exactly TBiv d) in *.
  assert (HP : 0 < P) by (eapply Rlt_le_trans; [apply bpow_gt_0|apply H]).
  pose proof u53_pos. pose proof eta_small. pose proof eta_pos.
  pose proof PI_upper as PB.
  assert (Aa : Rabs (b2r a) <= 315 / 100).
  { replace (b2r a) with ((b2r a - t) + t) by ring. eapply Rle_trans; [apply Rabs_triang|]. rewrite (Rabs_pos_eq t) by lra. lra. }
  pose proof (Rabs_pos (b2r a)) as Pa.
  assert (Yb : cnorm Y <= 1 + 15 * u53) by (apply Rabs_le_inv in Du; lra).
  pose proof (cnorm_nonneg Y) as Py.
  destruct (scale_error TBiv a d Fa Fd) as [G K].
  { fold Y. apply Rle_trans with (bpow radix2 2); [|apply bpow_le; lia]. change (bpow radix2 2) with 4. rewrite u53_val in Yb. nra. }
  fold Y in K. split; [exact G|]. set (Z := exactly TBiv (scale TBiv a d)) in *.
  assert (SP : ceq (csub Z (cscale (t / P) X)) (cadd (csub Z (cscale (b2r a) Y)) (cadd (cscale (b2r a) (csub Y (cscale (/ P) X))) (cscale ((b2r a - t) / P) X)))).
  { intros k. unfold cadd, csub, cscale. field. lra. }
  rewrite (cnorm_ceq _ _ SP). eapply Rle_trans; [apply cnorm_triangle|].
  eapply Rle_trans; [apply Rplus_le_compat; [exact K|apply cnorm_triangle]|]. rewrite !cnorm_scale. fold P.
  assert (T1 : Rabs ((b2r a - t) / P) * P <= eps).
  { unfold Rdiv. rewrite Rabs_mult, (Rabs_pos_eq (/ P)) by (left; apply Rinv_0_lt_compat; exact HP).
    rewrite Rmult_assoc, Rinv_l, Rmult_1_r by lra. exact Ha. }
  assert (T2 : Rabs (b2r a) * cnorm (csub Y (cscale (/ P) X)) <= 315 / 100 * (14 * u53 + 3 * eta)) by (apply Rmult_le_compat; auto using cnorm_nonneg).
  assert (T3 : Rabs (b2r a) * cnorm Y <= 315 / 100 * (1 + 15 * u53)) by (apply Rmult_le_compat; auto).
  assert (T4 : u53 * (Rabs (b2r a) * cnorm Y) <= u53 * (315 / 100 * (1 + 15 * u53))) by (apply Rmult_le_compat_l; lra).
  rewrite u53_val in *. lra.
Qed.

Lemma close_biv : forall (x b : BiVector f64) t eps U, 0 < cnorm (exactly TBiv b) -> 0 <= t <= PI -> all_finite TBiv x ->
  cnorm (csub (exactly TBiv x) (cscale (t / cnorm (exactly TBiv b)) (exactly TBiv b))) <= eps + 53 * u53 ->
  forall q, cnorm (csub (cadd (cscale (cos t) cone) (cscale (sin t / cnorm (exactly TBiv b)) (exactly TBiv b))) U) <= q ->
  log_part x U eps (q + 53 * u53).
Proof.
  intros x b t eps U HP Ht F H q HU. pose proof u53_pos. set (X := exactly TBiv b) in *. set (P := cnorm X) in *. split; [exact F|split].
  - eapply Rle_trans; [apply (norm_le_sub _ (cscale (t / P) X))|]. rewrite cnorm_scale. fold P.
    rewrite Rabs_pos_eq by (apply Rmult_le_pos; [lra|left; apply Rinv_0_lt_compat; lra]). replace (t / P * P) with t by (field; lra). lra.
  - intros E HE. eapply Rle_trans; [apply (norm_sub_le _ (cadd (cscale (cos t) cone) (cscale (sin t / P) X)))|].
    pose proof (rotation_lip x b t E HP (proj1 Ht) HE) as K. fold X P in K. lra.
Qed.

Lemma log_part_ok : forall eps, atan2_within eps L -> 0 <= eps -> eps <= / 8192 -> forall (s : Spinor f64) (plane : BiVector f64), log_domain s ->
  all_finite TBiv plane -> bpow radix2 (-480) <= cnorm (exactly TBiv plane) <= bpow radix2 480 ->
  let N := cnorm (exactly TSpin s) in let U := cscale (/ N) (exactly TSpin s) in let x := spinBiv (logG2 s plane) in
  log_part x U eps (bpow radix2 (-22) - 100 * u53) /\
  (bpow radix2 (-23) * N <= cnorm (exactly TBiv (spinBiv s)) -> log_part x U eps (114 * u53)).
Proof.
  intros eps TA He0 He s plane D Fp Hp N U x.
  pose proof (log_shape s plane D) as S. destruct D as (F & H & _).
  assert (H' : bpow radix2 (-480) <= cnorm (exactly TSpin s) <= bpow radix2 480).
  { split; [|apply H]. eapply Rle_trans; [apply bpow_le|apply H]; lia. }
  assert (PN : 0 < N) by (eapply Rlt_le_trans; [apply bpow_gt_0|apply H']).
  destruct (direction_accurate TSpin s F H') as [Fd _]. pose proof (direction_norm TSpin s F H') as Dn. pose proof (direction_unit TSpin s F H') as Du.
  cbv zeta in S. set (d := direction TSpin s) in *. fold N in Dn. fold U in Dn. 
  destruct (spin_parts_finite d Fd) as [Fc Fb]. set (c := sca_0 (spinSca d)) in *. set (b := spinBiv d) in *.
  assert (Hc : exactly TSpin d bS = b2r c) by reflexivity.
  pose proof u53_pos as Pu. pose proof eta_small as Es. pose proof eta_pos as Pe.
  assert (NU : cnorm U = 1).
  { unfold U. rewrite cnorm_scale, Rabs_pos_eq by (left; apply Rinv_0_lt_compat; exact PN). fold N. field. lra. }
  assert (Ec : Rabs (b2r c - U bS) <= 15 * u53).
  { rewrite <- Hc. eapply Rle_trans; [apply (comp_le_norm (csub (exactly TSpin d) U) bS)|]. lra. }
  apply Rabs_le_inv in Ec.
  assert (B2 : cnorm (exactly TBiv (spinBiv s)) = N * sqrt (1 - U bS * U bS)).
  { assert (Us : U bS = / N * b2r (sca_0 (spinSca s))) by reflexivity.
    pose proof (spin_norm2 s) as Q. rewrite <- !cnorm_sq in Q. fold N in Q. set (p := cnorm (exactly TBiv (spinBiv s))) in *.
    assert (Pp : 0 <= p) by apply cnorm_nonneg.
    rewrite <- (sqrt_square p) by exact Pp. rewrite <- (sqrt_square N) at 1 by lra. rewrite <- sqrt_mult_alt by nra. f_equal.
    rewrite Us. field_simplify; [|lra]. nra. }
  destruct almost_one as [Fo Ro]. cbv zeta in Fo, Ro. 
  (* near plus or minus one *)
  assert (NEAR : forall k, k = 1 \/ k = -1 -> 1 - 2 * u53 < k * b2r c ->
     cnorm (csub (cscale k cone) U) <= bpow radix2 (-23) /\ cnorm (exactly TBiv (spinBiv s)) < bpow radix2 (-23) * N).
  { intros k Hk Hkc. assert (K2 : k * k = 1) by (destruct Hk; subst k; lra).
    assert (KU : 1 - 17 * u53 <= k * U bS) by (destruct Hk; subst k; lra).
    assert (B46 : 128 * u53 = bpow radix2 (-23) * bpow radix2 (-23)) by (rewrite <- bpow_plus, u53_val; change (bpow radix2 (-23 + -23)) with (/ 70368744177664); lra).
    pose proof (bpow_gt_0 radix2 (-23)) as P23.
    split.
    - unfold cnorm. rewrite unit_minus by exact NU. rewrite K2. rewrite <- (sqrt_square (bpow radix2 (-23))) by lra. apply sqrt_le_1_alt. lra.
    - rewrite B2. rewrite Rmult_comm. apply Rmult_lt_compat_r; [exact PN|].
      rewrite <- (sqrt_square (bpow radix2 (-23))) by lra. apply sqrt_lt_1_alt.
      assert (U1 : Rabs (U bS) <= 1) by (rewrite <- NU; apply comp_le_norm). apply Rabs_le_inv in U1.
      assert (Q : U bS * U bS = (k * U bS) * (k * U bS)) by (transitivity ((k * k) * (U bS * U bS)); [rewrite K2; ring|ring]).
      rewrite Q. split; [rewrite <- Q; nra|]. rewrite u53_val in *. nra. }
  assert (C22 : bpow radix2 (-22) = 2 * bpow radix2 (-23)) by (cbn; lra).
  assert (C23 : 1000 * u53 <= bpow radix2 (-23)) by (rewrite u53_val; cbn; lra).
  assert (WEAK : forall q q', log_part x U eps q -> q <= q' -> log_part x U eps q').
  { intros q q' (A & B & C) Hq. split; [exact A|split; [exact B|]]. intros E HE. eapply Rle_trans; [apply C, HE|lra]. }
  unfold x in *. rewrite S in *. cbn [spinBiv] in *.
  destruct (nltb (1 - lim_epsilon)%num c) eqn:C1; [|destruct (nltb c (- (1 - lim_epsilon))%num) eqn:C2].
  - (* close to one *)
    assert (L1 : 1 - 2 * u53 < 1 * b2r c).
    { change (Bltb ((1 - lim_epsilon)%num : f64) c = true) in C1. rewrite Bltb_correct in C1 by assumption. apply lt_true in C1. lra. }
    destruct (NEAR 1 (or_introl eq_refl) L1) as [A B]. split; [|intros h; lra].
    split; [|split].
    + repeat constructor.
    + replace (cnorm (exactly TBiv zero_Biv)) with 0; [pose proof PI_RGT_0; lra|].
      symmetry. unfold cnorm. replace (cnorm2 (exactly TBiv zero_Biv)) with 0; [apply sqrt_0|]. symmetry. unfold exactly, cnorm2. cbv -[Rplus Rmult Ropp R0 IZR]. ring.
    + intros E HE.
      assert (Q : ceq E (cscale 1 cone)).
      { rewrite <- exp_0. apply (is_cexp_unique (exactly TBiv zero_Biv)); [exact HE|].
        apply (is_cexp_ceq (cscale 0 cone) _ (cscale (exp 0) cone)); [|reflexivity|apply cexp_scalar].
        intros k. unfold exactly, cscale, cone. dblade k; cbv -[Rplus Rmult Ropp R0 IZR]; ring. }
      rewrite (cnorm_ceq (csub E U) (csub (cscale 1 cone) U)); [lra|]. intros k. unfold csub. rewrite (Q k). reflexivity.
  - (* close to minus one *)
    assert (L1 : 1 - 2 * u53 < -1 * b2r c).
    { change (Bltb c (Bopp ((1 - lim_epsilon)%num : f64)) = true) in C2. rewrite Bltb_correct in C2 by (rewrite ?is_finite_Bopp; assumption).
      apply lt_true in C2. rewrite B2R_Bopp in C2. lra. }
    destruct (NEAR (-1) (or_intror eq_refl) L1) as [A B]. split; [|intros h; lra].
    destruct turnHalf_near as [Ft Et].
    assert (HP : 0 < cnorm (exactly TBiv plane)) by (eapply Rlt_le_trans; [apply bpow_gt_0|apply Hp]).
    assert (E4 : 4 * u53 <= / 8192) by (rewrite u53_val; lra).
    assert (Pi0 : 0 <= PI <= PI) by (pose proof PI_RGT_0; lra).
    destruct (half_turn plane c_turnHalf PI (4 * u53) Fp Hp Ft Pi0 Et E4) as [G K].
    apply (WEAK (bpow radix2 (-23) + 53 * u53)); [|lra].
    apply (close_biv _ plane PI); try assumption; [lra|].
    rewrite cos_PI, sin_PI.
    rewrite (cnorm_ceq _ (csub (cscale (-1) cone) U)); [exact A|]. intros k. unfold csub, cadd, cscale, Rdiv. ring.
  - (* elsewhere *)
    assert (L1 : b2r c <= 1 - 2 * u53).
    { change (Bltb ((1 - lim_epsilon)%num : f64) c = false) in C1. rewrite Bltb_correct in C1 by assumption. apply lt_false in C1. lra. }
    assert (L2 : - (1 - 2 * u53) <= b2r c).
    { change (Bltb c (Bopp ((1 - lim_epsilon)%num : f64)) = false) in C2. rewrite Bltb_correct in C2 by (rewrite ?is_finite_Bopp; assumption).
      apply lt_false in C2. rewrite B2R_Bopp in C2. lra. }
    destruct (branch_biv s F H) as [PL PB]; [apply Rabs_le; fold d c; lra|]. fold d b in PL, PB. set (P := cnorm (exactly TBiv b)) in *.
    assert (PR : bpow radix2 (-480) <= P <= bpow radix2 480).
    { split; [eapply Rle_trans; [apply bpow_le|exact PL]; lia|]. apply Rle_trans with (bpow radix2 1); [change (bpow radix2 1) with 2; rewrite u53_val in PB; lra|apply bpow_le; lia]. }
    assert (PP : 0 < P) by (eapply Rlt_le_trans; [apply bpow_gt_0|apply PR]).
    destruct (magnitude_facts TBiv b Fb PR) as [Fg Eg]. fold P in Eg. set (g := magnitude TBiv b) in *.
    assert (Pg : 0 < b2r g) by (apply Rabs_le_inv in Eg; rewrite u53_val in Eg; nra).
    destruct (TA g c Fg Fc Pg) as [Fa (t & Ht & Ea & Ec1 & Es1)]. cbv zeta in Ec1, Es1. set (r := sqrt (b2r c * b2r c + b2r g * b2r g)) in Ec1, Es1.
    destruct (half_turn b (matan2 g c) t eps Fb PR Fa Ht Ea He) as [G K].
    (* r is close to 1 *)
    assert (Pr : 0 <= r) by apply sqrt_pos.
    assert (R2 : r * r = b2r c * b2r c + b2r g * b2r g) by (apply sqrt_sqrt; nra).
    pose proof (spin_norm2 d) as Q. fold c b in Q. rewrite <- !cnorm_sq in Q. fold P in Q. set (nd := cnorm (exactly TSpin d)) in *.
    assert (Pnd : 0 <= nd) by apply cnorm_nonneg.
    assert (Nd : Rabs (nd - 1) <= 141 / 10 * u53).
    { pose proof (norm_le_sub (exactly TSpin d) U) as T1. pose proof (norm_le_sub U (exactly TSpin d)) as T2.
      rewrite (cnorm_ceq (csub U _) (cscale (-1) (csub (exactly TSpin d) U))) in T2 by (intros k; unfold csub, cscale; ring).
      rewrite cnorm_scale, Rabs_left in T2 by lra. rewrite NU in T1, T2. fold nd in T1, T2. apply Rabs_le. lra. }
    assert (Er : Rabs (r - 1) <= 24 * u53) by (apply (polar_near (b2r c) (b2r g) P nd); auto; lra).
    assert (RES : log_part (scale TBiv (matan2 g c) (direction TBiv b)) U eps (114 * u53)).
    { replace (114 * u53) with (61 * u53 + 53 * u53) by ring.
      apply (close_biv _ b t); try assumption; [eapply Rle_trans; [exact K|lra]|]. fold P.
      eapply Rle_trans; [apply (norm_sub_le _ (exactly TSpin d))|].
      assert (T : cnorm (csub (cadd (cscale (cos t) cone) (cscale (sin t / P) (exactly TBiv b))) (exactly TSpin d)) <= 45 * u53).
      { rewrite (cnorm_ceq _ (cadd (cscale (cos t - b2r c) cone) (cscale (sin t / P - 1) (exactly TBiv b)))).
        2:{ intros k. unfold csub at 1. rewrite (spin_parts d). fold c b. rewrite (spin_split c b k). unfold cadd, cscale. ring. }
        eapply Rle_trans; [apply cnorm_triangle|]. rewrite !cnorm_scale, cone_norm, Rmult_1_r. fold P.
        apply (polar_diff _ (b2r g) P r t); auto. }
      lra. }
    split; [|intros _; exact RES]. apply (WEAK _ _ RES). lra.
Qed.

Lemma log_accurate : forall eps, log_within eps L -> atan2_within eps L -> eps <= / 8192 ->
  forall (s : Spinor f64) (plane : BiVector f64) E, log_domain s ->
  all_finite TBiv plane -> bpow radix2 (-480) <= cnorm (exactly TBiv plane) <= bpow radix2 480 ->
  is_cexp (exactly TSpin (logG2 s plane)) E ->
  let S := exactly TSpin s in let N := cnorm S in let err := eps * (4 + 2 * Rabs (ln N)) in
  all_finite TSpin (logG2 s plane) /\
  Rabs (b2r (sca_0 (spinSca (logG2 s plane))) - ln N) <= eps * (2 + Rabs (ln N)) + 9 * unit_roundoff /\
  cnorm (exactly TBiv (spinBiv (logG2 s plane))) <= PI + eps + 64 * unit_roundoff /\
  cnorm (csub E S) <= N * (err + bpow radix2 (-22)) /\
  (bpow radix2 (-23) * N <= cnorm (exactly TBiv (spinBiv s)) -> cnorm (csub E S) <= N * (err + 128 * unit_roundoff)).
Proof.
  intros eps TL TA He s plane E D Fp Hp HE S N err. change unit_roundoff with u53.
  assert (He0 : 0 <= eps).
  { destruct (TL (none_ : f64)) as [_ Q]; [apply one_ok|rewrite (proj2 one_ok); lra|].
    rewrite (proj2 one_ok), ln_1, Rabs_R0 in Q. pose proof (Rabs_pos (b2r (mlog (none_ : f64)) - 0)). lra. }
  destruct (log_part_ok eps TA He0 He s plane D Fp Hp) as [P1 P2]. fold S N in P1, P2.
  pose proof (log_shape s plane D) as SH. cbv zeta in SH. set (x := spinBiv (logG2 s plane)) in *.
  assert (SH' : logG2 s plane = mkSpin (Sca (mlog (magnitude TSpin s))) x) by (unfold x; rewrite SH; reflexivity).
  clear SH. rewrite SH' in *. cbn [spinSca sca_0] in *. 
  destruct D as (F & H & _). fold S N in H.
  assert (H' : bpow radix2 (-480) <= N <= bpow radix2 480).
  { split; [|apply H]. eapply Rle_trans; [apply bpow_le|apply H]; lia. }
  assert (PN : 0 < N) by (eapply Rlt_le_trans; [apply bpow_gt_0|apply H']).
  destruct (magnitude_facts TSpin s F H') as [Fm Em]. fold S N in Em. set (m := magnitude TSpin s) in *.
  destruct (ln_near N (b2r m) PN Em) as [Pm Lm]. destruct (TL m Fm Pm) as [Fl El]. set (l := mlog m) in *.
  pose proof u53_pos as Pu. pose proof (ln_range N H) as RN.
  set (LN := Rabs (ln N)) in *. assert (PLN : 0 <= LN) by apply Rabs_pos.
  assert (Lm' : Rabs (ln (b2r m)) <= LN + 1).
  { replace (ln (b2r m)) with ((ln (b2r m) - ln N) + ln N) by ring. eapply Rle_trans; [apply Rabs_triang|]. fold LN. rewrite u53_val in Lm. lra. }
  assert (El' : Rabs (b2r l - ln (b2r m)) <= eps * (2 + LN)).
  { eapply Rle_trans; [exact El|]. apply Rmult_le_compat_l; lra. }
  assert (d16 : eps * (2 + LN) <= / 16).
  { apply Rle_trans with (/ 8192 * 482); [apply Rmult_le_compat; lra|lra]. }
  pose proof (exp_of_log N (b2r m) (b2r l) (eps * (2 + LN)) PN Em Pm El' d16) as EL.
  destruct (cexp_exists (exactly TBiv x)) as [Eb HEb].
  pose proof (cexp_spin l x E Eb HE HEb) as Q. pose proof (cexp_biv_norm x Eb HEb) as NE.
  set (U := cscale (/ N) S) in *.
  assert (GEN : forall q, log_part x U eps q -> cnorm (csub E S) <= N * (err + (q + 9 * u53))).
  { intros q (_ & _ & C). specialize (C Eb HEb).
    rewrite (cnorm_ceq (csub E S) (cadd (cscale (exp (b2r l) - N) Eb) (cscale N (csub Eb U)))).
    2:{ intros k. unfold csub at 1. rewrite (Q k). unfold U, cadd, csub, cscale. field. lra. }
    eapply Rle_trans; [apply cnorm_triangle|]. rewrite !cnorm_scale, NE, (Rabs_pos_eq N), Rmult_1_r by lra.
    assert (N * cnorm (csub Eb U) <= N * (eps + q)) by (apply Rmult_le_compat_l; lra).
    assert (0 <= eps * LN) by (apply Rmult_le_pos; lra).
    apply Rle_trans with (N * (9 * u53 + 17 / 15 * (eps * (2 + LN))) + N * (eps + q)); [lra|].
    rewrite <- Rmult_plus_distr_l. apply Rmult_le_compat_l; [lra|]. unfold err. fold LN. lra. }
  destruct P1 as (Fx & Bx & Cx). repeat split.
  - apply spin_finite; assumption.
  - change (sca_0 (Sca l)) with l. replace (b2r l - ln N) with ((b2r l - ln (b2r m)) + (ln (b2r m) - ln N)) by ring. eapply Rle_trans; [apply Rabs_triang|]. lra.
  - exact Bx.
  - eapply Rle_trans; [apply (GEN (bpow radix2 (-22) - 100 * u53)); repeat split; assumption|]. apply Rmult_le_compat_l; lra.
  - intros h. eapply Rle_trans; [apply (GEN (114 * u53)), P2, h|]. apply Rmult_le_compat_l; lra.
Qed.
End Log.

(** ** The library *)
Lemma library_log : log_within (bpow radix2 (-50)) rounded_lib /\ atan2_within (bpow radix2 (-50)) rounded_lib.
Proof.
  pose proof eta_small. pose proof u53_pos.
  assert (U : bpow radix2 (-50) = 8 * u53) by (rewrite u53_val; cbn; lra). rewrite U. split.
  - intros x Fx Px. change (mlog x) with (near64 (ln (b2r x))). set (v := ln (b2r x)).
    assert (B : Rabs v <= bpow radix2 1000).
    { assert (UP : forall w, 0 < w -> ln w <= w).
      { intros w Hw. pose proof (exp_ineq1_le (ln w)) as Q. rewrite exp_ln in Q by exact Hw. lra. }
      assert (S : forall e : Z, bpow radix2 e = Rabs (bpow radix2 e)) by (intros e; symmetry; apply Rabs_pos_eq, bpow_ge_0).
      assert (L2 : forall e : Z, (0 <= e)%Z -> ln (bpow radix2 e) <= IZR e).
      { intros e He. rewrite bpow_powerRZ. rewrite <- (Z2Nat.id e) by exact He. rewrite <- pow_powerRZ. change (IZR radix2) with 2.
        rewrite ln_pow by lra. rewrite <- INR_IZR_INZ. pose proof (pos_INR (Z.to_nat e)) as Q.
        assert (ln 2 <= 1) by (pose proof (UP 2 ltac:(lra)); apply Rle_trans with (ln (exp 1)); [apply ln_le; [lra|pose proof (exp_ineq1_le 1); lra]|rewrite ln_exp; lra]).
        apply Rle_trans with (INR (Z.to_nat e) * 1); [apply Rmult_le_compat_l; lra|lra]. }
      assert (X1 : b2r x <= bpow radix2 1024).
      { pose proof (abs_B2R_lt_emax 53 1024 x) as Q. rewrite Rabs_pos_eq in Q by lra. lra. }
      assert (X2 : bpow radix2 (-1074) <= b2r x).
      { pose proof (abs_B2R_ge_emin 53 1024 x) as Q. destruct x as [sx|sx| |sx mx ex Bx]; try (cbn in Px; lra); try discriminate Fx. 
        specialize (Q eq_refl). rewrite Rabs_pos_eq in Q by lra. exact Q. }
      apply Rle_trans with (bpow radix2 11); [|apply bpow_le; lia]. change (bpow radix2 11) with 2048. apply Rabs_le. unfold v. split.
      - apply Rle_trans with (ln (bpow radix2 (-1074))); [|apply ln_le; [apply bpow_gt_0|exact X2]].
        change (-1074)%Z with (- (1074))%Z. rewrite bpow_opp, ln_Rinv by apply bpow_gt_0. pose proof (L2 1074%Z ltac:(lia)). lra.
      - apply Rle_trans with (ln (bpow radix2 1024)); [apply ln_le; assumption|]. pose proof (L2 1024%Z ltac:(lia)). lra. }
    destruct (near64_ok v B) as [F E]. split; [exact F|]. eapply Rle_trans; [exact E|]. pose proof (Rabs_pos v).
    assert (0 <= u53 * Rabs v) by (apply Rmult_le_pos; lra). lra.
  - intros y x Fy Fx Py. destruct (atan2_polar (b2r y) (b2r x) Py) as (Pr & Ht & Ec & Es). set (r := sqrt _) in *. set (t := Ratan2 (b2r y) (b2r x)) in *.
    change (matan2 y x) with (near64 t). pose proof PI_upper.
    assert (B : Rabs t <= 4) by (apply Rabs_le; lra).
    destruct (near64_ok t) as [F E]; [eapply Rle_trans; [exact B|]; change 4 with (bpow radix2 2); apply bpow_le; lia|].
    split; [exact F|]. exists t. split; [lra|]. split.
    + eapply Rle_trans; [exact E|]. assert (u53 * Rabs t <= u53 * 4) by (apply Rmult_le_compat_l; lra). lra.
    + cbv zeta. fold r. rewrite Ec, Es. split; field; lra.
Qed.
