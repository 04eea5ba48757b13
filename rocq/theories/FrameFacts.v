(** * Into the frame of a body: proofs on doubles. *)

Require Import Reals ZArith List Bool Lra Lia.
From Flocq Require Import Core BinarySingleNaN.
Require Import Verif.Num Verif.Types Verif.Priv Verif.OpsUni Verif.OpsAdd Verif.OpsSub
  Verif.OpsMul Verif.Const Verif.Validity Verif.Func Verif.SpecCl Verif.RealInst Verif.AlgTac Verif.AlgMul Verif.AlgFacts Verif.SpecFunc
  Verif.FuncFacts Verif.SpecExp Verif.ExpFacts Verif.ExpThm Verif.Rel Verif.B64 Verif.B64Facts Verif.SpecValid
  Verif.SpecRound Verif.ErrFacts Verif.SpecAcc Verif.BoundFacts Verif.AccFacts Verif.NormFacts Verif.ExpAcc Verif.LogAcc Verif.RootAcc Verif.RotAcc
  Verif.SpecLoop Verif.LoopFacts Verif.SpecFrame.
Require Verif.AcceptFacts Verif.ScaleFacts.
Import ListNotations.
Local Open Scope R_scope.

(** ** Half an angle *)
Definition frame_comp (c : f64) : Prop :=
  fin c = true /\ (b2r c = 0 \/ bpow radix2 (-400) <= Rabs (b2r c) <= bpow radix2 30).
Lemma half_val : fin (f64_lit 1 (-1)) = true /\ b2r (f64_lit 1 (-1)) = / 2.
Proof.
  destruct (AcceptFacts.lit_val53 1 (-1)) as [F E]; [reflexivity|lia|]. split; [exact F|]. rewrite E. change (bpow radix2 (-1)) with (/ 2). lra.
Qed.
Lemma half_comp : forall c, frame_comp c -> fin (Bmult mode_NE (f64_lit 1 (-1)) c) = true /\ b2r (Bmult mode_NE (f64_lit 1 (-1)) c) = / 2 * b2r c.
Proof.
  intros c [F H]. destruct half_val as [Fh Eh].
  assert (Q : rnd64 (b2r (f64_lit 1 (-1)) * b2r c) = / 2 * b2r c).
  { rewrite Eh. change (/ 2) with (bpow radix2 (-1)).
    change (rnd64 (bpow radix2 (-1) * b2r c)) with (nearest64 (bpow radix2 (-1) * b2r c)). rewrite ScaleFacts.nearest_scale.
    - f_equal. apply ScaleFacts.nearest_fmt. apply generic_format_B2R.
    - destruct H as [H|[H1 _]]; [left; exact H|right]. split.
      + eapply Rle_trans; [|exact H1]. apply bpow_le. lia.
      + eapply Rle_trans; [|apply Rmult_le_compat_l; [apply bpow_ge_0|exact H1]]. rewrite <- bpow_plus. apply bpow_le. lia. }
  destruct (bmult_ok (f64_lit 1 (-1)) c Fh F) as [A B].
  - rewrite Q. rewrite Rabs_mult, (Rabs_pos_eq (/ 2)) by lra.
    assert (Rabs (b2r c) <= bpow radix2 30) by (destruct H as [->|H]; [rewrite Rabs_R0; apply bpow_ge_0|apply H]).
    apply Rle_lt_trans with (bpow radix2 30); [|apply bpow_lt; lia]. pose proof (Rabs_pos (b2r c)). lra.
  - split; [exact A|]. rewrite B. exact Q.
Qed.
Lemma half_angle : forall b, frame_angle b -> let h := mul TDub TBiv (nlit 1 (-1) : f64) b in
  all_finite TBiv h /\ ceq (exactly TBiv h) (cscale (/ 2) (exactly TBiv b)).
Proof.
  intros [[x y z]] H. unfold frame_angle in H. cbn [elems] in H.
  inversion H as [|? ? Hx H1]; subst. inversion H1 as [|? ? Hy H2]; subst. inversion H2 as [|? ? Hz _]; subst.
  destruct (half_comp x Hx) as [Fx Ex]. destruct (half_comp y Hy) as [Fy Ey]. destruct (half_comp z Hz) as [Fz Ez].
  intros h. 
  assert (Hh : h = Biv (Bmult mode_NE (f64_lit 1 (-1)) x) (Bmult mode_NE (f64_lit 1 (-1)) y) (Bmult mode_NE (f64_lit 1 (-1)) z)) by reflexivity.
  rewrite Hh. clear h Hh. revert Fx Ex Fy Ey Fz Ez.
  generalize (Bmult mode_NE (f64_lit 1 (-1)) x) (Bmult mode_NE (f64_lit 1 (-1)) y) (Bmult mode_NE (f64_lit 1 (-1)) z).
  intros x' y' z' Fx Ex Fy Ey Fz Ez. split; [repeat constructor; assumption|].
  intros k. unfold exactly, cscale. dblade k; cbn; rewrite ?Ex, ?Ey, ?Ez; try ring. 
Qed.
Lemma angle_norm : forall b, frame_angle b -> cnorm (exactly TBiv b) <= bpow radix2 32.
Proof.
  intros [[x y z]] H. unfold frame_angle in H. cbn [elems] in H.
  inversion H as [|? ? Hx H1]; subst. inversion H1 as [|? ? Hy H2]; subst. inversion H2 as [|? ? Hz _]; subst.
  assert (S : forall c, frame_comp c -> b2r c * b2r c <= bpow radix2 60).
  { intros c [_ K]. replace (bpow radix2 60) with (bpow radix2 30 * bpow radix2 30) by (rewrite <- bpow_plus; reflexivity).
    assert (Rabs (b2r c) <= bpow radix2 30) by (destruct K as [->|K]; [rewrite Rabs_R0; apply bpow_ge_0|apply K]).
    rewrite <- (Rabs_pos_eq (b2r c * b2r c)) by exact (Rle_0_sqr _). rewrite Rabs_mult. apply Rmult_le_compat; try apply Rabs_pos; assumption. }
  pose proof (S x Hx) as Sx. pose proof (S y Hy) as Sy. pose proof (S z Hz) as Sz.
  unfold cnorm. replace (bpow radix2 32) with (sqrt (bpow radix2 64)).
  2:{ replace (bpow radix2 64) with (bpow radix2 32 * bpow radix2 32) by (rewrite <- bpow_plus; reflexivity). apply sqrt_square, bpow_ge_0. }
  apply sqrt_le_1_alt. apply Rle_trans with (b2r x * b2r x + b2r y * b2r y + b2r z * b2r z).
  { right. unfold cnorm2, exactly. cbv -[B2R Rplus Rmult Ropp R0 IZR]. ring. }
  replace (bpow radix2 64) with (16 * bpow radix2 60) by (change 16 with (bpow radix2 4); rewrite <- bpow_plus; reflexivity).
  pose proof (bpow_gt_0 radix2 60) as P60. revert Sx Sy Sz P60. generalize (bpow radix2 60) (b2r x * b2r x) (b2r y * b2r y) (b2r z * b2r z). intros; lra.
Qed.
Lemma zero_angle : forall (L : Libm f64) (b : BiVector f64), Forall (fun c => fin c = true /\ b2r c = 0) (elems TBiv b) ->
  exp_Biv b = mkSpin (Sca none_) zero_Biv.
Proof.
  intros L [[x y z]] H. cbn [elems] in H.
  assert (Z : forall c : f64, fin c = true /\ b2r c = 0 -> exists s, c = B754_zero s).
  { intros c [Fc Hc]. destruct c as [s|s| |s m e B]; try discriminate Fc; [exists s; reflexivity|].
    exfalso. revert Hc. cbn [B2R]. apply F2R_neq_0. destruct s; discriminate. }
  inversion H as [|? ? Hx H1]; subst. inversion H1 as [|? ? Hy H2]; subst. inversion H2 as [|? ? Hz _]; subst.
  destruct (Z x Hx) as [sx ->]. destruct (Z y Hy) as [sy ->]. destruct (Z z Hz) as [sz ->].
  unfold exp_Biv.
  replace (isValid_Biv (Biv (B754_zero sx) (B754_zero sy) (B754_zero sz) : BiVector f64)) with true by (destruct sx; reflexivity).
  cbv zeta.
  replace (isValid_Biv (snd (pairMagDirFrom TBiv (Biv (B754_zero sx) (B754_zero sy) (B754_zero sz) : BiVector f64)))) with false
    by (destruct sx, sy, sz; vm_compute; reflexivity).
  reflexivity.
Qed.
Lemma angle_cases : forall b, frame_angle b -> 
  Forall (fun c => fin c = true /\ b2r c = 0) (elems TBiv (mul TDub TBiv (nlit 1 (-1) : f64) b)) \/
  exp_domain (mul TDub TBiv (nlit 1 (-1) : f64) b).
Proof.
  intros b H. destruct (half_angle b H) as [F E]. pose proof (angle_norm b H) as N. set (h := mul TDub TBiv (nlit 1 (-1) : f64) b) in *.
  assert (Nh : cnorm (exactly TBiv h) = / 2 * cnorm (exactly TBiv b)) by (rewrite (cnorm_ceq _ _ E), cnorm_scale, Rabs_pos_eq by lra; reflexivity).
  assert (Cx : forall k, exactly TBiv h k = / 2 * exactly TBiv b k) by exact E.
  assert (KN : forall k, Rabs (exactly TBiv b k) <= cnorm (exactly TBiv b)) by (intros k; apply comp_le_norm).
  pose proof (cnorm_nonneg (exactly TBiv b)) as PN.
  clearbody h. clear E. revert N Nh KN PN. generalize (cnorm (exactly TBiv b)). intros n N Nh KN PN.
  destruct b as [[x y z]]. unfold frame_angle in H. cbn [elems] in H.
  inversion H as [|? ? Hx H1]; subst. inversion H1 as [|? ? Hy H2]; subst. inversion H2 as [|? ? Hz _]; subst. clear H H1 H2.
  assert (Dh : exists x' y' z', h = Biv x' y' z') by (destruct h as [[x' y' z']]; exists x', y', z'; reflexivity).
  destruct Dh as (x' & y' & z' & Dh).
  assert (Fl : fin x' = true /\ fin y' = true /\ fin z' = true).
  { rewrite Dh in F. inversion F as [|? ? ? F1]; subst. inversion F1 as [|? ? ? F2]; subst. inversion F2; subst. auto. }
  assert (Ex : b2r x' = / 2 * b2r x) by (rewrite Dh in Cx; exact (Cx bE23)).
  assert (Ey : b2r y' = / 2 * b2r y).
  { rewrite Dh in Cx. pose proof (Cx bE13) as K. change (- b2r y' = / 2 * - b2r y) in K || change (b2r y' = / 2 * b2r y) in K. lra. }
  assert (Ez : b2r z' = / 2 * b2r z) by (rewrite Dh in Cx; exact (Cx bE12)).
  assert (big : (bpow radix2 (-400) <= n) -> exp_domain h).
  { intros HX. split; [exact F|]. rewrite Nh. split.
    - split.
      + apply Rle_trans with (/ 2 * bpow radix2 (-400)); [|lra]. change (/ 2) with (bpow radix2 (-1)). rewrite <- bpow_plus. apply bpow_le. lia.
      + apply Rle_trans with (bpow radix2 32); [lra|apply bpow_le; lia].
    - replace (biv_0 h) with x' by (rewrite Dh; reflexivity). rewrite Ex. destruct Hx as [_ [Zx|[Lx _]]]; [left; rewrite Zx; ring|right].
      rewrite Rabs_mult, (Rabs_pos_eq (/ 2)) by lra. split.
      + apply Rle_trans with (/ 2 * bpow radix2 (-400)); [|lra]. change (/ 2) with (bpow radix2 (-1)). rewrite <- bpow_plus. apply bpow_le. lia.
      + apply Rle_trans with (/ 2 * bpow radix2 (-400)); [|lra].
        apply Rle_trans with (bpow radix2 (-1000) * (/ 2 * bpow radix2 32)).
        { apply Rmult_le_compat_l; [apply bpow_ge_0|lra]. }
        change (/ 2) with (bpow radix2 (-1)). rewrite <- !bpow_plus. apply bpow_le. lia. }
  pose proof (KN bE23) as K1. pose proof (KN bE13) as K2. pose proof (KN bE12) as K3.
  change (Rabs (b2r x) <= n) in K1. change (Rabs (b2r z) <= n) in K3.
  assert (K2' : Rabs (b2r y) <= n) by (first [exact K2 | rewrite <- Rabs_Ropp; exact K2]). clear K2.
  destruct Hx as [_ [Zx|[Lx _]]]; [|right; apply big; lra].
  destruct Hy as [_ [Zy|[Ly _]]]; [|right; apply big; lra].
  destruct Hz as [_ [Zz|[Lz _]]]; [|right; apply big; lra].
  left. rewrite Dh. cbn [elems]. destruct Fl as (Fx & Fy & Fz).
  rewrite Zx in Ex. rewrite Zy in Ey. rewrite Zz in Ez. rewrite Rmult_0_r in Ex, Ey, Ez.
  exact (Forall_cons _ (conj Fx Ex) (Forall_cons _ (conj Fy Ey) (Forall_cons _ (conj Fz Ez) (Forall_nil _)))).
Qed.

(** ** One rotor *)
Section Frame.
Context (L : Libm f64).
Lemma within_pos : forall eps, trig_within eps L -> 0 <= eps.
Proof.
  intros eps T. destruct (cos_within _ _ T (B754_zero false) eq_refl) as [_ K]. eapply Rle_trans; [apply Rabs_pos|exact K].
Qed.
Definition rotor_error (eps : R) (b : BiVector f64) : R := 2 * eps + 16 * u53 + 8 * u53 * cnorm (exactly TBiv b).
Lemma rotor_error_small : forall eps b, eps <= / 32 -> frame_angle b -> rotor_error eps b <= / 12.
Proof.
  intros eps b He H. pose proof (angle_norm b H) as N. unfold rotor_error. pose proof u53_pos.
  assert (8 * u53 * cnorm (exactly TBiv b) <= 8 * u53 * bpow radix2 32) by (apply Rmult_le_compat_l; lra).
  assert (16 * u53 + 8 * u53 * bpow radix2 32 <= / 1000) by (rewrite u53_val; change (bpow radix2 32) with (IZR 4294967296); lra). lra.
Qed.
Lemma rotor_near : forall eps, trig_within eps L -> eps <= / 32 -> forall b E, frame_angle b -> is_cexp (cscale (/ 2) (exactly TBiv b)) E ->
  let r := half_angle_rotor b in
  medium r /\ spinly E /\ cnorm E = 1 /\ cnorm (csub (exactly TSpin r) E) <= rotor_error eps b.
Proof.
  intros eps T He b E H HE r. destruct (half_angle b H) as [F Eh]. pose proof (rotor_error_small eps b He H) as S.
  set (h := mul TDub TBiv (nlit 1 (-1) : f64) b) in *. change r with (exp_Biv h).
  assert (HE' : is_cexp (exactly TBiv h) E) by (apply (is_cexp_ceq (cscale (/ 2) (exactly TBiv b)) _ E); [symmetry; exact Eh|reflexivity|exact HE]).
  pose proof (cexp_biv_spin h E HE') as SE. pose proof (cexp_biv_norm h E HE') as NE.
  pose proof (within_pos eps T) as P. pose proof u53_pos as PU. pose proof (cnorm_nonneg (exactly TBiv b)) as PB.
  assert (K : all_finite TSpin (exp_Biv h) /\ cnorm (csub (exactly TSpin (exp_Biv h)) E) <= rotor_error eps b).
  { destruct (angle_cases b H) as [Z|D]; [fold h in Z|fold h in D].
    - rewrite (zero_angle L h Z). split; [exact one_finite|].
      assert (C : ceq E cone).
      { apply (is_cexp_unique (exactly TBiv h)); [exact HE'|].
        apply (is_cexp_ceq (cscale 0 cone) _ (cscale (exp 0) cone)).
        - intros k. unfold cscale. rewrite Rmult_0_l. clearbody h. destruct h as [[x y z]]. cbn [elems] in Z.
          inversion Z as [|? ? [_ Zx] Z1]; subst. inversion Z1 as [|? ? [_ Zy] Z2]; subst. inversion Z2 as [|? ? [_ Zz] _]; subst.
          unfold exactly. dblade k; cbn; rewrite ?Zx, ?Zy, ?Zz; ring.
        - intros k. unfold cscale. rewrite exp_0. ring.
        - apply cexp_scalar. }
      rewrite (cnorm_ceq _ (csub cone cone)).
      + rewrite zero_off. unfold rotor_error. assert (0 <= 8 * u53 * cnorm (exactly TBiv b)) by (apply Rmult_le_pos; lra). lra.
      + intros k. unfold csub. rewrite (C k). f_equal. apply one_exactly.
    - destruct (exp_Biv_accurate eps T ltac:(lra) h E D HE') as (A & _ & B). split; [exact A|].
      eapply Rle_trans; [exact B|]. change unit_roundoff with u53. rewrite (cnorm_ceq _ _ Eh), cnorm_scale, (Rabs_pos_eq (/ 2)) by lra.
      unfold rotor_error. lra. }
  destruct K as [A B]. pose proof (norm_diff (exactly TSpin (exp_Biv h)) E) as ND. apply Rabs_le_inv in ND. rewrite NE in ND.
  split; [|split; [exact SE|split; [exact NE|exact B]]].
  split; [exact A|]. split.
  - apply Rle_trans with (bpow radix2 (-1)); [apply bpow_le; lia|change (bpow radix2 (-1)) with (/ 2); lra].
  - apply Rle_trans with (bpow radix2 2); [change (bpow radix2 2) with 4; lra|apply bpow_le; lia].
Qed.
(** ** Products *)
Lemma frame_error_is : forall eps b, rotor_error eps b + 36 * u53 <= frame_error eps b.
Proof. intros eps b. unfold frame_error, rotor_error. change unit_roundoff with u53. pose proof u53_pos. lra. Qed.
Lemma near_medium : forall s E, all_finite TSpin s -> cnorm E = 1 -> cnorm (csub (exactly TSpin s) E) <= / 2 -> medium s.
Proof.
  intros s E A NE B. pose proof (norm_diff (exactly TSpin s) E) as ND. apply Rabs_le_inv in ND. rewrite NE in ND.
  split; [exact A|]. split.
  - apply Rle_trans with (bpow radix2 (-1)); [apply bpow_le; lia|change (bpow radix2 (-1)) with (/ 2); lra].
  - apply Rle_trans with (bpow radix2 2); [change (bpow radix2 2) with 4; lra|apply bpow_le; lia].
Qed.
Lemma factor_near : forall s E q D d e, medium s -> spinly E -> cnorm E = 1 -> cnorm (csub (exactly TSpin s) E) <= d -> d <= / 2 ->
  medium q -> spinly D -> cnorm D = 1 -> cnorm (csub (exactly TSpin q) D) <= e -> e <= / 12 ->
  let r := mul TSpin TSpin s q in
  all_finite TSpin r /\ spinly (gp E D) /\ cnorm (gp E D) = 1 /\
  cnorm (csub (exactly TSpin r) (gp E D)) <= d + 3 / 2 * (e + 36 * u53).
Proof.
  intros s E q D d e Ms SE NE Hd Ld Mq SD ND He Le r.
  split; [apply step_finite; assumption|]. split; [apply spinly_gp; assumption|].
  split; [rewrite norm_gp_r by (apply spinly_rev; exact SD); rewrite NE, ND; ring|].
  pose proof (step_product s q Ms Mq) as P. fold r in P. set (S := exactly TSpin s) in *. set (Q := exactly TSpin q) in *.
  pose proof (norm_diff S E) as N1. apply Rabs_le_inv in N1. pose proof (norm_diff Q D) as N2. apply Rabs_le_inv in N2.
  pose proof (cnorm_nonneg (csub S E)) as P1. pose proof (cnorm_nonneg (csub Q D)) as P2. pose proof u53_pos as PU.
  pose proof (cnorm_nonneg S) as PS. pose proof (cnorm_nonneg Q) as PQ.
  eapply Rle_trans; [apply (norm_sub_le _ (gp S Q))|].
  assert (K1 : cnorm S * cnorm Q <= 3 / 2 * (13 / 12)) by (apply Rmult_le_compat; lra).
  assert (K2 : 27 * u53 * (cnorm S * cnorm Q) <= 54 * u53).
  { apply Rle_trans with (27 * u53 * (3 / 2 * (13 / 12))); [apply Rmult_le_compat_l; lra|lra]. }
  assert (K3 : cnorm (csub (gp S Q) (gp E D)) <= d + 3 / 2 * e).
  { eapply Rle_trans; [apply (norm_sub_le _ (gp S D))|].
    assert (A1 : cnorm (csub (gp S Q) (gp S D)) = cnorm S * cnorm (csub Q D)).
    { rewrite <- norm_gp_l by (apply spinly_rev, spinly_exactly). apply cnorm_ceq. intros k. symmetry. apply gp_sub_r. }
    assert (A2 : cnorm (csub (gp S D) (gp E D)) = cnorm (csub S E)).
    { transitivity (cnorm (csub S E) * cnorm D); [|rewrite ND; ring]. rewrite <- norm_gp_r by (apply spinly_rev; exact SD).
      apply cnorm_ceq. intros k. symmetry. apply gp_sub_l. }
    rewrite A1, A2. assert (cnorm S * cnorm (csub Q D) <= 3 / 2 * e) by (apply Rmult_le_compat; lra). lra. }
  lra.
Qed.
Lemma product_near : forall eps, trig_within eps L -> eps <= / 32 -> forall l s E d, Forall (fun x => frame_angle (fst x) /\ half_exp x) l ->
  medium s -> spinly E -> cnorm E = 1 -> cnorm (csub (exactly TSpin s) E) <= d ->
  d + 3 / 2 * total (fun x => frame_error eps (fst x)) l <= / 2 ->
  let r := running_product s (map half_angle_rotor (map fst l)) in let G := fold_left gp (map snd l) E in
  medium r /\ spinly G /\ cnorm G = 1 /\ cnorm (csub (exactly TSpin r) G) <= d + 3 / 2 * total (fun x => frame_error eps (fst x)) l.
Proof.
  intros eps T He l. pose proof (within_pos eps T) as P. pose proof u53_pos as PU.
  assert (FP : forall x : BiVector f64 * clf, 0 <= frame_error eps (fst x)).
  { intros x. unfold frame_error. change unit_roundoff with u53. pose proof (cnorm_nonneg (exactly TBiv (fst x))).
    assert (0 <= 8 * u53 * (7 + cnorm (exactly TBiv (fst x)))) by (apply Rmult_le_pos; lra). lra. }
  induction l as [|x l IH]; intros s E d Hl Ms SE NE Hd Hb.
  - intros r G. split; [exact Ms|]. split; [exact SE|]. split; [exact NE|]. change (cnorm (csub (exactly TSpin s) E) <= d + 3 / 2 * 0). lra.
  - inversion Hl as [|? ? [Fx Ex] Hl']; subst. cbn [total fold_right] in Hb. fold (total (fun x : BiVector f64 * clf => frame_error eps (fst x)) l) in Hb.
    assert (TP : 0 <= total (fun x : BiVector f64 * clf => frame_error eps (fst x)) l).
    { clear -FP. induction l as [|y l IH]; cbn [total fold_right] in *; [lra|]. specialize (FP y). unfold total in IH. lra. }
    specialize (FP x). destruct (rotor_near eps T He (fst x) (snd x) Fx Ex) as (Mq & SD & ND & Hq).
    pose proof (rotor_error_small eps (fst x) He Fx) as Rs. pose proof (frame_error_is eps (fst x)) as Fe.
    destruct (factor_near s E _ (snd x) d _ Ms SE NE Hd ltac:(lra) Mq SD ND Hq Rs) as (A & B & C & D).
    cbn zeta. cbn [map fold_left running_product total fold_right]. fold (total (fun x : BiVector f64 * clf => frame_error eps (fst x)) l).
    specialize (IH (mul TSpin TSpin s (half_angle_rotor (fst x))) (gp E (snd x)) (d + 3 / 2 * frame_error eps (fst x)) Hl').
    cbn zeta in IH. destruct IH as (I1 & I2 & I3 & I4).
    + apply (near_medium _ (gp E (snd x)) A C). lra.
    + exact B.
    + exact C.
    + lra.
    + lra.
    + split; [exact I1|]. split; [exact I2|]. split; [exact I3|]. eapply Rle_trans; [exact I4|]. lra.
Qed.
End Frame.
