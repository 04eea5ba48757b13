(** * Magnitude, direction, amplitude and inverse in exact arithmetic
      (proofs only). *)

Require Import Reals Lra Bool List Setoid Morphisms Lia.
From Flocq Require Import Core.
Require Import Verif.Num Verif.Types Verif.Priv Verif.OpsUni Verif.OpsAdd
  Verif.OpsSub Verif.OpsMul Verif.Const Verif.Validity Verif.Func Verif.SpecCl Verif.RealInst
  Verif.AlgTac Verif.AlgMul Verif.AlgFacts Verif.AlgSpec Verif.AlgThm.
Require Export Verif.SpecFunc.
Import ListNotations.
Local Open Scope R_scope.

(** ** Real operations commute with [exact]. *)
Lemma mul_exact : forall a b (x : val R a) (y : val R b),
  mul a b (exact a x) (exact b y) = exact _ (mul a b x y).
Proof. intros a b x y; destruct a, b; reflexivity. Qed.
Lemma magSq_exact : forall t (x : val R t), magSq t (exact t x) = Some (magSq t x).
Proof. intros t x; destruct t; reflexivity. Qed.
Lemma scale_exact : forall t r (x : val R t), scale t (Some r) (exact t x) = exact t (scale t r x).
Proof. intros t r x; destruct t; reflexivity. Qed.
Lemma scale_den : forall t r (x : val R t), ceq (den t (scale t r x)) (cscale r (den t x)).
Proof. intros t r x k; destruct t; dvals; dblade k; dring. Qed.
Lemma reverse_exact : forall t (x : val R t), reverse t (exact t x) = exact t (reverse t x).
Proof. intros t x; destruct t; reflexivity. Qed.
Lemma exact_inj : forall t (x y : val R t), exact t x = exact t y -> x = y.
Proof.
  intros t x y H; destruct t; dvals; cbv in H; injection H; intros; subst; reflexivity.
Qed.

Lemma Rltb_true x y : x < y -> Rltb x y = true.
Proof. intros; unfold Rltb; destruct (Rlt_dec x y); [reflexivity | contradiction]. Qed.
Lemma Rltb_false x y : y <= x -> Rltb x y = false.
Proof. intros; unfold Rltb; destruct (Rlt_dec x y); [lra | reflexivity]. Qed.
Lemma Reqb_false x y : x <> y -> Reqb x y = false.
Proof. intros; unfold Reqb; destruct (Req_EM_T x y); [contradiction | reflexivity]. Qed.
Lemma Reqb_true x y : x = y -> Reqb x y = true.
Proof. intros; unfold Reqb; destruct (Req_EM_T x y); [reflexivity | contradiction]. Qed.

Lemma isValid_x : forall x : R, isValid_Dub (Some x : xreal) = true.
Proof.
  intros x; unfold isValid_Dub; cbn; destruct (Req_EM_T x 0) as [->|n].
  - rewrite !Reqb_true by reflexivity; reflexivity.
  - rewrite Reqb_false by assumption; reflexivity.
Qed.
Lemma isValid_exact : forall t (x : val R t), isValid t (exact t x) = true.
Proof.
  intros t x; destruct t; dvals; cbn -[isValid_Dub];
  unfold isValid_Sca, isValid_Vec, isValid_Biv, isValid_Tri, isValid_Spin, isValid_Imsp,
    isValid_Cplx, isValid_Dplx, isValid_Mvec, isValid_Sca, isValid_Vec, isValid_Biv, isValid_Tri;
  cbn -[isValid_Dub]; rewrite ?isValid_x; reflexivity.
Qed.
Lemma isValid_null : forall t, isValid t (null t : val xreal t) = false.
Proof. intros t; destruct t; reflexivity. Qed.

(** ** magnitude *)

Lemma magnitude_exact : forall t (x : val R t),
  magnitude t (exact t x) = Some (cnorm (den t x)).
Proof.
  intros t x; unfold magnitude; rewrite magSq_exact; cbn.
  rewrite Rltb_false by apply magSq_nonneg; rewrite magSq_den; reflexivity.
Qed.

Lemma cnorm_nonneg a : 0 <= cnorm a.
Proof. apply sqrt_pos. Qed.
Lemma cnorm_sq a : cnorm a * cnorm a = cnorm2 a.
Proof. apply sqrt_sqrt, cnorm2_nonneg. Qed.
Lemma cnorm_pos a : ~ ceq a czero -> 0 < cnorm a.
Proof.
  intros H; destruct (Rle_lt_or_eq_dec 0 (cnorm a) (cnorm_nonneg a)) as [h|h]; [exact h|].
  exfalso; apply H, cnorm2_zero; rewrite <- cnorm_sq, <- h; ring.
Qed.
Lemma cnorm2_ceq a b : ceq a b -> cnorm2 a = cnorm2 b.
Proof.
  intros H; unfold cnorm2; f_equal; apply map_ext; intro i; rewrite (H i); reflexivity.
Qed.
Lemma cnorm_ceq a b : ceq a b -> cnorm a = cnorm b.
Proof. intros H; unfold cnorm; rewrite (cnorm2_ceq a b H); reflexivity. Qed.
Global Instance cnorm2_proper : Proper (ceq ==> eq) cnorm2.
Proof. exact cnorm2_ceq. Qed.
Global Instance cnorm_proper : Proper (ceq ==> eq) cnorm.
Proof. exact cnorm_ceq. Qed.

Lemma cnorm2_scale r a : cnorm2 (cscale r a) = r * r * cnorm2 a.
Proof. dring. Qed.
Lemma cnorm_scale r a : cnorm (cscale r a) = Rabs r * cnorm a.
Proof.
  unfold cnorm; rewrite cnorm2_scale, sqrt_mult_alt by apply Rle_0_sqr.
  f_equal; apply (sqrt_Rsqr_abs r).
Qed.
Lemma cnorm2_opp a : cnorm2 (copp a) = cnorm2 a.
Proof. dring. Qed.

(** Cauchy-Schwarz and the triangle inequality. *)
Definition cdot (a b : clf) : R := rsum (map (fun i => a i * b i) all_blades).
Lemma cnorm2_lin r a b :
  cnorm2 (cadd (cscale r a) b) = r * r * cnorm2 a + 2 * r * cdot a b + cnorm2 b.
Proof. dring. Qed.
Lemma cauchy_schwarz a b : cdot a b * cdot a b <= cnorm2 a * cnorm2 b.
Proof.
  pose proof (cnorm2_nonneg a) as Ha; pose proof (cnorm2_nonneg b) as Hb.
  destruct (Rle_lt_or_eq_dec 0 (cnorm2 a) Ha) as [h|h].
  - pose proof (cnorm2_nonneg (cadd (cscale (- (cdot a b / cnorm2 a)) a) b)) as H.
    rewrite cnorm2_lin in H.
    apply (Rmult_le_compat_l (cnorm2 a)) in H; [|lra].
    replace (cnorm2 a * (- (cdot a b / cnorm2 a) * - (cdot a b / cnorm2 a) * cnorm2 a
       + 2 * - (cdot a b / cnorm2 a) * cdot a b + cnorm2 b))
      with (cnorm2 a * cnorm2 b - cdot a b * cdot a b) in H by (field; lra).
    lra.
  - symmetry in h; apply cnorm2_zero in h.
    assert (E : cdot a b = 0).
    { unfold cdot, all_blades; cbn [map]; rewrite !h; unfold czero, rsum; cbn; ring. }
    rewrite E; nra.
Qed.
Lemma cnorm2_add a b : cnorm2 (cadd a b) = cnorm2 a + 2 * cdot a b + cnorm2 b.
Proof. dring. Qed.
Lemma cdot_le a b : cdot a b <= cnorm a * cnorm b.
Proof.
  pose proof (cauchy_schwarz a b) as H.
  rewrite <- (cnorm_sq a), <- (cnorm_sq b) in H.
  pose proof (cnorm_nonneg a); pose proof (cnorm_nonneg b).
  assert (0 <= cnorm a * cnorm b) by nra.
  destruct (Rle_or_lt (cdot a b) (cnorm a * cnorm b)); [assumption|].
  assert (cnorm a * cnorm b * (cnorm a * cnorm b) < cdot a b * cdot a b) by nra.
  nra.
Qed.
Lemma cnorm_triangle a b : cnorm (cadd a b) <= cnorm a + cnorm b.
Proof.
  pose proof (cnorm_nonneg a); pose proof (cnorm_nonneg b).
  apply Rsqr_incr_0_var; [|lra]. unfold Rsqr.
  rewrite cnorm_sq, cnorm2_add.
  pose proof (cdot_le a b). rewrite <- (cnorm_sq a), <- (cnorm_sq b). nra.
Qed.

(** Products with at least one factor other than DirPlex and MultiVector. *)
Definition rev_scalar (a : clf) : Prop :=
  ceq (gp (crev a) a) (cscale (cnorm2 a) cone) /\ ceq (gp a (crev a)) (cscale (cnorm2 a) cone).
Lemma unmixed_rev : forall t (x : val R t), unmixed t = true -> rev_scalar (den t x).
Proof.
  intros t x Ht; destruct t; try discriminate Ht; dvals; split; intro k; dblade k; dring.
Qed.
Lemma crev_crev a : ceq (crev (crev a)) a.
Proof. intro k; dblade k; dring. Qed.
Lemma cnorm2_gp_r a b : rev_scalar b -> cnorm2 (gp a b) = cnorm2 a * cnorm2 b.
Proof.
  intros [_ Hb].
  rewrite <- cnorm2_rev_r.
  assert (E : ceq (gp (gp a b) (crev (gp a b))) (cscale (cnorm2 b) (gp a (crev a)))).
  { rewrite crev_gp, gp_assoc, <- (gp_assoc b), Hb, gp_scale_l, gp_one_l, gp_scale_r.
    reflexivity. }
  rewrite (E bS); unfold cscale; rewrite cnorm2_rev_r; ring.
Qed.
Lemma cnorm2_rev a : cnorm2 (crev a) = cnorm2 a.
Proof. dring. Qed.
Lemma cnorm2_gp_l a b : rev_scalar a -> cnorm2 (gp a b) = cnorm2 a * cnorm2 b.
Proof.
  intros Ha. rewrite <- (cnorm2_rev (gp a b)), crev_gp.
  rewrite cnorm2_gp_r, !cnorm2_rev; [ring|].
  destruct Ha as [H1 H2]; split; rewrite crev_crev, cnorm2_rev; assumption.
Qed.
Lemma cnorm_mul a b : cnorm2 (gp a b) = cnorm2 a * cnorm2 b -> cnorm (gp a b) = cnorm a * cnorm b.
Proof. intros H; unfold cnorm; rewrite H; apply sqrt_mult_alt, cnorm2_nonneg. Qed.

(** General products: with the 2x2 complex matrix of each factor, the
    difference is a sum of four squared moduli. *)
Lemma gp_norm_bound a b : cnorm2 (gp a b) <= 2 * cnorm2 a * cnorm2 b.
Proof.
  pose (r11 := a bS + a bE3).      pose (i11 := a bE123 + a bE12).
  pose (r22 := a bS - a bE3).      pose (i22 := a bE123 - a bE12).
  pose (r12 := a bE1 - a bE13).    pose (i12 := a bE23 - a bE2).
  pose (r21 := a bE1 + a bE13).    pose (i21 := a bE23 + a bE2).
  pose (p11 := b bS + b bE3).      pose (q11 := b bE123 + b bE12).
  pose (p22 := b bS - b bE3).      pose (q22 := b bE123 - b bE12).
  pose (p12 := b bE1 - b bE13).    pose (q12 := b bE23 - b bE2).
  pose (p21 := b bE1 + b bE13).    pose (q21 := b bE23 + b bE2).
  (* row i of a against column j of b: | a_i1 conj(b_2j) - a_i2 conj(b_1j) |^2 *)
  assert (E : 2 * cnorm2 a * cnorm2 b - cnorm2 (gp a b) =
    / 2 * ( (Rsqr (r11 * p21 + i11 * q21 - (r12 * p11 + i12 * q11))
           + Rsqr (i11 * p21 - r11 * q21 - (i12 * p11 - r12 * q11)))
          + (Rsqr (r11 * p22 + i11 * q22 - (r12 * p12 + i12 * q12))
           + Rsqr (i11 * p22 - r11 * q22 - (i12 * p12 - r12 * q12)))
          + (Rsqr (r21 * p21 + i21 * q21 - (r22 * p11 + i22 * q11))
           + Rsqr (i21 * p21 - r21 * q21 - (i22 * p11 - r22 * q11)))
          + (Rsqr (r21 * p22 + i21 * q22 - (r22 * p12 + i22 * q12))
           + Rsqr (i21 * p22 - r21 * q22 - (i22 * p12 - r22 * q12))))).
  { subst r11 i11 r22 i22 r12 i12 r21 i21 p11 q11 p22 q22 p12 q12 p21 q21; unfold Rsqr.
    cbv -[Rplus Rminus Rmult Ropp Rinv R R0 R1 IZR]; field. }
  assert (0 <= 2 * cnorm2 a * cnorm2 b - cnorm2 (gp a b)).
  { rewrite E. repeat match goal with |- context [Rsqr ?x] =>
      let h := fresh in pose proof (Rle_0_sqr x) as h; generalize dependent (Rsqr x); intros end.
    lra. }
  lra.
Qed.

(** ** direction and magnitude *)
Lemma tiny_pos : 0 < tiny. Proof. apply bpow_gt_0. Qed.
Lemma dmin_pos : 0 < dmin. Proof. apply bpow_gt_0. Qed.
Lemma deps_pos : 0 < deps. Proof. apply bpow_gt_0. Qed.

Lemma lit1 e : (nlit 1 e : xreal) = Some (bpow radix2 e).
Proof. cbn -[bpow]; rewrite Rmult_1_l; reflexivity. Qed.
Lemma lit0 m : (nlit m 0 : xreal) = Some (IZR m).
Proof. cbn; rewrite Rmult_1_r; reflexivity. Qed.

Lemma div_exact a b : b <> 0 -> ndiv (Some a : xreal) (Some b) = Some (a / b).
Proof. intros H; cbn; rewrite Reqb_false by exact H; reflexivity. Qed.

Lemma pairMagDir_exact : forall t (x : val R t),
  pairMagDirFrom t (exact t x) =
    (Some (cnorm (den t x)),
     if Rltb tiny (cnorm (den t x)) then exact t (scale t (1 / cnorm (den t x)) x) else null t).
Proof.
  intros t x; unfold pairMagDirFrom; rewrite magnitude_exact; f_equal.
  unfold lim_denorm_min; rewrite lit1; fold tiny.
  change (nltb (Some tiny : xreal) (Some (cnorm (den t x)))) with (Rltb tiny (cnorm (den t x))).
  destruct (Rltb tiny (cnorm (den t x))) eqn:E; [|reflexivity].
  assert (tiny < cnorm (den t x)) by
    (unfold Rltb in E; destruct (Rlt_dec tiny (cnorm (den t x))); [assumption|discriminate]).
  pose proof tiny_pos.
  change (none_ : xreal) with (Some 1 : xreal).
  rewrite div_exact by lra; apply scale_exact.
Qed.

Lemma pairMagDir_split : forall t (x : val R t), tiny < cnorm (den t x) ->
  exists m d, pairMagDirFrom t (exact t x) = (Some m, exact t d) /\
   0 < m /\ ceq (cscale m (den t d)) (den t x) /\ cnorm (den t d) = 1 /\ m = cnorm (den t x).
Proof.
  intros t x H; pose proof tiny_pos.
  exists (cnorm (den t x)), (scale t (1 / cnorm (den t x)) x).
  rewrite pairMagDir_exact, Rltb_true by exact H.
  assert (0 < cnorm (den t x)) by lra.
  repeat split; try assumption.
  - intro k; unfold cscale; rewrite (scale_den t _ x k); unfold cscale; field; lra.
  - rewrite (cnorm_ceq _ _ (scale_den t _ x)), cnorm_scale, Rabs_pos_eq.
    + field; lra.
    + apply Rlt_le, Rdiv_lt_0_compat; lra.
Qed.
Lemma pairMagDir_tiny : forall t (x : val R t), cnorm (den t x) <= tiny ->
  pairMagDirFrom t (exact t x) = (Some (cnorm (den t x)), null t).
Proof. intros t x H; rewrite pairMagDir_exact, Rltb_false by exact H; reflexivity. Qed.

(** ** ampSq *)
Lemma ampSq_exact : forall t f (x : val R t), ampSq t = Some f ->
  exists z : ComPlex R, f (exact t x) = exact TCplx z /\
    ceq (den TCplx z) (gp (den t x) (cdir (den t x))).
Proof.
  intros t f x E; destruct t; try discriminate E; injection E as <-; dvals;
  (eexists (mkCplx (Sca _) (Tri _)); split;
   [ unfold ampSq_Cplx, ampSq_Dplx, ampSq_Mvec; rewrite ?lit0; cbv -[Rplus Rminus Rmult Ropp IZR]; reflexivity
   | intro k; dblade k; dring ]).
Qed.
Lemma ampSq_all : forall t, (ampSq t : option (val xreal t -> ComPlex xreal)) = None <-> t = TDub.
Proof. intros t; destruct t; split; intro h; (reflexivity || discriminate h). Qed.
Lemma cdir_cdir a : ceq (cdir (cdir a)) a.
Proof. intro k; dblade k; dring. Qed.
Lemma gp_cdir_comm a : ceq (gp a (cdir a)) (gp (cdir a) a).
Proof. intro k; dblade k; dring. Qed.
Lemma gp_cdir_central a k : grade k = 1%nat \/ grade k = 2%nat -> gp a (cdir a) k = 0.
Proof.
  intros Hk; dblade k; cbn in Hk; try lia; dring.
Qed.
Lemma amp_mult a b :
  ceq (gp (gp a b) (cdir (gp a b))) (gp (gp a (cdir a)) (gp b (cdir b))).
Proof.
  rewrite cdir_gp, gp_assoc, <- (gp_assoc b).
  rewrite (central_commutes (gp b (cdir b)) (cdir a)).
  - rewrite <- gp_assoc; reflexivity.
  - intros k Hk; apply gp_cdir_central; exact Hk.
Qed.

(** ** amplitude *)
Lemma Rcsqrt_sq x y : let r := Rcsqrt x y in
  fst r * fst r - snd r * snd r = x /\ 2 * fst r * snd r = y /\
  (0 < fst r \/ (fst r = 0 /\ 0 <= snd r)).
Proof.
  unfold Rcsqrt; cbn [fst snd].
  set (m := sqrt (x * x + y * y)).
  assert (Hm : 0 <= m) by apply sqrt_pos.
  assert (Hmm : m * m = x * x + y * y) by (apply sqrt_sqrt; nra).
  assert (Hp : 0 <= (m + x) / 2) by nra.
  assert (Hn : 0 <= (m - x) / 2) by nra.
  set (p := sqrt ((m + x) / 2)); set (q := sqrt ((m - x) / 2)).
  assert (Pp : p * p = (m + x) / 2) by (apply sqrt_sqrt; exact Hp).
  assert (Qq : q * q = (m - x) / 2) by (apply sqrt_sqrt; exact Hn).
  assert (P0 : 0 <= p) by apply sqrt_pos.
  assert (Q0 : 0 <= q) by apply sqrt_pos.
  assert (PQ : (2 * p * q) * (2 * p * q) = y * y).
  { replace (2 * p * q * (2 * p * q)) with (4 * (p * p) * (q * q)) by ring.
    rewrite Pp, Qq; nra. }
  destruct (Rlt_dec y 0) as [Hy|Hy].
  - assert (Hp0 : p <> 0).
    { intros h; rewrite h in PQ; nra. }
    split; [nra|]; split; [|left; lra].
    assert (0 <= 2 * p * q) by nra. nra.
  - split; [nra|]; split.
    + assert (0 <= 2 * p * q) by nra. nra.
    + destruct (Rle_lt_or_eq_dec 0 p P0) as [h|h]; [left; exact h | right; split; [symmetry; exact h | exact Q0]].
Qed.

Lemma amplitude_exact : forall t f g (x : val R t),
  amplitude t = Some f -> ampSq t = Some g ->
  exists z w : ComPlex R, f (exact t x) = exact TCplx z /\ g (exact t x) = exact TCplx w /\
    ceq (den _ (mul TCplx TCplx z z)) (den TCplx w) /\
    (0 < sca_0 (cplxSca z) \/ (sca_0 (cplxSca z) = 0 /\ 0 <= tri_0 (cplxTri z))).
Proof.
  intros t f g x Hf Hg; unfold amplitude in Hf; rewrite Hg in Hf; injection Hf as <-.
  destruct (ampSq_exact t g x Hg) as (w & Hw & _).
  exists (cplx_from (Rcsqrt (sca_0 (cplxSca w)) (tri_0 (cplxTri w)))), w.
  rewrite Hw.
  pose proof (Rcsqrt_sq (sca_0 (cplxSca w)) (tri_0 (cplxTri w))) as (h1 & h2 & h3).
  split; [reflexivity|]; split; [reflexivity|]; split; [|exact h3].
  rewrite mul_den; dvals; intro k.
  cbn [sca_0 tri_0 cplxSca cplxTri scaData triData at0] in *.
  destruct (Rcsqrt _ _) as [p q]; cbn [fst snd] in *; subst.
  dblade k; dring.
Qed.

(** ** Blade inverses *)
Lemma blade_inverse_form : forall t inv (x : val R t), blade_inverse t = Some inv ->
  inv (exact t x) = scale t (ndiv (Some 1 : xreal) (Some (magSq t x))) (exact t (reverse t x)).
Proof. intros t inv x E; destruct t; try discriminate E; injection E as <-; reflexivity. Qed.
Lemma blade_inverse_ok : forall t inv (x : val R t), blade_inverse t = Some inv -> x <> zero t ->
  exists y, inv (exact t x) = exact t y /\
    ceq (den _ (mul t t x y)) cone /\ ceq (den _ (mul t t y x)) cone.
Proof.
  intros t inv x E Hx.
  assert (Hm : magSq t x <> 0) by (rewrite magSq_zero_iff; exact Hx).
  exists (scale t (1 / magSq t x) (reverse t x)); split.
  - rewrite (blade_inverse_form t inv x E), div_exact, scale_exact by exact Hm; reflexivity.
  - assert (Hu : unmixed t = true) by (destruct t; try discriminate E; reflexivity).
    destruct (unmixed_rev t x Hu) as [H1 H2].
    rewrite magSq_den in *.
    rewrite !mul_den, !scale_den, !reverse_den, gp_scale_l, gp_scale_r, H1, H2.
    split; intro k; unfold cscale; field; exact Hm.
Qed.
Lemma blade_inverse_zero : forall t inv, blade_inverse t = Some inv ->
  isValid t (inv (exact t (zero t))) = false.
Proof.
  intros t inv E; rewrite (blade_inverse_form t inv _ E).
  assert (magSq_zero0 : magSq t (zero t : val R t) = 0) by (apply magSq_zero_iff; reflexivity).
  assert (D : ndiv (Some 1 : xreal) (Some 0) = None)
    by (cbn; rewrite Reqb_true; reflexivity).
  rewrite magSq_zero0, D.
  destruct t; try discriminate E; reflexivity.
Qed.

(** ** Inverse of ComPlex and MultiVector *)
Lemma sqrt_sumsq_abs a : 0 <= a -> sqrt (a * a + 0 * 0) = a.
Proof. intros; replace (a * a + 0 * 0) with (Rsqr a) by (unfold Rsqr; ring); apply sqrt_Rsqr; assumption. Qed.

Lemma cplx_some a b c d : a = c -> b = d ->
  mkCplx (Sca (Some a : xreal)) (Tri (Some b)) = exact TCplx (mkCplx (Sca c) (Tri d)).
Proof. intros -> ->; reflexivity. Qed.

Lemma inverse_Cplx_exact : forall z : ComPlex R,
  let n := cnorm2 (den TCplx z) in
  inverse_Cplx (exact TCplx z) =
    if Rltb dmin n then exact TCplx (mkCplx (Sca (sca_0 (cplxSca z) / n)) (Tri (- tri_0 (cplxTri z) / n)))
    else null TCplx.
Proof.
  intros z n; dvals. 
  assert (Hn : n = H * H + H0 * H0) by (subst n; dring).
  assert (Hn0 : 0 <= n) by (subst n; apply cnorm2_nonneg).
  clearbody n.
  unfold inverse_Cplx, lim_min; rewrite lit1; fold dmin.
  cbn -[Rltb dmin Rplus Rmult Ropp xdiv].
  replace (H * H - H0 * - H0) with n by (rewrite Hn; ring).
  replace (H * - H0 + H0 * H) with 0 by ring.
  rewrite (Rltb_false (n * n + 0 * 0) 0) by nra.
  cbn -[Rltb dmin Rplus Rmult Ropp xdiv].
  rewrite sqrt_sumsq_abs by exact Hn0.
  destruct (Rltb dmin n) eqn:E; [|reflexivity].
  assert (dmin < n) by
    (unfold Rltb in E; destruct (Rlt_dec dmin n); [assumption|discriminate]).
  pose proof dmin_pos.
  assert (n * n + 0 * 0 <> 0) by nra.
  unfold xdiv; rewrite Reqb_false by assumption.
  apply cplx_some; field; nra.
Qed.

Lemma inverse_Cplx_ok : forall z : ComPlex R, dmin < cnorm2 (den TCplx z) ->
  exists w, inverse_Cplx (exact TCplx z) = exact TCplx w /\
    ceq (den _ (mul TCplx TCplx z w)) cone /\ ceq (den _ (mul TCplx TCplx w z)) cone.
Proof.
  intros z Hz; pose proof (inverse_Cplx_exact z) as E; cbv zeta in E.
  rewrite Rltb_true in E by exact Hz.
  eexists; split; [exact E|].
  set (n := cnorm2 (den TCplx z)) in *.
  assert (Hn : n = sca_0 (cplxSca z) * sca_0 (cplxSca z) + tri_0 (cplxTri z) * tri_0 (cplxTri z))
   by (subst n; dvals; dring).
  clearbody n; pose proof dmin_pos.
  rewrite !mul_den; dvals; cbn [sca_0 tri_0 cplxSca cplxTri scaData triData at0] in *.
  split; intro k; dblade k; cbv -[Rplus Rminus Rmult Ropp Rinv Rdiv R R0 R1 IZR];
   (field_simplify_eq; [rewrite ?Hn; ring | lra]).
Qed.

Lemma ampSq_Mvec_exact : forall m : MultiVector R,
  exists w : ComPlex R, ampSq_Mvec (exact TMvec m) = exact TCplx w /\
    ceq (den TCplx w) (gp (den TMvec m) (cdir (den TMvec m))).
Proof. intros m; exact (ampSq_exact TMvec ampSq_Mvec m eq_refl). Qed.

Definition inv_mv (z : ComPlex R) (m : MultiVector R) : MultiVector R :=
  add_Mvec_Mvec (mul_Sca_Mvec (cplxSca z) (dirverse_Mvec m)) (mul_Tri_Mvec (cplxTri z) (dirverse_Mvec m)).
Lemma inv_mv_den z m : ceq (den TMvec (inv_mv z m)) (gp (den TCplx z) (cdir (den TMvec m))).
Proof. dvals; intro k; dblade k; dring. Qed.

Lemma den_cplx_central z c : ceq (gp (den TCplx z) c) (gp c (den TCplx z)).
Proof. apply central_commutes; intros k Hk; apply central_den; [reflexivity | exact Hk]. Qed.

Lemma inverse_Mvec_ok : forall m : MultiVector R,
  dmin < cnorm2 (gp (den TMvec m) (cdir (den TMvec m))) ->
  exists w, inverse_Mvec (exact TMvec m) = exact TMvec w /\
    ceq (den _ (mul TMvec TMvec m w)) cone /\ ceq (den _ (mul TMvec TMvec w m)) cone.
Proof.
  intros m Hm; destruct (ampSq_Mvec_exact m) as (a & Ea & Da).
  rewrite <- (cnorm2_ceq _ _ Da) in Hm.
  destruct (inverse_Cplx_ok a Hm) as (z & Ez & Z1 & Z2).
  exists (inv_mv z m); split.
  - unfold inverse_Mvec; rewrite Ea, Ez; dvals; reflexivity.
  - rewrite !mul_den in *; rewrite !inv_mv_den; rewrite Da in Z1, Z2; split.
    + rewrite den_cplx_central, <- gp_assoc; exact Z1.
    + rewrite gp_assoc, <- gp_cdir_comm; exact Z2.
Qed.
Lemma inverse_Mvec_null : forall m : MultiVector R,
  cnorm2 (gp (den TMvec m) (cdir (den TMvec m))) <= dmin ->
  isValid TMvec (inverse_Mvec (exact TMvec m)) = false /\
  forall i, In i (elems TMvec (inverse_Mvec (exact TMvec m))) -> i = None.
Proof.
  intros m Hm; destruct (ampSq_Mvec_exact m) as (a & Ea & Da).
  rewrite <- (cnorm2_ceq _ _ Da) in Hm.
  pose proof (inverse_Cplx_exact a) as E; cbv zeta in E; rewrite Rltb_false in E by exact Hm.
  assert (E' : inverse_Mvec (exact TMvec m) =
    mkMvec (Sca None) (Vec None None None) (Biv None None None) (Tri None)).
  { unfold inverse_Mvec; rewrite Ea, E; dvals; reflexivity. }
  rewrite E'; split; [reflexivity|].
  cbn; intuition (subst; reflexivity).
Qed.
Lemma inverse_Cplx_null : forall z : ComPlex R, cnorm2 (den TCplx z) <= dmin ->
  inverse_Cplx (exact TCplx z) = null TCplx.
Proof.
  intros z Hz; pose proof (inverse_Cplx_exact z) as E; cbv zeta in E.
  rewrite Rltb_false in E by exact Hz; exact E.
Qed.

(** Invertibility is the non-vanishing of the squared amplitude. *)
Lemma cdir_cone : ceq (cdir cone) cone.
Proof. intro k; dblade k; dring. Qed.
Lemma amp_zero_singular a b : ceq (gp a (cdir a)) czero -> ~ ceq (gp a b) cone.
Proof.
  intros Ha Hb.
  assert (H : ceq cone czero).
  { rewrite <- (gp_one_l cone); rewrite <- cdir_cone at 2; rewrite <- Hb.
    rewrite amp_mult, Ha, gp_zero_l; reflexivity. }
  pose proof (H bS) as h; cbv -[Rplus Rminus Rmult Ropp R R0 R1 IZR] in h; lra.
Qed.
Lemma amp_nonzero_inverse (m : MultiVector R) :
  ~ ceq (gp (den TMvec m) (cdir (den TMvec m))) czero ->
  exists w, ceq (den _ (mul TMvec TMvec m w)) cone /\ ceq (den _ (mul TMvec TMvec w m)) cone.
Proof.
  intros Hm; destruct (ampSq_Mvec_exact m) as (a & _ & Da).
  set (n := cnorm2 (den TCplx a)).
  assert (Hn : n <> 0).
  { intros h; apply Hm; rewrite <- Da; apply cnorm2_zero; exact h. }
  assert (En : n = sca_0 (cplxSca a) * sca_0 (cplxSca a) + tri_0 (cplxTri a) * tri_0 (cplxTri a))
   by (subst n; dvals; dring).
  clearbody n.
  set (z := mkCplx (Sca (sca_0 (cplxSca a) / n)) (Tri (- tri_0 (cplxTri a) / n))).
  assert (Hz : ceq (gp (den TCplx a) (den TCplx z)) cone).
  { subst z; dvals; cbn [sca_0 tri_0 cplxSca cplxTri scaData triData at0] in *.
    intro k; dblade k; cbv -[Rplus Rminus Rmult Ropp Rinv Rdiv R R0 R1 IZR];
     (field_simplify_eq; [rewrite ?En; ring | exact Hn]). }
  exists (inv_mv z m); rewrite !mul_den, !inv_mv_den; rewrite Da in Hz; split.
  - rewrite den_cplx_central, <- gp_assoc; exact Hz.
  - rewrite gp_assoc, <- gp_cdir_comm, den_cplx_central; exact Hz.
Qed.
Lemma no_inverse_null : forall m : MultiVector R,
  (~ exists w, ceq (den _ (mul TMvec TMvec m w)) cone) ->
  isValid TMvec (inverse_Mvec (exact TMvec m)) = false.
Proof.
  intros m Hm; apply inverse_Mvec_null.
  destruct (Rle_or_lt (cnorm2 (gp (den TMvec m) (cdir (den TMvec m)))) dmin) as [h|h]; [exact h|].
  exfalso; apply Hm; destruct (inverse_Mvec_ok m h) as (w & _ & H & _); exists w; exact H.
Qed.

(** ** Sandwich products *)
Lemma sandwich_tri : forall s v, tri_0 (imspTri (sandwich s v)) = 0.
Proof. intros s v; dvals; dring. Qed.
Lemma rotate_dot : forall s u v, dot (rotate s u) (rotate s v) = magSq TSpin s * magSq TSpin s * dot u v.
Proof. intros s u v; dvals; dring. Qed.
Lemma rotate_det : forall s u v w,
  det3 (rotate s u) (rotate s v) (rotate s w) = magSq TSpin s * magSq TSpin s * magSq TSpin s * det3 u v w.
Proof. intros s u v w; dvals; dring. Qed.
Lemma rotate_compose : forall s r v, rotate s (rotate r v) = rotate (mul TSpin TSpin s r) v.
Proof.
  intros s r v; apply (den_inj TVec); dvals; intro k; dblade k; dring.
Qed.
