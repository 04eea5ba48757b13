(** * Final forms of the statements of Prop_Func.v (proofs only). *)

Require Import Reals Lra Lia List Bool Setoid Morphisms.
From Flocq Require Import Core.
From Coquelicot Require Import Coquelicot.
Require Import Verif.Num Verif.Types Verif.Priv Verif.OpsUni Verif.OpsAdd
  Verif.OpsSub Verif.OpsMul Verif.Const Verif.Validity Verif.Func Verif.SpecCl Verif.SpecExp
  Verif.RealInst Verif.AlgTac Verif.AlgMul Verif.AlgFacts Verif.AlgSpec Verif.AlgThm
  Verif.FuncFacts Verif.ExpFacts Verif.ExpThm Verif.PiFacts Verif.LogThm.
Import ListNotations.
Local Open Scope R_scope.

(** ** C11 *)
Lemma mag_square : forall t (x : val R t), exists m,
  magnitude t (exact t x) = Some m /\ 0 <= m /\ m * m = magSq t x.
Proof.
  intros t x; exists (cnorm (den t x)); split; [apply magnitude_exact|]; split; [apply cnorm_nonneg|].
  rewrite cnorm_sq; symmetry; apply magSq_den.
Qed.
Lemma mag_scale : forall t (c : R) (x : val R t) m, magnitude t (exact t x) = Some m ->
  magnitude _ (exact _ (mul TDub t c x)) = Some (Rabs c * m).
Proof.
  intros t c x m; rewrite !magnitude_exact; intros H; injection H as <-.
  rewrite (cnorm_ceq _ _ (mul_den TDub t c x)).
  assert (E : ceq (den TDub c) (cscale c cone)) by (intro k; dblade k; dring).
  rewrite (cnorm_ceq _ (cscale c (den t x))); [rewrite cnorm_scale; reflexivity|].
  rewrite E; apply gp_scalar_l.
Qed.
Lemma mag_triangle : forall a b (x : val R a) (y : val R b) mx my,
  magnitude a (exact a x) = Some mx -> magnitude b (exact b y) = Some my ->
  if_exists (fun c z => exists mz, magnitude c (exact c z) = Some mz /\ mz <= mx + my)
    (addTy a b) (add a b x y).
Proof.
  intros a b x y mx my; rewrite !magnitude_exact; intros H1 H2; injection H1 as <-; injection H2 as <-.
  pose proof (add_den a b x y) as H.
  generalize dependent (add a b x y); destruct (addTy a b) as [c|]; cbn [if_exists]; [|trivial].
  intros z Hz; exists (cnorm (den c z)); split; [apply magnitude_exact|].
  rewrite Hz; apply cnorm_triangle.
Qed.
Lemma mag_mult : forall a b (x : val R a) (y : val R b) mx my,
  unmixed a = true \/ unmixed b = true ->
  magnitude a (exact a x) = Some mx -> magnitude b (exact b y) = Some my ->
  magnitude _ (exact _ (mul a b x y)) = Some (mx * my).
Proof.
  intros a b x y mx my Hu; rewrite !magnitude_exact; intros H1 H2; injection H1 as <-; injection H2 as <-.
  rewrite (cnorm_ceq _ _ (mul_den a b x y)); apply f_equal, cnorm_mul.
  destruct Hu as [Hu|Hu].
  - apply cnorm2_gp_l, (unmixed_rev a x Hu).
  - apply cnorm2_gp_r, (unmixed_rev b y Hu).
Qed.
Lemma mag_bound : forall a b (x : val R a) (y : val R b),
  magSq _ (mul a b x y) <= 2 * magSq a x * magSq b y.
Proof.
  intros a b x y; rewrite !magSq_den, (cnorm2_ceq _ _ (mul_den a b x y)); apply gp_norm_bound.
Qed.

(** ** C12 *)
Lemma ampSq_is_dirverse_product : forall t f (x : val R t), ampSq t = Some f ->
  exists z : ComPlex R, f (exact t x) = exact TCplx z /\
    ceq (den TCplx z) (den _ (mul t t x (dirverse t x))) /\
    ceq (den TCplx z) (den _ (mul t t (dirverse t x) x)).
Proof.
  intros t f x H; destruct (ampSq_exact t f x H) as (z & Hz & Hd); exists z; split; [exact Hz|].
  rewrite !mul_den, dirverse_den; split; [exact Hd|]; rewrite Hd; apply gp_cdir_comm.
Qed.
Lemma ampSq_multiplicative : forall a b f g h (x : val R a) (y : val R b),
  ampSq a = Some f -> ampSq b = Some g -> ampSq (mulTy a b) = Some h ->
  exists zx zy zxy : ComPlex R,
    f (exact a x) = exact TCplx zx /\ g (exact b y) = exact TCplx zy /\
    h (exact _ (mul a b x y)) = exact TCplx zxy /\ zxy = mul TCplx TCplx zx zy.
Proof.
  intros a b f g h x y Hf Hg Hh.
  destruct (ampSq_exact a f x Hf) as (zx & Ex & Dx).
  destruct (ampSq_exact b g y Hg) as (zy & Ey & Dy).
  destruct (ampSq_exact _ h (mul a b x y) Hh) as (z & Ez & Dz).
  exists zx, zy, z; repeat (split; [assumption|]).
  apply (den_inj TCplx); rewrite Dz, (mul_den TCplx TCplx), Dx, Dy, !mul_den; apply amp_mult.
Qed.

(** ** C15 *)
Lemma inverse_Cplx_valid_iff : forall z : ComPlex R,
  isValid TCplx (inverse_Cplx (exact TCplx z)) = true <-> dmin < magSq TCplx z.
Proof.
  intros z; rewrite magSq_den; split.
  - intros H; apply Rnot_le_lt; intros h; rewrite (inverse_Cplx_null z h), isValid_null in H; discriminate.
  - intros H; destruct (inverse_Cplx_ok z H) as (w & -> & _); apply isValid_exact.
Qed.
Lemma inverse_Cplx_valid_inverse : forall z : ComPlex R,
  isValid TCplx (inverse_Cplx (exact TCplx z)) = true ->
  exists w, inverse_Cplx (exact TCplx z) = exact TCplx w /\
    mul TCplx TCplx z w = one TCplx /\ mul TCplx TCplx w z = one TCplx.
Proof.
  intros z H; apply inverse_Cplx_valid_iff in H; rewrite magSq_den in H.
  destruct (inverse_Cplx_ok z H) as (w & E & H1 & H2); exists w; split; [exact E|].
  split; apply (den_inj TCplx); [etransitivity; [exact H1|] | etransitivity; [exact H2|]];
    intro k; dblade k; dring.
Qed.
Lemma inverse_Mvec_valid_iff : forall m : MultiVector R,
  isValid TMvec (inverse_Mvec (exact TMvec m)) = true <->
  dmin < magSq TMvec (mul TMvec TMvec m (dirverse TMvec m)).
Proof.
  intros m.
  assert (E : magSq TMvec (mul TMvec TMvec m (dirverse TMvec m)) = cnorm2 (gp (den TMvec m) (cdir (den TMvec m)))).
  { rewrite (magSq_den TMvec); apply cnorm2_ceq; etransitivity; [apply (mul_den TMvec TMvec)|].
    rewrite (dirverse_den TMvec); reflexivity. }
  rewrite E; split.
  - intros H; apply Rnot_le_lt; intros h; destruct (inverse_Mvec_null m h) as [h' _]; congruence.
  - intros H; destruct (inverse_Mvec_ok m H) as (w & -> & _); apply isValid_exact.
Qed.
Lemma inverse_Mvec_valid_inverse : forall m : MultiVector R,
  isValid TMvec (inverse_Mvec (exact TMvec m)) = true ->
  exists w, inverse_Mvec (exact TMvec m) = exact TMvec w /\
    mul TMvec TMvec m w = one TMvec /\ mul TMvec TMvec w m = one TMvec.
Proof.
  intros m H; destruct (Rlt_le_dec dmin (cnorm2 (gp (den TMvec m) (cdir (den TMvec m))))) as [h|h].
  - destruct (inverse_Mvec_ok m h) as (w & E & H1 & H2); exists w; split; [exact E|].
    split; apply (den_inj TMvec); [etransitivity; [exact H1|] | etransitivity; [exact H2|]];
      intro k; dblade k; dring.
  - destruct (inverse_Mvec_null m h) as [h' _]; congruence.
Qed.
Lemma inverse_Mvec_invalid_all_nan : forall m : MultiVector R,
  isValid TMvec (inverse_Mvec (exact TMvec m)) = false ->
  forall i, In i (elems TMvec (inverse_Mvec (exact TMvec m))) -> i = None.
Proof.
  intros m H; destruct (Rlt_le_dec dmin (cnorm2 (gp (den TMvec m) (cdir (den TMvec m))))) as [h|h].
  - destruct (inverse_Mvec_ok m h) as (w & E & _); rewrite E, isValid_exact in H; discriminate.
  - apply (inverse_Mvec_null m h).
Qed.
Lemma one_mvec_den : ceq (den TMvec (one TMvec)) cone.
Proof. intro k; dblade k; dring. Qed.
Lemma inverse_Mvec_none : forall m : MultiVector R,
  (forall w, mul TMvec TMvec m w <> one TMvec) ->
  isValid TMvec (inverse_Mvec (exact TMvec m)) = false.
Proof.
  intros m H; apply no_inverse_null; intros (w & Hw); apply (H w), (den_inj TMvec).
  etransitivity; [exact Hw|]; symmetry; apply one_mvec_den.
Qed.
(** An invertible multivector for which the code returns null: the threshold. *)
Lemma inverse_Mvec_threshold : exists m w : MultiVector R,
  mul TMvec TMvec m w = one TMvec /\ isValid TMvec (inverse_Mvec (exact TMvec m)) = false.
Proof.
  exists (mv_of_Dub (bpow radix2 (-300))), (mv_of_Dub (bpow radix2 300)); split.
  - assert (E : bpow radix2 (-300) * bpow radix2 300 = 1)
      by (rewrite <- bpow_plus; reflexivity).
    generalize dependent (bpow radix2 (-300)); generalize (bpow radix2 300); intros p q E.
    apply (den_inj TMvec); intro k; dblade k; cbv -[Rplus Rminus Rmult Ropp R R0 R1 IZR]; try ring.
    ring_simplify; rewrite Rmult_comm; lra.
  - apply not_true_is_false; intros h; apply inverse_Mvec_valid_iff in h.
    assert (E : magSq TMvec (mul TMvec TMvec (mv_of_Dub (bpow radix2 (-300))) (dirverse TMvec (mv_of_Dub (bpow radix2 (-300)))))
       = bpow radix2 (-1200)).
    { change (-1200)%Z with (-300 + -300 + -300 + -300)%Z; rewrite !bpow_plus.
      generalize (bpow radix2 (-300)); intro p; cbv -[Rplus Rminus Rmult Ropp R R0 R1 IZR]; ring. }
    rewrite E in h; unfold dmin in h; apply lt_bpow in h; lia.
Qed.

(** ** C16 *)
Lemma direction_split : forall t (x : val R t), tiny < cnorm (den t x) ->
  exists m d, pairMagDirFrom t (exact t x) = (Some m, exact t d) /\
    direction t (exact t x) = exact t d /\
    magnitude t (exact t x) = Some m /\ 0 < m /\
    scale t m d = x /\ magnitude t (exact t d) = Some 1.
Proof.
  intros t x H; destruct (pairMagDir_split t x H) as (m & d & Hp & Hm & Hmd & Hd & Hmx).
  exists m, d; split; [exact Hp|]; split; [unfold direction; rewrite Hp; reflexivity|].
  split; [rewrite magnitude_exact, Hmx; reflexivity|]; split; [exact Hm|]; split.
  - apply (den_inj t); rewrite scale_den; exact Hmd.
  - rewrite magnitude_exact, Hd; reflexivity.
Qed.
Lemma direction_tiny : forall t (x : val R t), cnorm (den t x) <= tiny ->
  exists m, pairMagDirFrom t (exact t x) = (Some m, null t) /\ direction t (exact t x) = null t /\ 0 <= m <= tiny.
Proof.
  intros t x H; exists (cnorm (den t x)); unfold direction; rewrite (pairMagDir_tiny t x H).
  repeat split; [apply cnorm_nonneg | exact H].
Qed.

(** ** C22 *)
Lemma rotate_norm : forall s v, rotate s v = imspVec (sandwich s v) /\
  ceq (den TImsp (sandwich s v)) (den TVec (rotate s v)) /\
  (magSq TSpin s = 1 ->
     (forall u, dot (rotate s u) (rotate s v) = dot u v) /\
     magnitude TVec (exact TVec (rotate s v)) = magnitude TVec (exact TVec v) /\
     forall u w, det3 (rotate s u) (rotate s v) (rotate s w) = det3 u v w).
Proof.
  intros s v; split; [reflexivity|]; split.
  - pose proof (sandwich_tri s v) as H; unfold rotate; generalize dependent (sandwich s v); intros [V [[t]]] H.
    cbn in H; subst t; intro k; dvals; dblade k; reflexivity.
  - intros H; split; [|split].
    + intro u; rewrite rotate_dot, H; ring.
    + rewrite !magnitude_exact; unfold cnorm; do 2 f_equal.
      assert (E : forall w : Vector R, cnorm2 (den TVec w) = dot w w) by (intro w; clear; dvals; dring).
      rewrite !E, rotate_dot, H; ring.
    + intros u w; rewrite rotate_det, H; ring.
Qed.

(** ** C27 *)
Lemma toC_add x y : toC (add TCplx TCplx x y) = Cplus (toC x) (toC y).
Proof. dvals; reflexivity. Qed.
Lemma toC_sub x y : toC (sub TCplx TCplx x y) = Cminus (toC x) (toC y).
Proof. dvals; reflexivity. Qed.
Lemma toC_mul x y : toC (mul TCplx TCplx x y) = Cmult (toC x) (toC y).
Proof. dvals; unfold toC, Cmult; cbn; f_equal; ring. Qed.
Lemma toC_rev x : toC (reverse TCplx x) = Cconj (toC x) /\ toC (oddverse TCplx x) = Cconj (toC x).
Proof. dvals; split; reflexivity. Qed.
Lemma toC_mag x : magnitude TCplx (exact TCplx x) = Some (Cmod (toC x)).
Proof.
  rewrite magnitude_exact; unfold cnorm, Cmod; do 2 f_equal; dvals; cbn [fst snd pow].
  cbv -[Rplus Rminus Rmult Ropp R R0 R1 IZR]; ring.
Qed.
Lemma toC_inv x : dmin < magSq TCplx x ->
  exists w, inverse_Cplx (exact TCplx x) = exact TCplx w /\ toC w = Cinv (toC x).
Proof.
  intros H; rewrite magSq_den in H; rewrite inverse_Cplx_exact, Rltb_true by exact H.
  eexists; split; [reflexivity|]; unfold toC, Cinv; cbn [fst snd cplxSca cplxTri].
  assert (E : cnorm2 (den TCplx x) = sca_0 (cplxSca x) ^ 2 + tri_0 (cplxTri x) ^ 2)
    by (clear; dvals; cbv -[Rplus Rminus Rmult Ropp R R0 R1 IZR]; ring).
  rewrite E; reflexivity.
Qed.
Lemma toC_bij : (forall z, toC (cplx_from z) = z) /\ forall c, cplx_from (toC c) = c.
Proof. split; [intros [x y]; reflexivity | intros [[[x]] [[y]]]; reflexivity]. Qed.
Lemma toC_ops : forall x y : ComPlex R,
  toC (add TCplx TCplx x y) = Cplus (toC x) (toC y) /\
  toC (sub TCplx TCplx x y) = Cminus (toC x) (toC y) /\
  toC (mul TCplx TCplx x y) = Cmult (toC x) (toC y) /\
  toC (reverse TCplx x) = Cconj (toC x) /\ toC (oddverse TCplx x) = Cconj (toC x) /\
  magnitude TCplx (exact TCplx x) = Some (Cmod (toC x)).
Proof.
  intros x y; split; [apply toC_add|]; split; [apply toC_sub|]; split; [apply toC_mul|].
  split; [apply toC_rev|]; split; [apply toC_rev | apply toC_mag].
Qed.
Lemma cplx_conv : forall F : Type,
  (forall z : F * F, cplx_to_std (cplx_from z) = z) /\
  (forall c : ComPlex F, cplx_from (cplx_to_std c) = c).
Proof. intros F; split; [intros [x y]; reflexivity | intros [[[x]] [[y]]]; reflexivity]. Qed.

(** ** C19, C21, C22, C23 *)
Lemma exp_Mvec_refuted :
  ~ (forall M : MultiVector R, exists r,
       exp_Mvec (exact TMvec M) = exact TMvec r /\ is_cexp (den TMvec M) (den TMvec r)).
Proof.
  intros H; destruct (H (mv_of_Tri (Tri 1))) as (r & Hr & Hs).
  destruct (exp_Mvec_tri_wrong 1 ltac:(lra)) as (r' & E & Hr' & HE & Hn).
  change (mkMvec zero_Sca zero_Vec zero_Biv (Tri 1)) with (mv_of_Tri (F := R) (Tri 1)) in Hr'.
  rewrite Hr in Hr'; apply (exact_inj TMvec) in Hr'; subst r'; apply Hn.
  apply (is_cexp_unique (den TTri (Tri 1))); [|exact HE].
  apply (is_cexp_ceq (den TMvec (mv_of_Tri (Tri 1))) _ (den TMvec r)); [|reflexivity | exact Hs].
  intro k; dblade k; reflexivity.
Qed.
Lemma sqrtG2_invalid : forall (S plane : _), isValid TSpin S = false ->
  sqrtG2 (F := xreal) S plane = null TSpin /\ logG2 (F := xreal) S plane = null TSpin.
Proof.
  intros S plane H; change (isValid_Spin S = false) in H.
  unfold sqrtG2, logG2; rewrite H; split; reflexivity.
Qed.
Lemma rotate_decompose : forall (B : BiVector R) (v : Vector R), 0 < cnorm (den TBiv B) ->
  exists c w, v = add_Vec_Vec (scale TVec c (axis B)) w /\ dot (axis B) w = 0 /\
    exists p, ceq (gp (den TVec w) (den TBiv B)) (den TVec p) /\ dot p w = 0 /\
      dot p p = magSq TBiv B * dot w w /\ dot (axis B) p = 0.
Proof.
  intros B v HB.
  set (n := magSq TBiv B).
  assert (Hn : n <> 0).
  { unfold n; rewrite magSq_den, <- cnorm_sq; nra. }
  assert (En : n = dot (axis B) (axis B)) by (unfold n; clear; dvals; dring).
  exists (dot (axis B) v / n), (sub_Vec_Vec v (scale TVec (dot (axis B) v / n) (axis B))).
  set (w := sub_Vec_Vec _ _).
  assert (Hw : dot (axis B) w = 0).
  { assert (E : dot (axis B) w = dot (axis B) v - dot (axis B) v / n * dot (axis B) (axis B))
      by (unfold w; generalize (dot (axis B) v / n); intro q; clear; dvals; dring).
    rewrite E, <- En; field; exact Hn. }
  split; [|split; [exact Hw|]].
  { apply (den_inj TVec); unfold w; generalize (dot (axis B) v / n); intro q; clear; dvals; intro k; dblade k; dring. }
  clearbody w.
  exists (Vec (biv_1 B * vec_2 w - biv_2 B * vec_1 w) (biv_2 B * vec_0 w - biv_0 B * vec_2 w)
     (biv_0 B * vec_1 w - biv_1 B * vec_0 w)).
  split; [|split; [|split]].
  - intro k; revert Hw; clear; dvals; intros Hw; dblade k; try dring.
    cbv -[Rplus Rminus Rmult Ropp R R0 R1 IZR] in Hw |- *; lra.
  - clear; dvals; dring.
  - unfold n.
    assert (E : magSq TBiv B * dot w w = magSq TBiv B * dot w w - dot (axis B) w * dot (axis B) w)
      by (rewrite Hw; ring).
    rewrite E; clear; dvals; dring.
  - clear; dvals; dring.
Qed.
Lemma sync_accurate : forall x : R, 0 <= x -> exists y,
  sync (Some x : xreal) = Some y /\ Rabs (y - sinc x) <= 2 / 10 ^ 28.
Proof. intros x H; exists (Rsync x); split; [apply sync_exact | apply Rsync_error, H]. Qed.
Lemma sync_negative : forall x : R, x <= -7 -> exists y,
  sync (Some x : xreal) = Some y /\ x ^ 4 / 240 <= y - sinc x.
Proof.
  intros x Hx; exists (Rsync x); split; [apply sync_exact|].
  unfold Rsync; rewrite Rltb_true by (pose proof sync_lim_val; lra).
  unfold sinc; destruct (Req_EM_T x 0); [lra|].
  assert (Hs : sin x / x <= 1).
  { apply Rle_trans with (Rabs (sin x / x)); [apply Rle_abs|].
    unfold Rdiv; rewrite Rabs_mult, Rabs_inv. pose proof (sin_le_abs x).
    apply Rmult_le_reg_r with (Rabs x); [apply Rabs_pos_lt; lra|].
    rewrite Rmult_assoc, Rinv_l by (apply Rabs_no_R0; lra); lra. }
  assert (49 <= x * x) by nra.
  assert (49 * (x * x) <= (x * x) * (x * x)) by nra.
  replace (x ^ 4) with (x * x * (x * x)) by ring. lra.
Qed.
