(** * Interpolation between attitudes: proofs in exact arithmetic. *)

Require Import Reals ZArith List Bool Lra Lia.
From Flocq Require Import Core.
Require Import Verif.Num Verif.Types Verif.Priv Verif.OpsUni Verif.OpsAdd Verif.OpsSub
  Verif.OpsMul Verif.Const Verif.Validity Verif.Func Verif.SpecCl Verif.RealInst Verif.AlgTac Verif.AlgMul Verif.AlgFacts Verif.SpecFunc
  Verif.FuncFacts Verif.SpecExp Verif.ExpFacts Verif.ExpThm Verif.LogThm Verif.SpecGeom Verif.SpecSlerp Verif.SlerpThm Verif.SpecInterp.
Import ListNotations.
Local Open Scope R_scope.

Lemma inner_norm : forall a : Spinor R, inner a a = cnorm2 (den TSpin a).
Proof. intros [[[c]] [[x y z]]]. unfold inner, cnorm2. cbv -[Rplus Rmult Ropp R0 IZR]. ring. Qed.
Lemma inner_lin : forall (x y z w : R) (a b : Spinor R),
  inner (add_Spin_Spin (scale TSpin x a) (scale TSpin y b)) (add_Spin_Spin (scale TSpin z a) (scale TSpin w b)) =
  x * z * inner a a + (x * w + y * z) * inner a b + y * w * inner b b.
Proof. intros x y z w [[[c]] [[b1 b2 b3]]] [[[c']] [[d1 d2 d3]]]. cbv -[Rplus Rmult Ropp R0 IZR]. ring. Qed.
Lemma step_sca : forall a b : Spinor R, sca_0 (spinSca (step a b)) = inner a b.
Proof. intros [[[c]] [[b1 b2 b3]]] [[[c']] [[d1 d2 d3]]]. cbv -[Rplus Rmult Ropp R0 IZR]. ring. Qed.
Lemma step_norm : forall a b : Spinor R, cnorm2 (den TSpin (step a b)) = inner a a * inner b b.
Proof. intros [[[c]] [[b1 b2 b3]]] [[[c']] [[d1 d2 d3]]]. unfold inner, cnorm2. cbv -[Rplus Rmult Ropp R0 IZR]. ring. Qed.
Lemma step_back : forall a b : Spinor R, mul TSpin TSpin (step a b) a = scale TSpin (inner a a) b.
Proof. intros [[[c]] [[b1 b2 b3]]] [[[c']] [[d1 d2 d3]]]. cbv -[Rplus Rmult Ropp R0 IZR]. f_equal; f_equal; f_equal; ring. Qed.
Lemma step_exact : forall a b : Spinor R, step (exact TSpin a) (exact TSpin b) = exact TSpin (step a b).
Proof. intros a b. unfold step. rewrite reverse_exact, mul_exact. reflexivity. Qed.
Lemma turn_form : forall x y p q (B : BiVector R) (a : Spinor R),
  add_Spin_Spin (scale TSpin x a) (scale TSpin y (mul TSpin TSpin (rotor p q B) a)) = mul TSpin TSpin (rotor (x + y * p) (y * q) B) a.
Proof. intros x y p q [[d1 d2 d3]] [[[c]] [[b1 b2 b3]]]. cbv -[Rplus Rmult Ropp R0 IZR]. f_equal; f_equal; f_equal; ring. Qed.
Lemma scale_one : forall a : Spinor R, scale TSpin 1 a = a.
Proof. intros [[[c]] [[b1 b2 b3]]]. cbv -[Rplus Rmult Ropp R0 IZR]. f_equal; f_equal; f_equal; ring. Qed.

(** The arc of the great circle from [a] to [b]. *)
Definition arc (a b : Spinor R) (th t : R) : Spinor R :=
  add_Spin_Spin (scale TSpin (sin ((1 - t) * th) / sin th) a) (scale TSpin (sin (t * th) / sin th) b).

Lemma interpolation : forall (a b : Spinor R) (plane : BiVector R), inner a a = 1 -> inner b b = 1 ->
  Rabs (inner a b) <= 1 - deps -> tiny < cnorm (den TBiv plane) ->
  forall t, t = 0 \/ tiny < Rabs t * acos (inner a b) ->
  interpolated (exact TSpin a) (exact TSpin b) (exact TBiv plane) (Some t : xreal) = exact TSpin (arc a b (acos (inner a b)) t).
Proof.
  intros a b plane Ha Hb Hab Hp t Ht. pose proof deps_pos as Pd. pose proof deps_val as Vd.
  assert (M1 : cnorm (den TSpin (step a b)) = 1) by (unfold cnorm; rewrite step_norm, Ha, Hb, Rmult_1_r; apply sqrt_1).
  destruct (log_form (step a b) plane) as (L & HL & Hs & [Hm1 Hm2] & ES); rewrite ?M1, ?step_sca; try lra.
  rewrite M1 in Hs, ES. rewrite ln_1 in Hs. set (m := cnorm (den TBiv (spinBiv L))) in *. pose proof tiny_pos as Pt.
  assert (Em : inner a b = cos m).
  { rewrite <- step_sca. rewrite ES, scale_sca, rotor_sca. ring. }
  assert (Am : acos (inner a b) = m) by (rewrite Em; apply acos_cos; lra). rewrite Am in *.
  assert (Sm : 0 < sin m) by (apply sin_gt_0; lra).
  unfold interpolated. rewrite step_exact, HL.
  etransitivity; [apply (f_equal (fun p => mul TSpin TSpin p (exact TSpin a))); exact (pow_form L t Ht)|]. cbv beta. rewrite mul_exact. f_equal. fold m.
  rewrite Hs, Rmult_0_r, exp_0, scale_one. unfold arc.
  assert (Eb : b = mul TSpin TSpin (rotor (cos m) (sinc m) (spinBiv L)) a).
  { transitivity (mul TSpin TSpin (step a b) a); [rewrite step_back, Ha; symmetry; apply scale_one|]. rewrite ES at 1. rewrite scale_one. reflexivity. }
  rewrite Eb at 1. rewrite turn_form. f_equal. f_equal.
  - replace ((1 - t) * m) with (m - t * m) by ring. rewrite sin_minus. field. lra.
  - apply (Rmult_eq_reg_r m); [|lra]. rewrite sinc_times.
    replace (sin (t * m) / sin m * sinc m * m) with (sin (t * m) / sin m * (m * sinc m)) by ring. rewrite sinc_mul. field. lra.
Qed.

Lemma arc_ends : forall a b th, sin th <> 0 -> arc a b th 0 = a /\ arc a b th 1 = b.
Proof.
  intros a b th H. unfold arc. replace ((1 - 0) * th) with th by ring. replace ((1 - 1) * th) with 0 by ring. rewrite Rmult_0_l, Rmult_1_l, sin_0.
  replace (sin th / sin th) with 1 by (field; exact H). replace (0 / sin th) with 0 by (field; exact H).
  destruct a as [[[c]] [[b1 b2 b3]]], b as [[[c']] [[d1 d2 d3]]].
  split; cbv -[Rplus Rmult Ropp R0 IZR]; f_equal; f_equal; f_equal; ring.
Qed.
Lemma arc_reverse : forall a b th t, arc b a th (1 - t) = arc a b th t.
Proof.
  intros a b th t. unfold arc. replace (1 - (1 - t)) with t by ring. generalize (sin ((1 - t) * th) / sin th) (sin (t * th) / sin th). intros x y.
  destruct a as [[[c]] [[b1 b2 b3]]], b as [[[c']] [[d1 d2 d3]]]. cbv -[Rplus Rmult Ropp R0 IZR]; f_equal; f_equal; f_equal; ring.
Qed.
Lemma arc_inner : forall a b th, inner a a = 1 -> inner b b = 1 -> inner a b = cos th -> sin th <> 0 ->
  forall s t, inner (arc a b th s) (arc a b th t) = cos ((t - s) * th).
Proof.
  intros a b th Ha Hb Hab H s t. unfold arc. rewrite inner_lin, Ha, Hb, Hab.
  replace ((1 - s) * th) with (th - s * th) by ring. replace ((1 - t) * th) with (th - t * th) by ring.
  replace ((t - s) * th) with (t * th - s * th) by ring. rewrite !sin_minus, cos_minus.
  pose proof (sin2_cos2 th) as Q. unfold Rsqr in Q.
  set (c := cos th) in *. set (z := sin th) in *. set (cs := cos (s * th)). set (ss := sin (s * th)). set (ct := cos (t * th)). set (st := sin (t * th)).
  replace ((z * cs - c * ss) / z * ((z * ct - c * st) / z) * 1 + ((z * cs - c * ss) / z * (st / z) + ss / z * ((z * ct - c * st) / z)) * c + ss / z * (st / z) * 1)
    with (cs * ct + ss * st * ((1 - c * c) / (z * z))) by (field; exact H).
  replace (1 - c * c) with (z * z) by lra. field. exact H.
Qed.
Lemma acos_ok : forall x, Rabs x <= 1 - deps -> 0 < acos x < PI /\ cos (acos x) = x /\ sin (acos x) <> 0.
Proof.
  intros x H. pose proof deps_pos. apply Rabs_le_inv in H. assert (C : cos (acos x) = x) by (apply cos_acos; lra).
  pose proof (acos_bound x) as B. assert (N0 : acos x <> 0) by (intros h; rewrite h, cos_0 in C; lra).
  assert (N1 : acos x <> PI) by (intros h; rewrite h, cos_PI in C; lra). assert (I : 0 < acos x < PI) by lra.
  split; [exact I|]. split; [exact C|]. pose proof (sin_gt_0 (acos x)). lra.
Qed.
Lemma inner_sym : forall a b, inner a b = inner b a.
Proof. intros. unfold inner. ring. Qed.

Lemma interpolation_curve : forall (a b : Spinor R) (plane : BiVector R), inner a a = 1 -> inner b b = 1 ->
  Rabs (inner a b) <= 1 - deps -> tiny < cnorm (den TBiv plane) ->
  exists (th : R) (Q : R -> Spinor R), 0 < th < PI /\ inner a b = cos th /\
    (forall t, t = 0 \/ tiny < Rabs t * th -> interpolated (exact TSpin a) (exact TSpin b) (exact TBiv plane) (Some t : xreal) = exact TSpin (Q t)) /\
    (forall t, 1 - t = 0 \/ tiny < Rabs (1 - t) * th -> interpolated (exact TSpin b) (exact TSpin a) (exact TBiv plane) (Some (1 - t) : xreal) = exact TSpin (Q t)) /\
    Q 0 = a /\ Q 1 = b /\ (forall t, inner (Q t) (Q t) = 1) /\ (forall s t, inner (Q s) (Q t) = cos ((t - s) * th)) /\
    (forall t, Q t = add_Spin_Spin (scale TSpin (sin ((1 - t) * th) / sin th) a) (scale TSpin (sin (t * th) / sin th) b)).
Proof.
  intros a b plane Ha Hb Hab Hp. destruct (acos_ok _ Hab) as (H1 & H2 & H3). exists (acos (inner a b)), (arc a b (acos (inner a b))).
  pose proof (arc_inner a b _ Ha Hb (eq_sym H2) H3) as AI.
  split; [exact H1|]. split; [symmetry; exact H2|]. split; [apply interpolation; assumption|]. split.
  { intros t Ht. rewrite interpolation; try assumption; rewrite inner_sym; try assumption. rewrite arc_reverse. reflexivity. }
  destruct (arc_ends a b _ H3) as [E0 E1]. split; [exact E0|]. split; [exact E1|]. split; [|split; [exact AI|reflexivity]].
  intros t. rewrite AI. replace (t - t) with 0 by ring. rewrite Rmult_0_l. apply cos_0.
Qed.

(** The other spinor of the same attitude. *)
Lemma other_way : forall (a b : Spinor R), inner a a = 1 -> inner b b = 1 -> -1 < inner a b < 0 ->
  (forall v, rotate (neg TSpin b) v = rotate b v) /\ inner (neg TSpin b) (neg TSpin b) = 1 /\
  acos (inner a (neg TSpin b)) = PI - acos (inner a b) /\ acos (inner a (neg TSpin b)) < acos (inner a b).
Proof.
  intros a b Ha Hb Hab.
  assert (N : inner a (neg TSpin b) = - inner a b) by (destruct a as [[[c]] [[b1 b2 b3]]], b as [[[c']] [[d1 d2 d3]]]; cbv -[Rplus Rmult Ropp R0 IZR]; ring).
  assert (N2 : inner (neg TSpin b) (neg TSpin b) = inner b b) by (destruct b as [[[c']] [[d1 d2 d3]]]; cbv -[Rplus Rmult Ropp R0 IZR]; ring).
  split; [|split; [congruence|]].
  - intros v. clear. destruct b as [[[c']] [[d1 d2 d3]]], v as [[v1 v2 v3]]. cbv -[Rplus Rmult Ropp R0 IZR]. f_equal; f_equal; ring.
  - assert (B : acos (inner a (neg TSpin b)) = PI - acos (inner a b)) by (rewrite N; apply acos_opp).
    split; [exact B|]. rewrite B. assert (PI / 2 < acos (inner a b)); [|lra]. pose proof (acos_bound (inner a b)). pose proof PI_RGT_0.
    apply Rnot_le_lt. intros h. pose proof (cos_ge_0 (acos (inner a b)) ltac:(lra) h) as g. rewrite cos_acos in g; lra.
Qed.
Lemma example_interp : let a := one TSpin : Spinor R in let b := mkSpin (Sca (1 / 2)) (Biv (1 / 2) (1 / 2) (1 / 2)) in
  inner a a = 1 /\ inner b b = 1 /\ Rabs (inner a b) <= 1 - deps /\ inner a (neg TSpin b) < 0 /\ tiny < cnorm (den TBiv (c_e23 : BiVector R)).
Proof.
  cbv zeta. assert (N : cnorm (den TBiv (c_e23 : BiVector R)) = 1) by (unfold cnorm; replace (cnorm2 _) with (1 * 1) by dring; apply sqrt_square; lra).
  rewrite N. pose proof tiny_small. pose proof deps_val.
  set (b := mkSpin _ _).
  assert (I1 : inner (one TSpin) (one TSpin) = 1) by (cbv -[Rplus Rmult Ropp R0 IZR Rinv Rdiv]; field).
  assert (I2 : inner b b = 1) by (cbv -[Rplus Rmult Ropp R0 IZR Rinv Rdiv]; field).
  assert (I3 : inner (one TSpin) b = 1 / 2) by (cbv -[Rplus Rmult Ropp R0 IZR Rinv Rdiv]; field).
  assert (I4 : inner (one TSpin) (neg TSpin b) = - (1 / 2)) by (cbv -[Rplus Rmult Ropp R0 IZR Rinv Rdiv]; field).
  rewrite I1, I2, I3, I4, Rabs_pos_eq by lra. repeat split; lra.
Qed.
