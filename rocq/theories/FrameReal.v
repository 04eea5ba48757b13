(** * Into the frame of a body, exact arithmetic (proofs only). *)

Require Import Reals Lra Lia List Bool.
From Flocq Require Import Core.
Require Import Verif.Num Verif.Types Verif.Priv Verif.OpsUni Verif.OpsAdd Verif.OpsSub Verif.OpsMul Verif.Const
  Verif.Validity Verif.Func Verif.SpecCl Verif.SpecExp Verif.SpecFunc Verif.SpecGeom Verif.RealInst Verif.AlgTac Verif.AlgMul
  Verif.AlgFacts Verif.AlgSpec Verif.AlgThm Verif.FuncFacts Verif.FuncThm Verif.ExpFacts Verif.ExpThm Verif.LogThm Verif.SpecFrame.
Require Verif.NormFacts.
Local Open Scope R_scope.

Lemma into_rotate : forall s l x, imspVec (into_frame s l x) = rotate s (sub TVec TVec x l).
Proof. reflexivity. Qed.
Lemma rotate_sub : forall s u v, sub TVec TVec (rotate s u) (rotate s v) = rotate s (sub TVec TVec u v).
Proof. intros s u v. apply (den_inj TVec). intros k. dvals. dblade k; dring. Qed.
Lemma sub_frames : forall s l x y, sub TVec TVec (imspVec (into_frame s l x)) (imspVec (into_frame s l y)) = rotate s (sub TVec TVec x y).
Proof.
  intros s l x y. rewrite !into_rotate. etransitivity; [apply rotate_sub|]. f_equal. apply (den_inj TVec). intros k. dvals. dblade k; dring.
Qed.
Lemma distance_dot : forall x y, distance x y = sqrt (dot (sub TVec TVec x y) (sub TVec TVec x y)).
Proof. intros x y. dvals. reflexivity. Qed.
Lemma rotate_back : forall s v, magSq TSpin s = 1 -> rotate (reverse TSpin s) (rotate s v) = v.
Proof.
  intros s v H. rewrite rotate_compose.
  assert (E : mul TSpin TSpin (reverse TSpin s) s = one TSpin).
  { apply (den_inj TSpin). destruct s as [[[a]] [[x y z]]]. intros k. unfold magSq in H. cbv -[Rplus Rminus Rmult Ropp R R0 R1 IZR] in H.
    dblade k; cbv -[Rplus Rminus Rmult Ropp R R0 R1 IZR]; try ring. ring_simplify. ring_simplify in H. lra. }
  rewrite E. apply (den_inj TVec). intros k. dvals. dblade k; dring.
Qed.
Lemma rigid : forall s l, magSq TSpin s = 1 -> forall x y z w : Vector R,
  let place p := imspVec (into_frame s l p) in
  imspTri (into_frame s l x) = Tri 0 /\
  distance (place x) (place y) = distance x y /\
  det3 (sub TVec TVec (place x) (place w)) (sub TVec TVec (place y) (place w)) (sub TVec TVec (place z) (place w)) =
    det3 (sub TVec TVec x w) (sub TVec TVec y w) (sub TVec TVec z w) /\
  out_of_frame s l (place x) = x.
Proof.
  intros s l H x y z w place. split; [|split; [|split]].
  - pose proof (sandwich_tri s (sub TVec TVec x l)) as K. change (into_frame s l x) with (sandwich s (sub TVec TVec x l)).
    destruct (sandwich s (sub TVec TVec x l)) as [V [[t]]]. cbn in K |- *. rewrite K. reflexivity.
  - rewrite !distance_dot. unfold place. rewrite sub_frames. f_equal. apply (proj1 (proj2 (proj2 (rotate_norm s _)) H)).
  - unfold place. rewrite !sub_frames. apply (proj2 (proj2 (proj2 (proj2 (rotate_norm s _)) H))).
  - unfold out_of_frame. change (imspVec (turned (reverse TSpin s) TVec (place x))) with (rotate (reverse TSpin s) (place x)).
    unfold place. rewrite into_rotate, (rotate_back s _ H). apply (den_inj TVec). intros k. dvals. dblade k; dring.
Qed.
(** The moment of a force about the location is turned with the force and its point. *)
Lemma moment : forall s l, magSq TSpin s = 1 -> forall x f : Vector R,
  let M := spinBiv (mul TVec TVec (sub TVec TVec x l) f) in
  turned s TBiv M = mkSpin (Sca 0) (spinBiv (mul TVec TVec (imspVec (into_frame s l x)) (imspVec (turned s TVec f)))).
Proof.
  intros s l H x f M. rewrite into_rotate. change (imspVec (turned s TVec f)) with (rotate s f).
  unfold M. generalize (sub TVec TVec x l). clear M x. intros x.
  assert (A : spinBiv (mul TVec TVec (rotate s x) (rotate s f)) = scale TBiv (magSq TSpin s) (spinBiv (turned s TBiv (spinBiv (mul TVec TVec x f))))).
  { clear H. apply (den_inj TBiv). destruct s as [[[a]] [[p q r]]], x as [[x0 x1 x2]], f as [[f0 f1 f2]].
    intros k. dblade k; cbv -[Rplus Rminus Rmult Ropp R R0 R1 IZR]; ring. }
  rewrite A, H. clear.
  apply (den_inj TSpin). destruct s as [[[a]] [[p q r]]], x as [[x0 x1 x2]], f as [[f0 f1 f2]].
  intros k. dblade k; cbv -[Rplus Rminus Rmult Ropp R R0 R1 IZR]; ring.
Qed.
(** ** The attitude *)
Lemma half_exact : forall b : BiVector R, mul TDub TBiv (nlit 1 (-1) : xreal) (exact TBiv b) = exact TBiv (scale TBiv (/ 2) b).
Proof.
  intros b. transitivity (scale TBiv (Some (1 * bpow radix2 (-1))) (exact TBiv b)); [reflexivity|]. rewrite scale_exact. do 2 f_equal.
  change (bpow radix2 (-1)) with (/ 2). ring.
Qed.
Lemma rotor_exact : forall b : BiVector R, nontiny (scale TBiv (/ 2) b) -> exists r E,
  half_angle_rotor (exact TBiv b) = exact TSpin r /\ is_cexp (cscale (/ 2) (den TBiv b)) E /\ ceq (den TSpin r) E /\ cnorm (den TSpin r) = 1.
Proof.
  intros b H. destruct (exp_Biv_series (scale TBiv (/ 2) b)) as (r & E & A & B & C & _). destruct (exp_Biv_unit (scale TBiv (/ 2) b)) as (r' & A' & N).
  assert (r' = r) by (apply (exact_inj TSpin); congruence).
  subst r'. exists r, E. split; [unfold half_angle_rotor; rewrite half_exact; exact A|]. split; [|split; [apply C, H|exact N]].
  apply (is_cexp_ceq (den TBiv (scale TBiv (/ 2) b)) _ E); [apply scale_den|reflexivity|exact B].
Qed.
Lemma unit_product : forall r q : Spinor R, cnorm (den TSpin r) = 1 -> cnorm (den TSpin q) = 1 -> cnorm (den TSpin (mul TSpin TSpin r q)) = 1.
Proof.
  intros r q Hr Hq. change (cnorm (den (mulTy TSpin TSpin) (mul TSpin TSpin r q)) = 1). rewrite (cnorm_ceq _ _ (mul_den TSpin TSpin r q)), NormFacts.norm_gp_r, Hr, Hq; [ring|]. apply unmixed_rev. reflexivity.
Qed.
Lemma attitude_exact : forall roll elev azim : BiVector R,
  nontiny (scale TBiv (/ 2) roll) -> nontiny (scale TBiv (/ 2) elev) -> nontiny (scale TBiv (/ 2) azim) ->
  exists (s : Spinor R) Er Ee Ea, attitude_of (exact TBiv roll) (exact TBiv elev) (exact TBiv azim) = exact TSpin s /\ magSq TSpin s = 1 /\
    is_cexp (cscale (/ 2) (den TBiv roll)) Er /\ is_cexp (cscale (/ 2) (den TBiv elev)) Ee /\ is_cexp (cscale (/ 2) (den TBiv azim)) Ea /\
    ceq (den TSpin s) (gp (gp Er Ee) Ea).
Proof.
  intros roll elev azim Hr He Ha.
  destruct (rotor_exact roll Hr) as (r & Er & R1 & R2 & R3 & R4). destruct (rotor_exact elev He) as (e & Ee & E1 & E2 & E3 & E4).
  destruct (rotor_exact azim Ha) as (a & Ea & A1 & A2 & A3 & A4).
  exists (mul TSpin TSpin (mul TSpin TSpin r e) a), Er, Ee, Ea. unfold attitude_of. rewrite R1, E1, A1.
  split; [|split; [|split; [exact R2|split; [exact E2|split; [exact A2|]]]]].
  - pose proof (mul_exact TSpin TSpin r e) as M1. change (mulTy TSpin TSpin) with TSpin in M1. 
    pose proof (mul_exact TSpin TSpin (mul TSpin TSpin r e) a) as M2. change (mulTy TSpin TSpin) with TSpin in M2.
    refine (eq_trans _ M2). exact (f_equal (fun v : Spinor xreal => mul TSpin TSpin v (exact TSpin a)) M1).
  - rewrite magSq_den, <- cnorm_sq. rewrite (unit_product (mul TSpin TSpin r e) a (unit_product r e R4 E4) A4). ring.
  - transitivity (gp (den TSpin (mul TSpin TSpin r e)) (den TSpin a)); [apply (mul_den TSpin TSpin (mul TSpin TSpin r e) a)|].
    apply gp_ceq; [|exact A3]. transitivity (gp (den TSpin r) (den TSpin e)); [apply (mul_den TSpin TSpin r e)|]. apply gp_ceq; assumption.
Qed.
Lemma angle_exact : forall s : Spinor R, magSq TSpin s = 1 -> Rabs (sca_0 (spinSca s)) <= 1 - deps ->
  exists a : BiVector R, angle3D (exact TSpin s) = exact TBiv a /\ half_angle_rotor (exact TBiv a) = exact TSpin s /\ cnorm (den TBiv a) <= 2 * PI.
Proof.
  intros s H Hs. assert (N : cnorm (den TSpin s) = 1) by (unfold cnorm; rewrite <- magSq_den, H; apply sqrt_1).
  assert (N23 : cnorm (den TBiv c_e23) = 1) by (unfold cnorm; replace (cnorm2 _) with 1 by dring; apply sqrt_1).
  assert (tiny_lt_1 : tiny < 1) by (unfold tiny; change 1 with (bpow radix2 0); apply bpow_lt; lia).
  assert (D1 : deps < 1) by (unfold deps; change 1 with (bpow radix2 0); apply bpow_lt; lia).
  destruct (logG2_exp s c_e23) as (L & r & L1 & L2 & L3 & L4 & L5 & _); [rewrite N; exact D1|rewrite N23; exact tiny_lt_1|].
  specialize (L5 ltac:(rewrite N; lra)). subst r. rewrite N, ln_1 in L3.
  exists (scale TBiv 2 (spinBiv L)).
  assert (A2 : forall b : BiVector R, mul TDub TBiv (nlit 1 1 : xreal) (exact TBiv b) = exact TBiv (scale TBiv 2 b)).
  { intros b. transitivity (scale TBiv (Some (1 * bpow radix2 1)) (exact TBiv b)); [reflexivity|]. rewrite scale_exact. do 2 f_equal.
    change (bpow radix2 1) with 2. ring. }
  assert (A1 : angle3D (exact TSpin s) = exact TBiv (scale TBiv 2 (spinBiv L))).
  { unfold angle3D. change (c_e23 : BiVector xreal) with (exact TBiv (c_e23 : BiVector R)). rewrite L1.
    rewrite <- A2. destruct L as [a b]. reflexivity. }
  split; [exact A1|]. split.
  - unfold half_angle_rotor. rewrite half_exact. destruct (exp_Biv_unit (spinBiv L)) as (q & Q1 & _).
    assert (B : scale TBiv (/ 2) (scale TBiv 2 (spinBiv L)) = spinBiv L).
    { apply (den_inj TBiv). intros k. destruct (spinBiv L) as [[x y z]]. dblade k; cbv -[Rplus Rminus Rmult Ropp Rinv R R0 R1 IZR]; field. }
    rewrite B, Q1. f_equal. rewrite (exp_Spin_exact L q Q1), L3, exp_0 in L2. apply (exact_inj TSpin) in L2. rewrite <- L2.
    apply (den_inj TSpin). intros k. clear. destruct q as [[[a]] [[x y z]]]. dblade k; dring.
  - rewrite (cnorm_ceq _ _ (scale_den TBiv 2 (spinBiv L))), cnorm_scale, Rabs_pos_eq by lra. lra.
Qed.
