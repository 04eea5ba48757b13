(** * Powers of spinors, interpolation between vectors, chains of mirrors, in
    exact arithmetic.

    Only statements; proofs are in SlerpThm.v. *)

Require Import Reals List Lra Bool.
From Flocq Require Import Core.
Require Import Verif.Num Verif.Types Verif.Priv Verif.OpsUni Verif.OpsAdd
  Verif.OpsSub Verif.OpsMul Verif.Const Verif.Validity Verif.Func Verif.SpecCl
  Verif.SpecFunc Verif.SpecGeom Verif.SpecSlerp Verif.RealInst Verif.AlgTac Verif.FuncFacts Verif.LogThm Verif.SlerpThm.
Import ListNotations.
Local Open Scope R_scope.

(** C82: the logarithm of [b * a] holds the angle between the vectors, in the
    plane of the vectors. *)
Theorem C82_angle : forall (a b : Vector R) (plane : BiVector R),
  let M := cnorm (den TVec a) * cnorm (den TVec b) in
  deps < M -> Rabs (dot a b) <= (1 - deps) * M -> tiny < cnorm (den TBiv plane) ->
  exists L, logG2 (exact TSpin (mul TVec TVec b a)) (exact TBiv plane) = exact TSpin L /\
    let th := cnorm (den TBiv (spinBiv L)) in
    sca_0 (spinSca L) = ln M /\ 0 < th < PI /\ dot a b = M * cos th /\
    axis (spinBiv L) = vtimes (th / (M * sin th)) (cross b a).
Proof. exact angle_between. Qed.
Print Assumptions C82_angle.
(** [exp(t * logG2(S))] is the power [S^t]. *)
Theorem C82_power : forall (S : Spinor R) (plane : BiVector R), let M := cnorm (den TSpin S) in
  deps < M -> Rabs (sca_0 (spinSca S)) <= (1 - deps) * M -> tiny < cnorm (den TBiv plane) ->
  exists (th : R) (P : R -> Spinor R), 0 < th < PI /\ sca_0 (spinSca S) = M * cos th /\
    (forall t, t = 0 \/ tiny < Rabs t * th -> power S plane t = exact TSpin (P t)) /\
    P 0 = one TSpin /\ P 1 = S /\
    (forall s t, mul TSpin TSpin (P s) (P t) = P (s + t)) /\
    (forall t, cnorm (den TSpin (P t)) = Rpower M t) /\
    (forall t, sca_0 (spinSca (P t)) = Rpower M t * cos (t * th)).
Proof. exact power_law. Qed.
Print Assumptions C82_power.
(** Rotation by [(b * a)^(t/2)] interpolates between [a] and the direction of
    [b] along the great circle. *)
Theorem C82_interpolation : forall (a b : Vector R) (plane : BiVector R) (t : R),
  let M := cnorm (den TVec a) * cnorm (den TVec b) in
  deps < M -> Rabs (dot a b) <= (1 - deps) * M -> tiny < cnorm (den TBiv plane) ->
  exists th, 0 < th < PI /\ dot a b = M * cos th /\
   (t = 0 \/ tiny < Rabs (t / 2) * th ->
    exists q, power (mul TVec TVec b a) plane (t / 2) = exact TSpin q /\
      cnorm (den TSpin q) = Rpower M (t / 2) /\
      ceq (den TImsp (sandwich q a))
          (den TVec (vtimes (Rpower M t)
             (vplus (vtimes (sin ((1 - t) * th) / sin th) a)
                    (vtimes (sin (t * th) / sin th * (cnorm (den TVec a) / cnorm (den TVec b))) b))))).
Proof. exact slerp. Qed.
Print Assumptions C82_interpolation.
Example C82_example : let a := Vec 3 0 0 : Vector R in let b := Vec 0 4 0 in
  let M := cnorm (den TVec a) * cnorm (den TVec b) in
  M = 12 /\ deps < M /\ Rabs (dot a b) <= (1 - deps) * M /\ tiny < cnorm (den TBiv c_e23) /\
  tiny < Rabs (1 / 3 / 2) * (PI / 2).
Proof.
  cbv zeta. assert (E1 : cnorm (den TVec (Vec 3 0 0)) = 3).
  { unfold cnorm; replace (cnorm2 _) with (3 * 3) by dring; apply sqrt_square; lra. }
  assert (E2 : cnorm (den TVec (Vec 0 4 0)) = 4).
  { unfold cnorm; replace (cnorm2 _) with (4 * 4) by dring; apply sqrt_square; lra. }
  assert (E3 : cnorm (den TBiv c_e23) = 1).
  { unfold cnorm; replace (cnorm2 _) with (1 * 1) by dring; apply sqrt_square; lra. }
  rewrite E1, E2, E3. replace (dot _ _) with 0 by (cbv -[Rplus Rmult IZR]; lra).
  rewrite Rabs_R0, Rabs_pos_eq by lra. pose proof tiny_small; pose proof deps_val; pose proof PI2_1.
  repeat split; lra.
Qed.

(** C83: mirroring in two planes after each other is rotating by the product
    of the normals; so for any number of pairs of planes. *)
Theorem C83_mirrors : forall (l : list (Vector R * Vector R)) (v w : Vector R), mirrors l v w ->
  ceq (den TImsp (sandwich (mirror_product l) v)) (den TVec (vtimes (mirror_scale l) w)).
Proof. exact mirrors_rotate. Qed.
Print Assumptions C83_mirrors.
(** Every spinor is such a product of two vectors. *)
Theorem C83_spinor : forall S : Spinor R, exists a b : Vector R, mul TVec TVec b a = S.
Proof. exact spinor_is_two. Qed.
Print Assumptions C83_spinor.
(** Rotation respects products of vectors. *)
Theorem C83_products : forall (r : Spinor R) (u v : Vector R),
  ceq (den TSpin (mul TVec TVec (rotate r u) (rotate r v)))
      (cscale (cnorm2 (den TSpin r)) (den TSpin (mul TSpin TSpin (mul TSpin TSpin r (mul TVec TVec u v)) (reverse TSpin r)))) /\
  cross (rotate r u) (rotate r v) = vtimes (cnorm2 (den TSpin r)) (rotate r (cross u v)).
Proof. exact rotated_products. Qed.
Print Assumptions C83_products.
Example C83_example : mirrors [(Vec 2 0 0, Vec 0 3 0); (Vec 1 0 0, Vec 1 1 0)] (Vec 5 6 7) (Vec 6 (-5) 7) /\
  mirror_scale [(Vec 2 0 0, Vec 0 3 0); (Vec 1 0 0, Vec 1 1 0)] = 72.
Proof.
  split; [|cbv -[Rplus Rmult IZR]; lra].
  apply (mirrors_two _ _ _ _ (Vec (-5) 6 7) (Vec (-5) (-6) 7)); [split; [|exists (-5)] | split; [|exists (-4)] |].
  5: apply (mirrors_two _ _ _ _ (Vec 5 (-6) 7) (Vec 6 (-5) 7)); [split; [|exists 10] | split; [|exists 1] |].
  all: try (apply eq_vec); try (cbv -[Rplus Rmult Ropp IZR]; lra); apply mirrors_none.
Qed.
