(** * C93: nearby arguments give nearby results.

    Only statements; proofs are in NearThm.v and NearMore.v. *)

Require Import Reals ZArith.
Require Import Verif.Num Verif.Types Verif.OpsUni Verif.OpsMul Verif.Const Verif.Func Verif.SpecCl
  Verif.RealInst Verif.SpecFunc Verif.SpecNear Verif.NearThm Verif.NearMore.
Local Open Scope R_scope.

(** C93: exponentials of bivectors are no further apart than the bivectors. *)
Theorem C93_exp_bivector : forall A B : BiVector R, nontiny A -> nontiny B ->
  returns_within TSpin (exp_Biv (exact TBiv A)) (exp_Biv (exact TBiv B)) (apart TBiv A B).
Proof. exact near_exp_bivector. Qed.
Print Assumptions C93_exp_bivector.
Theorem C93_exp_spinor : forall S T : Spinor R, nontiny (spinBiv S) -> nontiny (spinBiv T) ->
  returns_within TSpin (exp_Spin (exact TSpin S)) (exp_Spin (exact TSpin T)) (exp (Rmax (sca_0 (spinSca S)) (sca_0 (spinSca T))) * apart TSpin S T).
Proof. exact near_exp_spinor. Qed.
Print Assumptions C93_exp_spinor.
(** Logarithms and roots, for spinors that turn by at most a quarter. *)
Theorem C93_log : forall (S T : Spinor R) (plane : BiVector R), let M := cnorm (den TSpin S) in let N := cnorm (den TSpin T) in
  deps < M -> deps < N -> 0 <= sca_0 (spinSca S) <= (1 - deps) * M -> 0 <= sca_0 (spinSca T) <= (1 - deps) * N -> tiny < cnorm (den TBiv plane) ->
  returns_within TSpin (logG2 (exact TSpin S) (exact TBiv plane)) (logG2 (exact TSpin T) (exact TBiv plane)) (PI / 2 * (apart TSpin S T / Rmin M N)).
Proof. exact near_log. Qed.
Print Assumptions C93_log.
Theorem C93_root : forall (S T : Spinor R) (plane : BiVector R), let M := cnorm (den TSpin S) in let N := cnorm (den TSpin T) in
  4 * deps <= M -> 4 * deps <= N -> 0 <= sca_0 (spinSca S) <= (1 - deps) * M -> 0 <= sca_0 (spinSca T) <= (1 - deps) * N -> tiny < cnorm (den TBiv plane) ->
  returns_within TSpin (sqrtG2 (exact TSpin S) (exact TBiv plane)) (sqrtG2 (exact TSpin T) (exact TBiv plane)) (apart TSpin S T / sqrt (M + N)).
Proof. exact near_root. Qed.
Print Assumptions C93_root.
(** Near the negative numbers both jump, whatever the plane given. *)
Theorem C93_cut : exists S T : Spinor R, apart TSpin S T = / 1048576 /\ forall plane : BiVector R, tiny < cnorm (den TBiv plane) ->
  (exists x y, logG2 (exact TSpin S) (exact TBiv plane) = exact TSpin x /\ logG2 (exact TSpin T) (exact TBiv plane) = exact TSpin y /\ 6 <= apart TSpin x y) /\
  (exists x y, sqrtG2 (exact TSpin S) (exact TBiv plane) = exact TSpin x /\ sqrtG2 (exact TSpin T) (exact TBiv plane) = exact TSpin y /\ 1 <= apart TSpin x y).
Proof. exact the_cut. Qed.
Print Assumptions C93_cut.
Theorem C93_magnitude : forall t (x y : val R t), exists m n,
  magnitude t (exact t x) = Some m /\ magnitude t (exact t y) = Some n /\ Rabs (m - n) <= apart t x y.
Proof. exact near_magnitude. Qed.
Print Assumptions C93_magnitude.
Theorem C93_direction : forall t (x y : val R t), tiny < cnorm (den t x) -> tiny < cnorm (den t y) ->
  returns_within t (direction t (exact t x)) (direction t (exact t y)) (apart t x y / sqrt (cnorm (den t x) * cnorm (den t y))).
Proof. exact near_direction. Qed.
Print Assumptions C93_direction.
(** For inverses of blades the distance is known exactly. *)
Theorem C93_inverse : forall t inv (x y : val R t), blade_inverse t = Some inv -> x <> zero t -> y <> zero t ->
  exists x' y', inv (exact t x) = exact t x' /\ inv (exact t y) = exact t y' /\ apart t x' y' = apart t x y / (cnorm (den t x) * cnorm (den t y)).
Proof. exact near_inverse. Qed.
Print Assumptions C93_inverse.
(** Rotated vectors, by two spinors and by the exponentials of two angles. *)
Theorem C93_rotation : forall (s r : Spinor R) (v : Vector R),
  apart TVec (rotate s v) (rotate r v) <= (cnorm (den TSpin s) + cnorm (den TSpin r)) * apart TSpin s r * cnorm (den TVec v).
Proof. exact near_rotation. Qed.
Print Assumptions C93_rotation.
Theorem C93_turn : forall (A B : BiVector R) (v : Vector R), nontiny A -> nontiny B ->
  exists s r, exp_Biv (exact TBiv A) = exact TSpin s /\ exp_Biv (exact TBiv B) = exact TSpin r /\
    apart TVec (rotate s v) (rotate r v) <= 2 * apart TBiv A B * cnorm (den TVec v).
Proof. exact near_turn. Qed.
Print Assumptions C93_turn.
(** 3 + 4 e31 and e23 meet the hypotheses. *)
Example C93_example : let S := mkSpin (Sca 3) (Biv 0 4 0) in let T := mkSpin (Sca 0) (Biv 1 0 0) in
  4 * deps <= cnorm (den TSpin S) /\ 4 * deps <= cnorm (den TSpin T) /\ 0 <= sca_0 (spinSca S) <= (1 - deps) * cnorm (den TSpin S) /\
  0 <= sca_0 (spinSca T) <= (1 - deps) * cnorm (den TSpin T) /\ tiny < cnorm (den TBiv (c_e12 : BiVector R)) /\
  nontiny (Biv 0 4 0) /\ nontiny (zero TBiv) /\ blade_inverse TVec = Some inverse_Vec /\ (Vec 0 2 0 : Vector R) <> zero TVec /\ apart TSpin S T = sqrt 26.
Proof. exact near_example. Qed.
