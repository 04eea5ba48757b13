(** * C91: all logarithms and all square roots of a spinor. *)

Require Import Reals ZArith Lra Lia.
Require Import Verif.Num Verif.Types Verif.OpsUni Verif.OpsMul Verif.Const Verif.Func Verif.SpecCl Verif.SpecExp
  Verif.RealInst Verif.SpecFunc Verif.SpecPrin Verif.PrinFacts.
Local Open Scope R_scope.

(** C91: the logarithms of [S] among the spinors are those of the library and
    those that turn further by any number of full turns. *)
Theorem C91_all_logarithms : forall (S : Spinor R) (plane : BiVector R), let M := cnorm (den TSpin S) in
  deps < M -> Rabs (sca_0 (spinSca S)) <= (1 - deps) * M -> tiny < cnorm (den TBiv plane) ->
  exists th d, logG2 (exact TSpin S) (exact TBiv plane) = exact TSpin (mkSpin (Sca (ln M)) (scale TBiv th d)) /\
    cnorm (den TBiv d) = 1 /\ 0 < th < PI /\
    forall w, is_log w S <-> exists k : Z, w = mkSpin (Sca (ln M)) (scale TBiv (th + 2 * IZR k * PI) d).
Proof. exact all_logs. Qed.
Print Assumptions C91_all_logarithms.
(** The library's is the one of the smallest angle, and the only one. *)
Theorem C91_principal_logarithm : forall (S : Spinor R) (plane : BiVector R), let M := cnorm (den TSpin S) in
  deps < M -> Rabs (sca_0 (spinSca S)) <= (1 - deps) * M -> tiny < cnorm (den TBiv plane) ->
  exists L, logG2 (exact TSpin S) (exact TBiv plane) = exact TSpin L /\ is_log L S /\
    forall w, is_log w S -> angle_of L <= angle_of w /\ (angle_of w <= angle_of L -> w = L).
Proof. exact principal_log. Qed.
Print Assumptions C91_principal_logarithm.
(** There are two square roots; the library's has the positive scalar part. *)
Theorem C91_all_roots : forall (S : Spinor R) (plane : BiVector R), let M := cnorm (den TSpin S) in
  4 * deps <= M -> Rabs (sca_0 (spinSca S)) <= (1 - deps) * M -> tiny < cnorm (den TBiv plane) ->
  exists q, sqrtG2 (exact TSpin S) (exact TBiv plane) = exact TSpin q /\ 0 < sca_0 (spinSca q) /\
    forall r, is_root r S <-> r = q \/ r = neg TSpin q.
Proof. exact all_roots. Qed.
Print Assumptions C91_all_roots.
(** For -1 there are as many of both as there are planes. *)
Theorem C91_minus_one : forall b : BiVector R, cnorm (den TBiv b) = 1 ->
  is_root (mkSpin (Sca 0) b) (mkSpin (Sca (-1)) (zero TBiv)) /\ is_log (mkSpin (Sca 0) (scale TBiv PI b)) (mkSpin (Sca (-1)) (zero TBiv)).
Proof. exact minus_one_all. Qed.
Print Assumptions C91_minus_one.
(** 3 + 4 e31 meets the hypotheses; 2 + e31 is a root. *)
Example C91_example : let S := mkSpin (Sca 3) (Biv 0 4 0) in let M := cnorm (den TSpin S) in
  4 * deps <= M /\ Rabs (sca_0 (spinSca S)) <= (1 - deps) * M /\ tiny < cnorm (den TBiv (c_e23 : BiVector R)) /\ is_root (mkSpin (Sca 2) (Biv 0 1 0)) S.
Proof. exact prin_example. Qed.
