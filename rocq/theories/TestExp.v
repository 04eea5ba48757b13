(** * Model of test/test_g3func_exp.cpp : the reference exponential of the
      tests, by halving, summing the series and squaring.

    The first loop has no bound in the source; it runs on [fuel] and the
    result is [None] if the fuel is used up.  The second ends after 56 rounds
    at most.  [std::size_t] counters are [nat]. *)

Require Import ZArith Bool.
Require Import Verif.Num Verif.Types Verif.Const Verif.Validity Verif.OpsAdd Verif.OpsMul Verif.Func Verif.Compare.

Section TestExp.
Context {F : Type} `{Arith F}.
Local Open Scope num_scope.

(** test_g3func_exp.cpp:54 *)
Definition sSmallMag : F := nlit 8 0 * lim_epsilon.

(** test_g3func_exp.cpp:82-86 *)
Fixpoint halve_loop (fuel : nat) (tmpArg : MultiVector F) (nHalves : nat) : option (MultiVector F * nat) :=
  match fuel with
  | O => None
  | S fuel' =>
    if nltb (nlit 1 (-1)) (magnitude TMvec tmpArg)
    then halve_loop fuel' (mul_Dub_Mvec (nlit 1 (-1)) tmpArg) (S nHalves)
    else Some (tmpArg, nHalves)
  end.

(** test_g3func_exp.cpp:104-135, [rounds] left; [converged] and [expSum] on
    leaving the loop. *)
Fixpoint series_loop (rounds : nat) (tmpArg : MultiVector F) (seriesNdx : nat)
    (nextTerm expSum : MultiVector F) : bool * MultiVector F :=
  match rounds with
  | O => (false, expSum)
  | S rounds' =>
    let seriesNdx := S seriesNdx in
    let nextTerm := mul_Mvec_Mvec nextTerm tmpArg in
    let nextTerm := mul_Dub_Mvec (1 / nlit (Z.of_nat seriesNdx) 0) nextTerm in
    let taylorResid := mul_Mvec_Mvec expSum nextTerm in
    let expSum := add_Mvec_Mvec expSum nextTerm in
    if nltb (magnitude TMvec taylorResid / magnitude TMvec expSum) sSmallMag
    then (true, expSum)
    else series_loop rounds' tmpArg seriesNdx nextTerm expSum
  end.

(** test_g3func_exp.cpp:145-148 *)
Fixpoint square_loop (nHalves : nat) (expSum : MultiVector F) : MultiVector F :=
  match nHalves with
  | O => expSum
  | S n => square_loop n (mul_Mvec_Mvec expSum expSum)
  end.

(** test_g3func_exp.cpp:57-155 *)
Definition computeExp (fuel : nat) (mvArg : MultiVector F) : option (MultiVector F) :=
  if isValid TMvec mvArg then
    match halve_loop fuel mvArg 0 with
    | None => None
    | Some (tmpArg, nHalves) =>
      let expSum := add_Mvec_Mvec zero_Mvec one_Mvec in
      let expSum := add_Mvec_Mvec expSum tmpArg in
      let (converged, expSum) := series_loop 56 tmpArg 1 tmpArg expSum in
      Some (if converged then square_loop nHalves expSum else null_Mvec)
    end
  else Some null_Mvec.

(** test_g3func_exp.cpp:203-225: [okay]; the messages are not modelled. *)
Definition check `{Libm F} (fuel : nat) (mvSome : MultiVector F) : option bool :=
  let gotVal := exp_Mvec mvSome in
  match computeExp fuel mvSome with
  | None => None
  | Some expVal => Some (nearlyEquals_Mvec gotVal expVal sSmallMag)
  end.
End TestExp.
