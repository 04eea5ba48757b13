(** * The model run on exact real numbers.

    [Ring0 R] is exact real arithmetic.  [xreal = option R] adds the outcome
    [None] for results that are not a real number (a C++ NaN or infinity):
    it absorbs, and it is what division by zero, the square root of a negative
    number and the logarithm of a non-positive number give.  Every exact
    number other than zero counts as normal (no underflow or overflow). *)

Require Import Reals ZArith Lra.
From Flocq Require Import Core.
Require Import Verif.Num Verif.Types.
Local Open Scope R_scope.

Global Instance Ring0_R : Ring0 R := {|
  nzero := 0; none_ := 1; nadd := Rplus; nsub := Rminus; nmul := Rmult; nopp := Ropp
|}.

Definition xreal : Type := option R.

Definition x1 (f : R -> R) (a : xreal) : xreal := option_map f a.
Definition x2 (f : R -> R -> R) (a b : xreal) : xreal :=
  match a, b with
  | Some x, Some y => Some (f x y)
  | _, _ => None
  end.

Definition Rltb (x y : R) : bool := if Rlt_dec x y then true else false.
Definition Reqb (x y : R) : bool := if Req_EM_T x y then true else false.

Definition xdiv (a b : xreal) : xreal :=
  match a, b with
  | Some x, Some y => if Reqb y 0 then None else Some (x / y)
  | _, _ => None
  end.
Definition xsqrt (a : xreal) : xreal :=
  match a with
  | Some x => if Rltb x 0 then None else Some (sqrt x)
  | None => None
  end.
Definition xltb (a b : xreal) : bool :=
  match a, b with Some x, Some y => Rltb x y | _, _ => false end.
Definition xeqb (a b : xreal) : bool :=
  match a, b with Some x, Some y => Reqb x y | _, _ => false end.
Definition xisnormal (a : xreal) : bool :=
  match a with Some x => negb (Reqb x 0) | None => false end.

Global Instance Ring0_X : Ring0 xreal := {|
  nzero := Some 0; none_ := Some 1;
  nadd := x2 Rplus; nsub := x2 Rminus; nmul := x2 Rmult; nopp := x1 Ropp
|}.

Global Instance Arith_X : Arith xreal := {|
  ndiv := xdiv; nsqrt := xsqrt; nabs := x1 Rabs;
  nltb := xltb; neqb := xeqb; nisnormal := xisnormal; nnan := None;
  nlit := fun m e => Some (IZR m * bpow radix2 e)
|}.

(** The two-argument arctangent [std::atan2(y, x)], in (-PI, PI]. *)
Definition Ratan2 (y x : R) : R :=
  if Rlt_dec 0 x then atan (y / x)
  else if Rlt_dec x 0 then
    (if Rle_dec 0 y then atan (y / x) + PI else atan (y / x) - PI)
  else if Rlt_dec 0 y then PI / 2
  else if Rlt_dec y 0 then - (PI / 2)
  else 0.

Definition xlog (a : xreal) : xreal :=
  match a with
  | Some x => if Rltb 0 x then Some (ln x) else None
  | None => None
  end.

(** Principal square root of the complex number [x + i y]. *)
Definition Rcsqrt (x y : R) : R * R :=
  let m := sqrt (x * x + y * y) in
  (sqrt ((m + x) / 2),
   if Rlt_dec y 0 then - sqrt ((m - x) / 2) else sqrt ((m - x) / 2)).

Global Instance Libm_X : Libm xreal := {|
  mcos := x1 cos; msin := x1 sin; mexp := x1 exp; mlog := xlog; matan2 := x2 Ratan2;
  mcabs := fun z => xsqrt (x2 Rplus (x2 Rmult (fst z) (fst z)) (x2 Rmult (snd z) (snd z)));
  mcmul := fun z w =>
    (x2 Rminus (x2 Rmult (fst z) (fst w)) (x2 Rmult (snd z) (snd w)),
     x2 Rplus (x2 Rmult (fst z) (snd w)) (x2 Rmult (snd z) (fst w)));
  mcdiv := fun z w =>
    let d := x2 Rplus (x2 Rmult (fst w) (fst w)) (x2 Rmult (snd w) (snd w)) in
    (xdiv (x2 Rplus (x2 Rmult (fst z) (fst w)) (x2 Rmult (snd z) (snd w))) d,
     xdiv (x2 Rminus (x2 Rmult (snd z) (fst w)) (x2 Rmult (fst z) (snd w))) d);
  mcsqrt := fun z =>
    match z with
    | (Some x, Some y) => let r := Rcsqrt x y in (Some (fst r), Some (snd r))
    | _ => (None, None)
    end
|}.

(** A value all of whose components are the given real numbers. *)
Definition exact (t : ty) (x : val R t) : val xreal t := mapv Some t x.
