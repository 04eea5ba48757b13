(** * Number structures over which the model of Engabra is written.

    Engabra computes with C++ [double].  The model is polymorphic in the
    carrier [F] standing for [double], so that one and the same text of the
    model is run on IEEE binary64 numbers (Flocq), on exact real numbers and
    on symbolic expressions.  The three classes are plain records of
    operations and carry no laws. *)

Require Import ZArith.

(** The operations [0.] [1.] [+] [-] [*] and unary [-] of [double],
    as used e.g. in g3opsMul_Vector.hpp:67-317. *)
Class Ring0 (F : Type) : Type := {
  nzero : F;
  none_ : F;
  nadd : F -> F -> F;
  nsub : F -> F -> F;
  nmul : F -> F -> F;
  nopp : F -> F
}.

(** The remaining built-in or correctly rounded facilities of [double]:
    [/], [std::sqrt], [std::abs], [<], [==], [std::isnormal], the quiet NaN
    and literals.  [nlit m e] is the number [m * 2^e]; every floating-point
    literal of the sources is a dyadic rational of this form once the
    compiler has rounded it to binary64.  Used e.g. in g3func.hpp:136-514. *)
Class Arith (F : Type) : Type := {
  narith_ring :> Ring0 F;
  ndiv : F -> F -> F;
  nsqrt : F -> F;
  nabs : F -> F;
  nltb : F -> F -> bool;
  neqb : F -> F -> bool;
  nisnormal : F -> bool;
  nnan : F;
  nlit : Z -> Z -> F
}.

(** Math-library functions: [std::cos], [std::sin], [std::exp], [std::log],
    [std::atan2] and those of [std::complex<double>]: [std::abs], [operator*],
    [operator/] and [std::sqrt].  Nothing is assumed about them here.
    Called in g3func.hpp:426, 486, 551, 565, 591, 653-668, 727, 762. *)
Class Libm (F : Type) : Type := {
  mcos : F -> F;
  msin : F -> F;
  mexp : F -> F;
  mlog : F -> F;
  matan2 : F -> F -> F;
  mcabs : F * F -> F;
  mcmul : F * F -> F * F -> F * F;
  mcdiv : F * F -> F * F -> F * F;
  mcsqrt : F * F -> F * F
}.

Declare Scope num_scope.
Delimit Scope num_scope with num.

Notation "a + b" := (nadd a b) : num_scope.
Notation "a - b" := (nsub a b) : num_scope.
Notation "a * b" := (nmul a b) : num_scope.
Notation "- a" := (nopp a) : num_scope.
Notation "a / b" := (ndiv a b) : num_scope.
Notation "0" := nzero : num_scope.
Notation "1" := none_ : num_scope.
