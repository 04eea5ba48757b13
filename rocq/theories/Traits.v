(** * Model of include/g3traits.hpp, and of the overload sets it constrains.

    A C++ trait template is a function from types to booleans: the primary
    template gives the default, each full specialisation one entry.  Types
    other than the ten of [ty] (all of them fall to the primary templates) are
    not represented. *)

Require Import List Bool.
Require Import Verif.Num Verif.Types.
Import ListNotations.

(** The matching of a type with a full specialisation, g3traits.hpp:77-169. *)
Definition ty_eqb (a b : ty) : bool :=
  match a, b with
  | TDub, TDub | TSca, TSca | TVec, TVec | TBiv, TBiv | TTri, TTri
  | TSpin, TSpin | TImsp, TImsp | TCplx, TCplx | TDplx, TDplx | TMvec, TMvec => true
  | _, _ => false
  end.

(** Lookup of a template with primary value [false] and the listed types
    specialised to [true]. *)
(** the pattern of g3traits.hpp:78-169 *)
Definition trait (specialised : list ty) (t : ty) : bool := existsb (ty_eqb t) specialised.

(** g3traits.hpp:77-93 *)
Definition is_blade : ty -> bool := trait [TSca; TVec; TBiv; TTri].
(** g3traits.hpp:100-105 *)
Definition is_Scalar : ty -> bool := trait [TSca].
(** g3traits.hpp:108-113 *)
Definition is_Vector : ty -> bool := trait [TVec].
(** g3traits.hpp:116-121 *)
Definition is_BiVector : ty -> bool := trait [TBiv].
(** g3traits.hpp:124-129 *)
Definition is_TriVector : ty -> bool := trait [TTri].
(** g3traits.hpp:132-137 *)
Definition is_Spinor : ty -> bool := trait [TSpin].
(** g3traits.hpp:140-145 *)
Definition is_ImSpin : ty -> bool := trait [TImsp].
(** g3traits.hpp:148-153 *)
Definition is_ComPlex : ty -> bool := trait [TCplx].
(** g3traits.hpp:156-161 *)
Definition is_DirPlex : ty -> bool := trait [TDplx].
(** g3traits.hpp:164-169 *)
Definition is_MultiVector : ty -> bool := trait [TMvec].

(** ** Overload sets with a constrained template

    An overload of a function of one object type: a template enabled where a
    trait holds, or an ordinary function of that very type.  (No type converts
    implicitly to another: all constructors of MultiVector are [explicit],
    g3type.hpp:648-786, and the other types are aggregates, so an ordinary
    overload is viable only for its own type.) *)
Inductive overload : Type :=
  | enabled_if (p : ty -> bool)   (* template, deduced from the argument *)
  | for_type (t : ty).            (* ordinary function *)

(** Whether an overload is viable: the [enable_if] conditions on the traits of
    g3traits.hpp:77-169, or the very type. *)
Definition viable (t : ty) (o : overload) : bool :=
  match o with enabled_if p => p t | for_type u => ty_eqb t u end.

(** The overloaded functions; the line ranges are given below in [overloads]. *)
Inductive fname : Set :=
  | f_neg | f_add_same | f_sub_same | f_magSq | f_isValid | f_nearlyEquals
  | f_fixed | f_enote | f_extract.

(** The overloads of each, with their lines. *)
Definition overloads (f : fname) : list overload :=
  match f with
  (* g3opsUni.hpp:123-191 *)
  | f_neg => [enabled_if is_blade; for_type TSpin; for_type TImsp; for_type TCplx; for_type TDplx; for_type TMvec]
  (* g3opsAdd_same.hpp:57-154, both operands of one type *)
  | f_add_same => [enabled_if is_blade; for_type TSpin; for_type TImsp; for_type TCplx; for_type TDplx; for_type TMvec]
  (* g3opsSub_same.hpp:64-154 *)
  | f_sub_same => [enabled_if is_blade; for_type TSpin; for_type TImsp; for_type TCplx; for_type TDplx; for_type TMvec]
  (* g3func.hpp:136-228 *)
  | f_magSq => [for_type TDub; enabled_if is_blade; for_type TSpin; for_type TImsp; for_type TCplx; for_type TDplx; for_type TMvec]
  (* g3validity.hpp:83-181; the overload for std::array takes none of the ten types *)
  | f_isValid => [for_type TDub; enabled_if is_blade; for_type TSpin; for_type TImsp; for_type TCplx; for_type TDplx; for_type TMvec]
  (* g3compare.hpp:213-400; same remark, and the overload for bool *)
  | f_nearlyEquals => [for_type TDub; enabled_if is_blade; for_type TSpin; for_type TImsp; for_type TCplx; for_type TDplx; for_type TMvec]
  (* g3io.hpp:305-397 *)
  | f_fixed => [for_type TDub; enabled_if is_blade; for_type TSpin; for_type TImsp; for_type TMvec]
  (* g3io.hpp:404-497 *)
  | f_enote => [for_type TDub; enabled_if is_blade; for_type TSpin; for_type TImsp; for_type TMvec]
  (* g3io.hpp:660-750 *)
  | f_extract => [enabled_if is_blade; for_type TSpin; for_type TImsp; for_type TCplx; for_type TDplx; for_type TMvec]
  end.

(** The candidates a call with an argument of type [t] leaves, of the overloads
    cited in [overloads]. *)
Definition candidates (f : fname) (t : ty) : list overload := filter (viable t) (overloads f).

(** ** inverse, g3func.hpp:452-514

    Three templates.  [inverse<T>(x)] names the template argument; a call
    [inverse(x)] has to deduce it, which only the first can: the other two take
    a ComPlex and a MultiVector, from which the template argument does not
    follow. *)
Inductive inverse_overload : Set := inv_blade | inv_complex | inv_multivector.
(** g3func.hpp:452-514 *)
Definition inverse_named (t : ty) : list inverse_overload :=
  (if is_blade t then [inv_blade] else []) ++ (if is_ComPlex t then [inv_complex] else []) ++
  (if is_MultiVector t then [inv_multivector] else []).
(** g3func.hpp:452-464 *)
Definition inverse_deduced (t : ty) : list inverse_overload := if is_blade t then [inv_blade] else [].
