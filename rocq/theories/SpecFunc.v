(** * Specification vocabulary for the mathematical functions. *)

Require Import Reals.
From Flocq Require Import Core.
From Coquelicot Require Import Coquelicot.
Require Import Verif.Num Verif.Types Verif.OpsUni Verif.OpsMul Verif.Const Verif.Func
  Verif.SpecCl Verif.RealInst.
Local Open Scope R_scope.

(** Euclidean length of the vector of the eight coefficients. *)
Definition cnorm (a : clf) : R := sqrt (cnorm2 a).

(** The constants of [std::numeric_limits<double>] the code compares with:
    [denorm_min()], [min()] and [epsilon()]. *)
Definition tiny : R := bpow radix2 (-1074).
Definition dmin : R := bpow radix2 (-1022).
Definition deps : R := bpow radix2 (-52).

(** Types whose values [x] have a scalar [x * reverse(x)]: every type but
    DirPlex and MultiVector. *)
Definition unmixed (t : ty) : bool :=
  match t with TDplx | TMvec => false | _ => true end.

(** The blade types and their [inverse] function. *)
Definition blade_inverse (t : ty) : option (val xreal t -> val xreal t) :=
  match t with
  | TSca => Some inverse_Sca | TVec => Some inverse_Vec
  | TBiv => Some inverse_Biv | TTri => Some inverse_Tri
  | _ => None
  end.

(** The client expression [s * v * reverse(s)] and its vector part. *)
Definition sandwich (s : Spinor R) (v : Vector R) : ImSpin R :=
  mul TImsp TSpin (mul TSpin TVec s v) (reverse TSpin s).
Definition rotate (s : Spinor R) (v : Vector R) : Vector R := imspVec (sandwich s v).

(** Dot product, and volume of the box spanned by three vectors. *)
Definition dot (u v : Vector R) : R := vec_0 u * vec_0 v + vec_1 u * vec_1 v + vec_2 u * vec_2 v.
Definition det3 (u v w : Vector R) : R :=
  vec_0 u * (vec_1 v * vec_2 w - vec_2 v * vec_1 w)
  - vec_1 u * (vec_0 v * vec_2 w - vec_2 v * vec_0 w)
  + vec_2 u * (vec_0 v * vec_1 w - vec_1 v * vec_0 w).

(** The normal of the plane of a bivector. *)
Definition axis (B : BiVector R) : Vector R := Vec (biv_0 B) (biv_1 B) (biv_2 B).

(** Zero, or above the smallest positive double. *)
Definition nontiny (B : BiVector R) : Prop := B = zero TBiv \/ tiny < cnorm (den TBiv B).

(** [sin m / m], and 1 at 0. *)
Definition sinc (m : R) : R := if Req_EM_T m 0 then 1 else sin m / m.

(** The complex number with the same parts. *)
Definition toC (z : ComPlex R) : C := (sca_0 (cplxSca z), tri_0 (cplxTri z)).

(** The literal 1.e-4 as a double, and the number 2^-25. *)
Definition sync_lim : R := IZR 7378697629483821 * bpow radix2 (-66).
Definition branch_error : R := / 33554432.
