(** * Model of include/g3const.hpp : constants. *)

Require Import ZArith.
Require Import Verif.Num Verif.Types.

Section Const.
Context {F : Type} `{Arith F}.
Local Open Scope num_scope.

(** g3const.hpp:99.  The literal 3.141592653589793 denotes, after rounding to
    binary64, the number 7074237752028440 * 2^-51. *)
Definition c_pi : F := nlit 7074237752028440 (-51).
(** g3const.hpp:101 *)
Definition c_piHalf : F := nlit 1 (-1) * c_pi.
(** g3const.hpp:103 *)
Definition c_piQtr : F := nlit 1 (-1) * c_piHalf.
(** g3const.hpp:106 *)
Definition c_turnFull : F := nlit 2 0 * c_pi.
(** g3const.hpp:108 *)
Definition c_turnHalf : F := c_pi.
(** g3const.hpp:110 *)
Definition c_turnQtr : F := c_piHalf.

(** g3const.hpp:117 *)
Definition c_nan : F := nnan.

(** [std::numeric_limits<double>]: [epsilon()], [min()], [denorm_min()]. *)
(** used in g3compare.hpp:187, g3func.hpp:725, 734, 782 *)
Definition lim_epsilon : F := nlit 1 (-52).
(** used in g3compare.hpp:188, 269, g3func.hpp:485 *)
Definition lim_min : F := nlit 1 (-1022).
(** used in g3func.hpp:250 *)
Definition lim_denorm_min : F := nlit 1 (-1074).

(** ** null<Type>() *)
(** g3const.hpp:120-128 at [Scalar] *)
Definition null_Sca : Scalar F := Sca c_nan.
(** g3const.hpp:149-157 *)
Definition null_Vec : Vector F := Vec c_nan c_nan c_nan.
(** g3const.hpp:160-168 *)
Definition null_Biv : BiVector F := Biv c_nan c_nan c_nan.
(** g3const.hpp:120-128 at [TriVector] *)
Definition null_Tri : TriVector F := Tri c_nan.
(** g3const.hpp:185-192 *)
Definition null_Spin : Spinor F := mkSpin null_Sca null_Biv.
(** g3const.hpp:195-202 *)
Definition null_Imsp : ImSpin F := mkImsp null_Vec null_Tri.
(** g3const.hpp:205-213 *)
Definition null_Cplx : ComPlex F := mkCplx null_Sca null_Tri.
(** g3const.hpp:216-223 *)
Definition null_Dplx : DirPlex F := mkDplx null_Vec null_Biv.
(** g3const.hpp:120-128 at [MultiVector]: the constructor from [double],
    g3type.hpp:661-671. *)
Definition null_Mvec : MultiVector F := mv_of_Dub c_nan.

(** the template of g3const.hpp:120-128 and its specialisations up to line 223 *)
Definition null (t : ty) : val F t :=
  match t with
  | TDub => c_nan
  | TSca => null_Sca
  | TVec => null_Vec
  | TBiv => null_Biv
  | TTri => null_Tri
  | TSpin => null_Spin
  | TImsp => null_Imsp
  | TCplx => null_Cplx
  | TDplx => null_Dplx
  | TMvec => null_Mvec
  end.

End Const.

Section ZeroOne.
Context {F : Type} `{Ring0 F}.
Local Open Scope num_scope.

(** ** zero<Type>() *)
(** g3const.hpp:230-238 at [Scalar] and [TriVector] *)
Definition zero_Sca : Scalar F := Sca 0.
(** g3const.hpp:230-238 *)
Definition zero_Tri : TriVector F := Tri 0.
(** g3const.hpp:253-260 *)
Definition zero_Vec : Vector F := Vec 0 0 0.
(** g3const.hpp:263-270 *)
Definition zero_Biv : BiVector F := Biv 0 0 0.
(** g3const.hpp:286-293 *)
Definition zero_Spin : Spinor F := mkSpin zero_Sca zero_Biv.
(** g3const.hpp:296-303 *)
Definition zero_Imsp : ImSpin F := mkImsp zero_Vec zero_Tri.
(** g3const.hpp:306-313 *)
Definition zero_Cplx : ComPlex F := mkCplx zero_Sca zero_Tri.
(** g3const.hpp:316-323 *)
Definition zero_Dplx : DirPlex F := mkDplx zero_Vec zero_Biv.
(** g3const.hpp:326-337 *)
Definition zero_Mvec : MultiVector F := mkMvec zero_Sca zero_Vec zero_Biv zero_Tri.

(** the template of g3const.hpp:230-238 and its specialisations up to line 337 *)
Definition zero (t : ty) : val F t :=
  match t with
  | TDub => 0
  | TSca => zero_Sca
  | TVec => zero_Vec
  | TBiv => zero_Biv
  | TTri => zero_Tri
  | TSpin => zero_Spin
  | TImsp => zero_Imsp
  | TCplx => zero_Cplx
  | TDplx => zero_Dplx
  | TMvec => zero_Mvec
  end.

(** ** one<Type>() *)
(** g3const.hpp:344-351, [Type{ 1 }]; for ImSpin, ComPlex and DirPlex brace
    elision sets the first stored component and zeroes the others. *)
Definition one_Sca : Scalar F := Sca 1.
(** g3const.hpp:344-351 *)
Definition one_Tri : TriVector F := Tri 1.
(** g3const.hpp:344-351 *)
Definition one_Imsp : ImSpin F := mkImsp (Vec 1 0 0) (Tri 0).
(** g3const.hpp:344-351 *)
Definition one_Cplx : ComPlex F := mkCplx (Sca 1) (Tri 0).
(** g3const.hpp:344-351 *)
Definition one_Dplx : DirPlex F := mkDplx (Vec 1 0 0) (Biv 0 0 0).
(** g3const.hpp:354-361 *)
Definition one_Vec : Vector F := zero_Vec.
(** g3const.hpp:364-371 *)
Definition one_Biv : BiVector F := zero_Biv.
(** g3const.hpp:374-381 *)
Definition one_Spin : Spinor F := mkSpin one_Sca zero_Biv.
(** g3const.hpp:384-395 *)
Definition one_Mvec : MultiVector F := mkMvec one_Sca zero_Vec zero_Biv zero_Tri.

(** the template of g3const.hpp:344-351 and its specialisations up to line 395 *)
Definition one (t : ty) : val F t :=
  match t with
  | TDub => 1
  | TSca => one_Sca
  | TVec => one_Vec
  | TBiv => one_Biv
  | TTri => one_Tri
  | TSpin => one_Spin
  | TImsp => one_Imsp
  | TCplx => one_Cplx
  | TDplx => one_Dplx
  | TMvec => one_Mvec
  end.

(** ** Basis blades *)
(** g3const.hpp:402 *)
Definition c_e0 : Scalar F := Sca 1.
(** g3const.hpp:405-407 *)
Definition c_e1 : Vector F := Vec 1 0 0.
(** g3const.hpp:406 *)
Definition c_e2 : Vector F := Vec 0 1 0.
(** g3const.hpp:407 *)
Definition c_e3 : Vector F := Vec 0 0 1.
(** g3const.hpp:410-412 *)
Definition c_e23 : BiVector F := Biv 1 0 0.
(** g3const.hpp:411 *)
Definition c_e31 : BiVector F := Biv 0 1 0.
(** g3const.hpp:412 *)
Definition c_e12 : BiVector F := Biv 0 0 1.
(** g3const.hpp:415 *)
Definition c_e123 : TriVector F := Tri 1.
End ZeroOne.
