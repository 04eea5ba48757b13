(** * Model of include/g3compare.hpp : nearlyEquals and operator==. *)

Require Import ZArith Bool List.
Require Import Verif.Num Verif.Types Verif.Const Verif.Validity.
Import ListNotations.

Section Compare.
Context {F : Type} `{Arith F}.
Local Open Scope num_scope.

(** g3compare.hpp:100-109 *)
Definition isSmallAbs (testVal tol : F) : bool := nltb (nabs testVal) tol.
(** g3compare.hpp:111-122 *)
Definition isSmallAbsDiff (testVal refVal tol : F) : bool :=
  let diff := testVal - refVal in isSmallAbs diff tol.
(** g3compare.hpp:124-133 *)
Definition bothAreValid (valA valB : F) : bool := isValid_Dub valA && isValid_Dub valB.

(** g3compare.hpp:155-169 *)
Definition nearlyEqualsAbs (testVal refVal tol : F) : bool :=
  if bothAreValid testVal refVal then isSmallAbsDiff testVal refVal tol else false.

(** The [constexpr] threshold of g3compare.hpp:187-189. *)
Definition tolToZero : F :=
  let pad := 1 / lim_epsilon in
  let small := lim_min in
  small * pad.

(** g3compare.hpp:175-207 *)
Definition nearlyEqualsRel (testVal refVal tol : F) : bool :=
  if bothAreValid testVal refVal then
    if nltb (nabs refVal) tolToZero then
      isSmallAbsDiff testVal refVal tol
    else
      let testNorm := testVal / refVal in
      let refNorm := 1 in
      isSmallAbsDiff testNorm refNorm tol
  else false.

(** g3compare.hpp:213-222 *)
Definition nearlyEquals_Dub (testVal refVal tol : F) : bool :=
  nearlyEqualsRel testVal refVal tol.

(** g3compare.hpp:229-237 *)
Definition nearlyEquals_bool (boolA boolB : bool) : bool := Bool.eqb boolA boolB.

(** [std::inner_product(a.begin, a.end, b.begin, init)] *)
(** called in g3compare.hpp:273 *)
Fixpoint inner_product (a b : list F) (init : F) : F :=
  match a, b with
  | x :: a', y :: b' => inner_product a' b' (init + x * y)
  | _, _ => init
  end.

(** The loop of g3compare.hpp:284-287 over the elements after the first. *)
Fixpoint allSmallDiff (got ref : list F) (tol : F) (same : bool) : bool :=
  match got, ref with
  | g :: got', r :: ref' =>
      if same then allSmallDiff got' ref' tol (isSmallAbsDiff g r tol) else same
  | _, _ => same
  end.

(** The loop of g3compare.hpp:296-300. *)
Fixpoint sumSqDif (got ref : list F) (magSqDif : F) : F :=
  match got, ref with
  | g :: got', r :: ref' =>
      let dif := g - r in sumSqDif got' ref' (magSqDif + dif * dif)
  | _, _ => magSqDif
  end.

(** g3compare.hpp:254-306.  Both arrays have the same length [Dim >= 1]. *)
Definition nearlyEquals_arr (dataGot dataRef : list F) (tol : F) : bool :=
  if isValid_arr dataGot && isValid_arr dataRef then
    let minDub := lim_min in
    let magSqRef := inner_product dataRef dataRef 0 in
    let magRef := nsqrt magSqRef in
    if nltb magRef minDub then
      match dataGot, dataRef with
      | g :: got', r :: ref' => allSmallDiff got' ref' tol (nearlyEqualsAbs g r tol)
      | _, _ => false
      end
    else
      let magSqDif := sumSqDif dataGot dataRef 0 in
      let gotMagRel := nsqrt (magSqDif / magSqRef) in
      isSmallAbs gotMagRel tol
  else false.

(** g3compare.hpp:309-322, the blade template at its four instances. *)
Definition nearlyEquals_Sca (a b : Scalar F) (tol : F) : bool :=
  nearlyEquals_arr (arr1_list (scaData a)) (arr1_list (scaData b)) tol.
(** g3compare.hpp:309-322 *)
Definition nearlyEquals_Vec (a b : Vector F) (tol : F) : bool :=
  nearlyEquals_arr (arr3_list (vecData a)) (arr3_list (vecData b)) tol.
(** g3compare.hpp:309-322 *)
Definition nearlyEquals_Biv (a b : BiVector F) (tol : F) : bool :=
  nearlyEquals_arr (arr3_list (bivData a)) (arr3_list (bivData b)) tol.
(** g3compare.hpp:309-322 *)
Definition nearlyEquals_Tri (a b : TriVector F) (tol : F) : bool :=
  nearlyEquals_arr (arr1_list (triData a)) (arr1_list (triData b)) tol.
(** g3compare.hpp:325-337 *)
Definition nearlyEquals_Spin (a b : Spinor F) (tol : F) : bool :=
  nearlyEquals_Sca (spinSca a) (spinSca b) tol
  && nearlyEquals_Biv (spinBiv a) (spinBiv b) tol.
(** g3compare.hpp:340-352 *)
Definition nearlyEquals_Imsp (a b : ImSpin F) (tol : F) : bool :=
  nearlyEquals_Vec (imspVec a) (imspVec b) tol
  && nearlyEquals_Tri (imspTri a) (imspTri b) tol.
(** g3compare.hpp:355-367 *)
Definition nearlyEquals_Cplx (a b : ComPlex F) (tol : F) : bool :=
  nearlyEquals_Sca (cplxSca a) (cplxSca b) tol
  && nearlyEquals_Tri (cplxTri a) (cplxTri b) tol.
(** g3compare.hpp:370-382 *)
Definition nearlyEquals_Dplx (a b : DirPlex F) (tol : F) : bool :=
  nearlyEquals_Vec (dplxVec a) (dplxVec b) tol
  && nearlyEquals_Biv (dplxBiv a) (dplxBiv b) tol.
(** g3compare.hpp:385-399 *)
Definition nearlyEquals_Mvec (a b : MultiVector F) (tol : F) : bool :=
  nearlyEquals_Sca (mvSca a) (mvSca b) tol
  && nearlyEquals_Vec (mvVec a) (mvVec b) tol
  && nearlyEquals_Biv (mvBiv a) (mvBiv b) tol
  && nearlyEquals_Tri (mvTri a) (mvTri b) tol.

(** The overload set, g3compare.hpp:213-399. *)
Definition nearlyEquals (t : ty) : val F t -> val F t -> F -> bool :=
  match t with
  | TDub => nearlyEquals_Dub
  | TSca => nearlyEquals_Sca
  | TVec => nearlyEquals_Vec
  | TBiv => nearlyEquals_Biv
  | TTri => nearlyEquals_Tri
  | TSpin => nearlyEquals_Spin
  | TImsp => nearlyEquals_Imsp
  | TCplx => nearlyEquals_Cplx
  | TDplx => nearlyEquals_Dplx
  | TMvec => nearlyEquals_Mvec
  end.

(** ** operator== *)
(** g3compare.hpp:406-418 *)
Definition eqeq_arr3 (dataA dataB : Arr3 F) : bool :=
  neqb (at30 dataA) (at30 dataB) && neqb (at31 dataA) (at31 dataB)
  && neqb (at32 dataA) (at32 dataB).
(** g3compare.hpp:422-430 *)
Definition eqeq_Sca (a b : Scalar F) : bool := neqb (sca_0 a) (sca_0 b).
(** g3compare.hpp:433-441 *)
Definition eqeq_Vec (a b : Vector F) : bool := eqeq_arr3 (vecData a) (vecData b).
(** g3compare.hpp:444-452 *)
Definition eqeq_Biv (a b : BiVector F) : bool := eqeq_arr3 (bivData a) (bivData b).
(** g3compare.hpp:455-463 *)
Definition eqeq_Tri (a b : TriVector F) : bool := neqb (tri_0 a) (tri_0 b).
(** g3compare.hpp:466-477 *)
Definition eqeq_Spin (a b : Spinor F) : bool :=
  eqeq_Sca (spinSca a) (spinSca b) && eqeq_Biv (spinBiv a) (spinBiv b).
(** g3compare.hpp:480-491 *)
Definition eqeq_Imsp (a b : ImSpin F) : bool :=
  eqeq_Vec (imspVec a) (imspVec b) && eqeq_Tri (imspTri a) (imspTri b).
(** g3compare.hpp:494-507 *)
Definition eqeq_Mvec (a b : MultiVector F) : bool :=
  eqeq_Sca (mvSca a) (mvSca b) && eqeq_Vec (mvVec a) (mvVec b)
  && eqeq_Biv (mvBiv a) (mvBiv b) && eqeq_Tri (mvTri a) (mvTri b).

(** The overload set; ComPlex and DirPlex have no [operator==] ([None]). *)
(** g3compare.hpp:422-507 *)
Definition eqeq (t : ty) : option (val F t -> val F t -> bool) :=
  match t with
  | TDub => Some neqb
  | TSca => Some eqeq_Sca
  | TVec => Some eqeq_Vec
  | TBiv => Some eqeq_Biv
  | TTri => Some eqeq_Tri
  | TSpin => Some eqeq_Spin
  | TImsp => Some eqeq_Imsp
  | TCplx => None
  | TDplx => None
  | TMvec => Some eqeq_Mvec
  end.
End Compare.
