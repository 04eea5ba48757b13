(** * Model of include/g3opsAdd*.hpp : binary operator+.

    One definition per C++ overload; local [const] variables become [let]. *)

Require Import Verif.Num Verif.Types Verif.Priv.

Section Add.
Context {F : Type} `{Ring0 F}.
Local Open Scope num_scope.

(** ** include/g3opsAdd_same.hpp *)

(** g3opsAdd_same.hpp:58-76, the blade template at [Scalar]; lambda [elemA+elemB]. *)
Definition add_Sca_Sca (bladeA bladeB : Scalar F) : Scalar F :=
  mkSca (elementwise1 (fun elemA elemB => elemA + elemB)
    (scaData bladeA) (scaData bladeB)).

(** g3opsAdd_same.hpp:58-76, the blade template at [Vector]; lambda [elemA+elemB]. *)
Definition add_Vec_Vec (bladeA bladeB : Vector F) : Vector F :=
  mkVec (elementwise3 (fun elemA elemB => elemA + elemB)
    (vecData bladeA) (vecData bladeB)).

(** g3opsAdd_same.hpp:58-76, the blade template at [BiVector]; lambda [elemA+elemB]. *)
Definition add_Biv_Biv (bladeA bladeB : BiVector F) : BiVector F :=
  mkBiv (elementwise3 (fun elemA elemB => elemA + elemB)
    (bivData bladeA) (bivData bladeB)).

(** g3opsAdd_same.hpp:58-76, the blade template at [TriVector]; lambda [elemA+elemB]. *)
Definition add_Tri_Tri (bladeA bladeB : TriVector F) : TriVector F :=
  mkTri (elementwise1 (fun elemA elemB => elemA + elemB)
    (triData bladeA) (triData bladeB)).

(** g3opsAdd_same.hpp:84-96 *)
Definition add_Spin_Spin (spinA : Spinor F) (spinB : Spinor F) : Spinor F :=
  mkSpin
    (add_Sca_Sca (spinSca spinA) (spinSca spinB))
    (add_Biv_Biv (spinBiv spinA) (spinBiv spinB)).

(** g3opsAdd_same.hpp:98-110 *)
Definition add_Imsp_Imsp (imspA : ImSpin F) (imspB : ImSpin F) : ImSpin F :=
  mkImsp
    (add_Vec_Vec (imspVec imspA) (imspVec imspB))
    (add_Tri_Tri (imspTri imspA) (imspTri imspB)).

(** g3opsAdd_same.hpp:112-124 *)
Definition add_Cplx_Cplx (cplxA : ComPlex F) (cplxB : ComPlex F) : ComPlex F :=
  mkCplx
    (add_Sca_Sca (cplxSca cplxA) (cplxSca cplxB))
    (add_Tri_Tri (cplxTri cplxA) (cplxTri cplxB)).

(** g3opsAdd_same.hpp:126-138 *)
Definition add_Dplx_Dplx (dplxA : DirPlex F) (dplxB : DirPlex F) : DirPlex F :=
  mkDplx
    (add_Vec_Vec (dplxVec dplxA) (dplxVec dplxB))
    (add_Biv_Biv (dplxBiv dplxA) (dplxBiv dplxB)).

(** g3opsAdd_same.hpp:140-154 *)
Definition add_Mvec_Mvec (mvA : MultiVector F) (mvB : MultiVector F) : MultiVector F :=
  mkMvec
    (add_Sca_Sca (mvSca mvA) (mvSca mvB))
    (add_Vec_Vec (mvVec mvA) (mvVec mvB))
    (add_Biv_Biv (mvBiv mvA) (mvBiv mvB))
    (add_Tri_Tri (mvTri mvA) (mvTri mvB)).

(** ** include/g3opsAdd_Scalar.hpp *)

(** g3opsAdd_Scalar.hpp:56-65 *)
Definition add_Sca_Biv (sca : Scalar F) (biv : BiVector F) : Spinor F :=
  mkSpin sca biv.

(** g3opsAdd_Scalar.hpp:67-76 *)
Definition add_Sca_Tri (sca : Scalar F) (tri : TriVector F) : ComPlex F :=
  mkCplx sca tri.

(** g3opsAdd_Scalar.hpp:78-90 *)
Definition add_Sca_Spin (sca : Scalar F) (spin : Spinor F) : Spinor F :=
  mkSpin (add_Sca_Sca sca (spinSca spin)) (spinBiv spin).

(** g3opsAdd_Scalar.hpp:94-106 *)
Definition add_Sca_Cplx (sca : Scalar F) (cplx : ComPlex F) : ComPlex F :=
  mkCplx (add_Sca_Sca sca (cplxSca cplx)) (cplxTri cplx).

(** g3opsAdd_Scalar.hpp:110-124 *)
Definition add_Sca_Mvec (sca : Scalar F) (mv : MultiVector F) : MultiVector F :=
  mkMvec (add_Sca_Sca sca (mvSca mv)) (mvVec mv) (mvBiv mv) (mvTri mv).

(** ** include/g3opsAdd_Vector.hpp *)

(** g3opsAdd_Vector.hpp:60-69 *)
Definition add_Vec_Biv (vec : Vector F) (biv : BiVector F) : DirPlex F :=
  mkDplx vec biv.

(** g3opsAdd_Vector.hpp:71-80 *)
Definition add_Vec_Tri (vec : Vector F) (tri : TriVector F) : ImSpin F :=
  mkImsp vec tri.

(** g3opsAdd_Vector.hpp:82-94 *)
Definition add_Vec_Imsp (vec : Vector F) (imsp : ImSpin F) : ImSpin F :=
  mkImsp (add_Vec_Vec vec (imspVec imsp)) (imspTri imsp).

(** g3opsAdd_Vector.hpp:98-110 *)
Definition add_Vec_Dplx (vec : Vector F) (dplx : DirPlex F) : DirPlex F :=
  mkDplx (add_Vec_Vec vec (dplxVec dplx)) (dplxBiv dplx).

(** g3opsAdd_Vector.hpp:112-126 *)
Definition add_Vec_Mvec (vec : Vector F) (mv : MultiVector F) : MultiVector F :=
  mkMvec (mvSca mv) (add_Vec_Vec vec (mvVec mv)) (mvBiv mv) (mvTri mv).

(** ** include/g3opsAdd_BiVector.hpp *)

(** g3opsAdd_BiVector.hpp:55-64 *)
Definition add_Biv_Sca (biv : BiVector F) (sca : Scalar F) : Spinor F :=
  add_Sca_Biv sca biv.

(** g3opsAdd_BiVector.hpp:66-75 *)
Definition add_Biv_Vec (biv : BiVector F) (vec : Vector F) : DirPlex F :=
  add_Vec_Biv vec biv.

(** g3opsAdd_BiVector.hpp:85-94 *)
Definition add_Biv_Spin (biv : BiVector F) (spin : Spinor F) : Spinor F :=
  mkSpin (spinSca spin) (add_Biv_Biv biv (spinBiv spin)).

(** g3opsAdd_BiVector.hpp:98-107 *)
Definition add_Biv_Dplx (biv : BiVector F) (dplx : DirPlex F) : DirPlex F :=
  mkDplx (dplxVec dplx) (add_Biv_Biv biv (dplxBiv dplx)).

(** g3opsAdd_BiVector.hpp:109-123 *)
Definition add_Biv_Mvec (biv : BiVector F) (mv : MultiVector F) : MultiVector F :=
  mkMvec (mvSca mv) (mvVec mv) (add_Biv_Biv biv (mvBiv mv)) (mvTri mv).

(** ** include/g3opsAdd_TriVector.hpp *)

(** g3opsAdd_TriVector.hpp:55-64 *)
Definition add_Tri_Sca (tri : TriVector F) (sca : Scalar F) : ComPlex F :=
  add_Sca_Tri sca tri.

(** g3opsAdd_TriVector.hpp:66-75 *)
Definition add_Tri_Vec (tri : TriVector F) (vec : Vector F) : ImSpin F :=
  add_Vec_Tri vec tri.

(** g3opsAdd_TriVector.hpp:87-96 *)
Definition add_Tri_Imsp (tri : TriVector F) (imsp : ImSpin F) : ImSpin F :=
  mkImsp (imspVec imsp) (add_Tri_Tri tri (imspTri imsp)).

(** g3opsAdd_TriVector.hpp:98-107 *)
Definition add_Tri_Cplx (tri : TriVector F) (cplx : ComPlex F) : ComPlex F :=
  mkCplx (cplxSca cplx) (add_Tri_Tri tri (cplxTri cplx)).

(** g3opsAdd_TriVector.hpp:111-125 *)
Definition add_Tri_Mvec (tri : TriVector F) (mv : MultiVector F) : MultiVector F :=
  mkMvec (mvSca mv) (mvVec mv) (mvBiv mv) (add_Tri_Tri tri (mvTri mv)).

(** ** include/g3opsAdd_Spinor.hpp *)

(** g3opsAdd_Spinor.hpp:55-64 *)
Definition add_Spin_Sca (spin : Spinor F) (sca : Scalar F) : Spinor F :=
  add_Sca_Spin sca spin.

(** g3opsAdd_Spinor.hpp:68-77 *)
Definition add_Spin_Biv (spin : Spinor F) (biv : BiVector F) : Spinor F :=
  add_Biv_Spin biv spin.

(** g3opsAdd_Spinor.hpp:87-101 *)
Definition add_Spin_Imsp (spin : Spinor F) (imsp : ImSpin F) : MultiVector F :=
  mkMvec (spinSca spin) (imspVec imsp) (spinBiv spin) (imspTri imsp).

(** g3opsAdd_Spinor.hpp:107-121 *)
Definition add_Spin_Mvec (spin : Spinor F) (mv : MultiVector F) : MultiVector F :=
  mkMvec
    (add_Sca_Sca (spinSca spin) (mvSca mv))
    (mvVec mv)
    (add_Biv_Biv (spinBiv spin) (mvBiv mv))
    (mvTri mv).

(** ** include/g3opsAdd_ImSpin.hpp *)

(** g3opsAdd_ImSpin.hpp:58-67 *)
Definition add_Imsp_Vec (imsp : ImSpin F) (vec : Vector F) : ImSpin F :=
  add_Vec_Imsp vec imsp.

(** g3opsAdd_ImSpin.hpp:71-80 *)
Definition add_Imsp_Tri (imsp : ImSpin F) (tri : TriVector F) : ImSpin F :=
  add_Tri_Imsp tri imsp.

(** g3opsAdd_ImSpin.hpp:82-91 *)
Definition add_Imsp_Spin (imsp : ImSpin F) (spin : Spinor F) : MultiVector F :=
  add_Spin_Imsp spin imsp.

(** g3opsAdd_ImSpin.hpp:103-117 *)
Definition add_Imsp_Mvec (imsp : ImSpin F) (mv : MultiVector F) : MultiVector F :=
  mkMvec
    (mvSca mv)
    (add_Vec_Vec (imspVec imsp) (mvVec mv))
    (mvBiv mv)
    (add_Tri_Tri (imspTri imsp) (mvTri mv)).

(** ** include/g3opsAdd_ComPlex.hpp *)

(** g3opsAdd_ComPlex.hpp:56-65 *)
Definition add_Cplx_Sca (cplx : ComPlex F) (sca : Scalar F) : ComPlex F :=
  add_Sca_Cplx sca cplx.

(** g3opsAdd_ComPlex.hpp:71-80 *)
Definition add_Cplx_Tri (cplx : ComPlex F) (tri : TriVector F) : ComPlex F :=
  add_Tri_Cplx tri cplx.

(** g3opsAdd_ComPlex.hpp:92-106 *)
Definition add_Cplx_Dplx (cplx : ComPlex F) (dplx : DirPlex F) : MultiVector F :=
  mkMvec (cplxSca cplx) (dplxVec dplx) (dplxBiv dplx) (cplxTri cplx).

(** g3opsAdd_ComPlex.hpp:108-122 *)
Definition add_Cplx_Mvec (cplx : ComPlex F) (mv : MultiVector F) : MultiVector F :=
  mkMvec
    (add_Sca_Sca (cplxSca cplx) (mvSca mv))
    (mvVec mv)
    (mvBiv mv)
    (add_Tri_Tri (cplxTri cplx) (mvTri mv)).

(** ** include/g3opsAdd_DirPlex.hpp *)

(** g3opsAdd_DirPlex.hpp:59-68 *)
Definition add_Dplx_Vec (dplx : DirPlex F) (vec : Vector F) : DirPlex F :=
  add_Vec_Dplx vec dplx.

(** g3opsAdd_DirPlex.hpp:70-79 *)
Definition add_Dplx_Biv (dplx : DirPlex F) (biv : BiVector F) : DirPlex F :=
  add_Biv_Dplx biv dplx.

(** g3opsAdd_DirPlex.hpp:87-96 *)
Definition add_Dplx_Cplx (dplx : DirPlex F) (cplx : ComPlex F) : MultiVector F :=
  add_Cplx_Dplx cplx dplx.

(** g3opsAdd_DirPlex.hpp:104-118 *)
Definition add_Dplx_Mvec (dplx : DirPlex F) (mv : MultiVector F) : MultiVector F :=
  mkMvec
    (mvSca mv)
    (add_Vec_Vec (dplxVec dplx) (mvVec mv))
    (add_Biv_Biv (dplxBiv dplx) (mvBiv mv))
    (mvTri mv).

(** ** include/g3opsAdd_MultiVector.hpp *)

(** g3opsAdd_MultiVector.hpp:62-71 *)
Definition add_Mvec_Sca (mv : MultiVector F) (sca : Scalar F) : MultiVector F :=
  add_Sca_Mvec sca mv.

(** g3opsAdd_MultiVector.hpp:73-82 *)
Definition add_Mvec_Vec (mv : MultiVector F) (vec : Vector F) : MultiVector F :=
  add_Vec_Mvec vec mv.

(** g3opsAdd_MultiVector.hpp:84-93 *)
Definition add_Mvec_Biv (mv : MultiVector F) (biv : BiVector F) : MultiVector F :=
  add_Biv_Mvec biv mv.

(** g3opsAdd_MultiVector.hpp:95-104 *)
Definition add_Mvec_Tri (mv : MultiVector F) (tri : TriVector F) : MultiVector F :=
  add_Tri_Mvec tri mv.

(** g3opsAdd_MultiVector.hpp:106-115 *)
Definition add_Mvec_Spin (mv : MultiVector F) (spin : Spinor F) : MultiVector F :=
  add_Spin_Mvec spin mv.

(** g3opsAdd_MultiVector.hpp:117-126 *)
Definition add_Mvec_Imsp (mv : MultiVector F) (imsp : ImSpin F) : MultiVector F :=
  add_Imsp_Mvec imsp mv.

(** g3opsAdd_MultiVector.hpp:128-137 *)
Definition add_Mvec_Cplx (mv : MultiVector F) (cplx : ComPlex F) : MultiVector F :=
  add_Cplx_Mvec cplx mv.

(** g3opsAdd_MultiVector.hpp:139-148 *)
Definition add_Mvec_Dplx (mv : MultiVector F) (dplx : DirPlex F) : MultiVector F :=
  add_Dplx_Mvec dplx mv.

(** Result type of [A + B]; [None] where no overload exists (such an
    expression does not compile).  Built-in [double] arithmetic is not listed. *)
(** return types of g3opsAdd_BiVector.hpp:58-123, g3opsAdd_ComPlex.hpp:59-122, g3opsAdd_DirPlex.hpp:62-118,
    g3opsAdd_ImSpin.hpp:61-117, g3opsAdd_MultiVector.hpp:65-148, g3opsAdd_Scalar.hpp:59-124,
    g3opsAdd_Spinor.hpp:58-121, g3opsAdd_TriVector.hpp:58-125, g3opsAdd_Vector.hpp:63-126,
    g3opsAdd_same.hpp:65-154 *)
Definition addTy (a b : ty) : option ty :=
  match a, b with
  | TSca, TSca => Some TSca
  | TSca, TBiv => Some TSpin
  | TSca, TTri => Some TCplx
  | TSca, TSpin => Some TSpin
  | TSca, TCplx => Some TCplx
  | TSca, TMvec => Some TMvec
  | TVec, TVec => Some TVec
  | TVec, TBiv => Some TDplx
  | TVec, TTri => Some TImsp
  | TVec, TImsp => Some TImsp
  | TVec, TDplx => Some TDplx
  | TVec, TMvec => Some TMvec
  | TBiv, TSca => Some TSpin
  | TBiv, TVec => Some TDplx
  | TBiv, TBiv => Some TBiv
  | TBiv, TSpin => Some TSpin
  | TBiv, TDplx => Some TDplx
  | TBiv, TMvec => Some TMvec
  | TTri, TSca => Some TCplx
  | TTri, TVec => Some TImsp
  | TTri, TTri => Some TTri
  | TTri, TImsp => Some TImsp
  | TTri, TCplx => Some TCplx
  | TTri, TMvec => Some TMvec
  | TSpin, TSca => Some TSpin
  | TSpin, TBiv => Some TSpin
  | TSpin, TSpin => Some TSpin
  | TSpin, TImsp => Some TMvec
  | TSpin, TMvec => Some TMvec
  | TImsp, TVec => Some TImsp
  | TImsp, TTri => Some TImsp
  | TImsp, TSpin => Some TMvec
  | TImsp, TImsp => Some TImsp
  | TImsp, TMvec => Some TMvec
  | TCplx, TSca => Some TCplx
  | TCplx, TTri => Some TCplx
  | TCplx, TCplx => Some TCplx
  | TCplx, TDplx => Some TMvec
  | TCplx, TMvec => Some TMvec
  | TDplx, TVec => Some TDplx
  | TDplx, TBiv => Some TDplx
  | TDplx, TCplx => Some TMvec
  | TDplx, TDplx => Some TDplx
  | TDplx, TMvec => Some TMvec
  | TMvec, TSca => Some TMvec
  | TMvec, TVec => Some TMvec
  | TMvec, TBiv => Some TMvec
  | TMvec, TTri => Some TMvec
  | TMvec, TSpin => Some TMvec
  | TMvec, TImsp => Some TMvec
  | TMvec, TCplx => Some TMvec
  | TMvec, TDplx => Some TMvec
  | TMvec, TMvec => Some TMvec
  | _, _ => None
  end.

(** The overload set of binary [operator+]. *)
(** operator+ of the overloads in g3opsAdd_BiVector.hpp:58-123, g3opsAdd_ComPlex.hpp:59-122, g3opsAdd_DirPlex.hpp:62-118,
    g3opsAdd_ImSpin.hpp:61-117, g3opsAdd_MultiVector.hpp:65-148, g3opsAdd_Scalar.hpp:59-124,
    g3opsAdd_Spinor.hpp:58-121, g3opsAdd_TriVector.hpp:58-125, g3opsAdd_Vector.hpp:63-126,
    g3opsAdd_same.hpp:65-154 *)
Definition add (a b : ty) : val F a -> val F b -> oval F (addTy a b) :=
  match a, b return val F a -> val F b -> oval F (addTy a b) with
  | TDub, TDub => fun _ _ => tt
  | TDub, TSca => fun _ _ => tt
  | TDub, TVec => fun _ _ => tt
  | TDub, TBiv => fun _ _ => tt
  | TDub, TTri => fun _ _ => tt
  | TDub, TSpin => fun _ _ => tt
  | TDub, TImsp => fun _ _ => tt
  | TDub, TCplx => fun _ _ => tt
  | TDub, TDplx => fun _ _ => tt
  | TDub, TMvec => fun _ _ => tt
  | TSca, TDub => fun _ _ => tt
  | TSca, TSca => add_Sca_Sca
  | TSca, TVec => fun _ _ => tt
  | TSca, TBiv => add_Sca_Biv
  | TSca, TTri => add_Sca_Tri
  | TSca, TSpin => add_Sca_Spin
  | TSca, TImsp => fun _ _ => tt
  | TSca, TCplx => add_Sca_Cplx
  | TSca, TDplx => fun _ _ => tt
  | TSca, TMvec => add_Sca_Mvec
  | TVec, TDub => fun _ _ => tt
  | TVec, TSca => fun _ _ => tt
  | TVec, TVec => add_Vec_Vec
  | TVec, TBiv => add_Vec_Biv
  | TVec, TTri => add_Vec_Tri
  | TVec, TSpin => fun _ _ => tt
  | TVec, TImsp => add_Vec_Imsp
  | TVec, TCplx => fun _ _ => tt
  | TVec, TDplx => add_Vec_Dplx
  | TVec, TMvec => add_Vec_Mvec
  | TBiv, TDub => fun _ _ => tt
  | TBiv, TSca => add_Biv_Sca
  | TBiv, TVec => add_Biv_Vec
  | TBiv, TBiv => add_Biv_Biv
  | TBiv, TTri => fun _ _ => tt
  | TBiv, TSpin => add_Biv_Spin
  | TBiv, TImsp => fun _ _ => tt
  | TBiv, TCplx => fun _ _ => tt
  | TBiv, TDplx => add_Biv_Dplx
  | TBiv, TMvec => add_Biv_Mvec
  | TTri, TDub => fun _ _ => tt
  | TTri, TSca => add_Tri_Sca
  | TTri, TVec => add_Tri_Vec
  | TTri, TBiv => fun _ _ => tt
  | TTri, TTri => add_Tri_Tri
  | TTri, TSpin => fun _ _ => tt
  | TTri, TImsp => add_Tri_Imsp
  | TTri, TCplx => add_Tri_Cplx
  | TTri, TDplx => fun _ _ => tt
  | TTri, TMvec => add_Tri_Mvec
  | TSpin, TDub => fun _ _ => tt
  | TSpin, TSca => add_Spin_Sca
  | TSpin, TVec => fun _ _ => tt
  | TSpin, TBiv => add_Spin_Biv
  | TSpin, TTri => fun _ _ => tt
  | TSpin, TSpin => add_Spin_Spin
  | TSpin, TImsp => add_Spin_Imsp
  | TSpin, TCplx => fun _ _ => tt
  | TSpin, TDplx => fun _ _ => tt
  | TSpin, TMvec => add_Spin_Mvec
  | TImsp, TDub => fun _ _ => tt
  | TImsp, TSca => fun _ _ => tt
  | TImsp, TVec => add_Imsp_Vec
  | TImsp, TBiv => fun _ _ => tt
  | TImsp, TTri => add_Imsp_Tri
  | TImsp, TSpin => add_Imsp_Spin
  | TImsp, TImsp => add_Imsp_Imsp
  | TImsp, TCplx => fun _ _ => tt
  | TImsp, TDplx => fun _ _ => tt
  | TImsp, TMvec => add_Imsp_Mvec
  | TCplx, TDub => fun _ _ => tt
  | TCplx, TSca => add_Cplx_Sca
  | TCplx, TVec => fun _ _ => tt
  | TCplx, TBiv => fun _ _ => tt
  | TCplx, TTri => add_Cplx_Tri
  | TCplx, TSpin => fun _ _ => tt
  | TCplx, TImsp => fun _ _ => tt
  | TCplx, TCplx => add_Cplx_Cplx
  | TCplx, TDplx => add_Cplx_Dplx
  | TCplx, TMvec => add_Cplx_Mvec
  | TDplx, TDub => fun _ _ => tt
  | TDplx, TSca => fun _ _ => tt
  | TDplx, TVec => add_Dplx_Vec
  | TDplx, TBiv => add_Dplx_Biv
  | TDplx, TTri => fun _ _ => tt
  | TDplx, TSpin => fun _ _ => tt
  | TDplx, TImsp => fun _ _ => tt
  | TDplx, TCplx => add_Dplx_Cplx
  | TDplx, TDplx => add_Dplx_Dplx
  | TDplx, TMvec => add_Dplx_Mvec
  | TMvec, TDub => fun _ _ => tt
  | TMvec, TSca => add_Mvec_Sca
  | TMvec, TVec => add_Mvec_Vec
  | TMvec, TBiv => add_Mvec_Biv
  | TMvec, TTri => add_Mvec_Tri
  | TMvec, TSpin => add_Mvec_Spin
  | TMvec, TImsp => add_Mvec_Imsp
  | TMvec, TCplx => add_Mvec_Cplx
  | TMvec, TDplx => add_Mvec_Dplx
  | TMvec, TMvec => add_Mvec_Mvec
  end.
End Add.
