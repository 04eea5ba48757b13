(** * Model of include/g3opsSub*.hpp : binary operator-.

    One definition per C++ overload; local [const] variables become [let]. *)

Require Import Verif.Num Verif.Types Verif.Priv Verif.OpsUni.

Section Sub.
Context {F : Type} `{Ring0 F}.
Local Open Scope num_scope.

(** ** include/g3opsSub_same.hpp *)

(** g3opsSub_same.hpp:66-83, the blade template at [Scalar]; lambda [elemA-elemB]. *)
Definition sub_Sca_Sca (bladeA bladeB : Scalar F) : Scalar F :=
  mkSca (elementwise1 (fun elemA elemB => elemA - elemB)
    (scaData bladeA) (scaData bladeB)).

(** g3opsSub_same.hpp:66-83, the blade template at [Vector]; lambda [elemA-elemB]. *)
Definition sub_Vec_Vec (bladeA bladeB : Vector F) : Vector F :=
  mkVec (elementwise3 (fun elemA elemB => elemA - elemB)
    (vecData bladeA) (vecData bladeB)).

(** g3opsSub_same.hpp:66-83, the blade template at [BiVector]; lambda [elemA-elemB]. *)
Definition sub_Biv_Biv (bladeA bladeB : BiVector F) : BiVector F :=
  mkBiv (elementwise3 (fun elemA elemB => elemA - elemB)
    (bivData bladeA) (bivData bladeB)).

(** g3opsSub_same.hpp:66-83, the blade template at [TriVector]; lambda [elemA-elemB]. *)
Definition sub_Tri_Tri (bladeA bladeB : TriVector F) : TriVector F :=
  mkTri (elementwise1 (fun elemA elemB => elemA - elemB)
    (triData bladeA) (triData bladeB)).

(** g3opsSub_same.hpp:85-97 *)
Definition sub_Spin_Spin (spinA : Spinor F) (spinB : Spinor F) : Spinor F :=
  mkSpin
    (sub_Sca_Sca (spinSca spinA) (spinSca spinB))
    (sub_Biv_Biv (spinBiv spinA) (spinBiv spinB)).

(** g3opsSub_same.hpp:99-111 *)
Definition sub_Imsp_Imsp (imspA : ImSpin F) (imspB : ImSpin F) : ImSpin F :=
  mkImsp
    (sub_Vec_Vec (imspVec imspA) (imspVec imspB))
    (sub_Tri_Tri (imspTri imspA) (imspTri imspB)).

(** g3opsSub_same.hpp:113-125 *)
Definition sub_Cplx_Cplx (cplxA : ComPlex F) (cplxB : ComPlex F) : ComPlex F :=
  mkCplx
    (sub_Sca_Sca (cplxSca cplxA) (cplxSca cplxB))
    (sub_Tri_Tri (cplxTri cplxA) (cplxTri cplxB)).

(** g3opsSub_same.hpp:127-139 *)
Definition sub_Dplx_Dplx (dplxA : DirPlex F) (dplxB : DirPlex F) : DirPlex F :=
  mkDplx
    (sub_Vec_Vec (dplxVec dplxA) (dplxVec dplxB))
    (sub_Biv_Biv (dplxBiv dplxA) (dplxBiv dplxB)).

(** g3opsSub_same.hpp:141-155 *)
Definition sub_Mvec_Mvec (mvA : MultiVector F) (mvB : MultiVector F) : MultiVector F :=
  mkMvec
    (sub_Sca_Sca (mvSca mvA) (mvSca mvB))
    (sub_Vec_Vec (mvVec mvA) (mvVec mvB))
    (sub_Biv_Biv (mvBiv mvA) (mvBiv mvB))
    (sub_Tri_Tri (mvTri mvA) (mvTri mvB)).

(** ** include/g3opsSub_Scalar.hpp *)

(** g3opsSub_Scalar.hpp:57-66 *)
Definition sub_Sca_Biv (sca : Scalar F) (biv : BiVector F) : Spinor F :=
  mkSpin sca (neg_Biv biv).

(** g3opsSub_Scalar.hpp:68-77 *)
Definition sub_Sca_Tri (sca : Scalar F) (tri : TriVector F) : ComPlex F :=
  mkCplx sca (neg_Tri tri).

(** g3opsSub_Scalar.hpp:79-91 *)
Definition sub_Sca_Spin (sca : Scalar F) (spin : Spinor F) : Spinor F :=
  mkSpin (sub_Sca_Sca sca (spinSca spin)) (neg_Biv (spinBiv spin)).

(** g3opsSub_Scalar.hpp:95-107 *)
Definition sub_Sca_Cplx (sca : Scalar F) (cplx : ComPlex F) : ComPlex F :=
  mkCplx (sub_Sca_Sca sca (cplxSca cplx)) (neg_Tri (cplxTri cplx)).

(** g3opsSub_Scalar.hpp:111-125 *)
Definition sub_Sca_Mvec (sca : Scalar F) (mv : MultiVector F) : MultiVector F :=
  mkMvec
    (sub_Sca_Sca sca (mvSca mv))
    (neg_Vec (mvVec mv))
    (neg_Biv (mvBiv mv))
    (neg_Tri (mvTri mv)).

(** ** include/g3opsSub_Vector.hpp *)

(** g3opsSub_Vector.hpp:61-70 *)
Definition sub_Vec_Biv (vec : Vector F) (biv : BiVector F) : DirPlex F :=
  mkDplx vec (neg_Biv biv).

(** g3opsSub_Vector.hpp:72-81 *)
Definition sub_Vec_Tri (vec : Vector F) (tri : TriVector F) : ImSpin F :=
  mkImsp vec (neg_Tri tri).

(** g3opsSub_Vector.hpp:83-95 *)
Definition sub_Vec_Imsp (vec : Vector F) (imsp : ImSpin F) : ImSpin F :=
  mkImsp (sub_Vec_Vec vec (imspVec imsp)) (neg_Tri (imspTri imsp)).

(** g3opsSub_Vector.hpp:99-111 *)
Definition sub_Vec_Dplx (vec : Vector F) (dplx : DirPlex F) : DirPlex F :=
  mkDplx (sub_Vec_Vec vec (dplxVec dplx)) (neg_Biv (dplxBiv dplx)).

(** g3opsSub_Vector.hpp:113-127 *)
Definition sub_Vec_Mvec (vec : Vector F) (mv : MultiVector F) : MultiVector F :=
  mkMvec
    (neg_Sca (mvSca mv))
    (sub_Vec_Vec vec (mvVec mv))
    (neg_Biv (mvBiv mv))
    (neg_Tri (mvTri mv)).

(** ** include/g3opsSub_BiVector.hpp *)

(** g3opsSub_BiVector.hpp:56-65 *)
Definition sub_Biv_Sca (biv : BiVector F) (sca : Scalar F) : Spinor F :=
  sub_Sca_Biv sca biv.

(** g3opsSub_BiVector.hpp:67-76 *)
Definition sub_Biv_Vec (biv : BiVector F) (vec : Vector F) : DirPlex F :=
  sub_Vec_Biv vec biv.

(** g3opsSub_BiVector.hpp:86-95 *)
Definition sub_Biv_Spin (biv : BiVector F) (spin : Spinor F) : Spinor F :=
  mkSpin (neg_Sca (spinSca spin)) (sub_Biv_Biv biv (spinBiv spin)).

(** g3opsSub_BiVector.hpp:99-108 *)
Definition sub_Biv_Dplx (biv : BiVector F) (dplx : DirPlex F) : DirPlex F :=
  mkDplx (neg_Vec (dplxVec dplx)) (sub_Biv_Biv biv (dplxBiv dplx)).

(** g3opsSub_BiVector.hpp:110-124 *)
Definition sub_Biv_Mvec (biv : BiVector F) (mv : MultiVector F) : MultiVector F :=
  mkMvec
    (neg_Sca (mvSca mv))
    (neg_Vec (mvVec mv))
    (sub_Biv_Biv biv (mvBiv mv))
    (neg_Tri (mvTri mv)).

(** ** include/g3opsSub_TriVector.hpp *)

(** g3opsSub_TriVector.hpp:56-65 *)
Definition sub_Tri_Sca (tri : TriVector F) (sca : Scalar F) : ComPlex F :=
  sub_Sca_Tri sca tri.

(** g3opsSub_TriVector.hpp:67-76 *)
Definition sub_Tri_Vec (tri : TriVector F) (vec : Vector F) : ImSpin F :=
  sub_Vec_Tri vec tri.

(** g3opsSub_TriVector.hpp:88-97 *)
Definition sub_Tri_Imsp (tri : TriVector F) (imsp : ImSpin F) : ImSpin F :=
  mkImsp (neg_Vec (imspVec imsp)) (sub_Tri_Tri tri (imspTri imsp)).

(** g3opsSub_TriVector.hpp:99-108 *)
Definition sub_Tri_Cplx (tri : TriVector F) (cplx : ComPlex F) : ComPlex F :=
  mkCplx (neg_Sca (cplxSca cplx)) (sub_Tri_Tri tri (cplxTri cplx)).

(** g3opsSub_TriVector.hpp:112-126 *)
Definition sub_Tri_Mvec (tri : TriVector F) (mv : MultiVector F) : MultiVector F :=
  mkMvec
    (neg_Sca (mvSca mv))
    (neg_Vec (mvVec mv))
    (neg_Biv (mvBiv mv))
    (sub_Tri_Tri tri (mvTri mv)).

(** ** include/g3opsSub_Spinor.hpp *)

(** g3opsSub_Spinor.hpp:56-65 *)
Definition sub_Spin_Sca (spin : Spinor F) (sca : Scalar F) : Spinor F :=
  sub_Sca_Spin sca spin.

(** g3opsSub_Spinor.hpp:69-78 *)
Definition sub_Spin_Biv (spin : Spinor F) (biv : BiVector F) : Spinor F :=
  sub_Biv_Spin biv spin.

(** g3opsSub_Spinor.hpp:88-102 *)
Definition sub_Spin_Imsp (spin : Spinor F) (imsp : ImSpin F) : MultiVector F :=
  mkMvec
    (spinSca spin)
    (neg_Vec (imspVec imsp))
    (spinBiv spin)
    (neg_Tri (imspTri imsp)).

(** g3opsSub_Spinor.hpp:108-122 *)
Definition sub_Spin_Mvec (spin : Spinor F) (mv : MultiVector F) : MultiVector F :=
  mkMvec
    (sub_Sca_Sca (spinSca spin) (mvSca mv))
    (neg_Vec (mvVec mv))
    (sub_Biv_Biv (spinBiv spin) (mvBiv mv))
    (neg_Tri (mvTri mv)).

(** ** include/g3opsSub_ImSpin.hpp *)

(** g3opsSub_ImSpin.hpp:59-68 *)
Definition sub_Imsp_Vec (imsp : ImSpin F) (vec : Vector F) : ImSpin F :=
  neg_Imsp (sub_Vec_Imsp vec imsp).

(** g3opsSub_ImSpin.hpp:72-81 *)
Definition sub_Imsp_Tri (imsp : ImSpin F) (tri : TriVector F) : ImSpin F :=
  neg_Imsp (sub_Tri_Imsp tri imsp).

(** g3opsSub_ImSpin.hpp:83-92 *)
Definition sub_Imsp_Spin (imsp : ImSpin F) (spin : Spinor F) : MultiVector F :=
  neg_Mvec (sub_Spin_Imsp spin imsp).

(** g3opsSub_ImSpin.hpp:104-118 *)
Definition sub_Imsp_Mvec (imsp : ImSpin F) (mv : MultiVector F) : MultiVector F :=
  mkMvec
    (neg_Sca (mvSca mv))
    (sub_Vec_Vec (imspVec imsp) (mvVec mv))
    (neg_Biv (mvBiv mv))
    (sub_Tri_Tri (imspTri imsp) (mvTri mv)).

(** ** include/g3opsSub_ComPlex.hpp *)

(** g3opsSub_ComPlex.hpp:57-66 *)
Definition sub_Cplx_Sca (cplx : ComPlex F) (sca : Scalar F) : ComPlex F :=
  neg_Cplx (sub_Sca_Cplx sca cplx).

(** g3opsSub_ComPlex.hpp:72-81 *)
Definition sub_Cplx_Tri (cplx : ComPlex F) (tri : TriVector F) : ComPlex F :=
  neg_Cplx (sub_Tri_Cplx tri cplx).

(** g3opsSub_ComPlex.hpp:93-107 *)
Definition sub_Cplx_Dplx (cplx : ComPlex F) (dplx : DirPlex F) : MultiVector F :=
  mkMvec
    (cplxSca cplx)
    (neg_Vec (dplxVec dplx))
    (neg_Biv (dplxBiv dplx))
    (cplxTri cplx).

(** g3opsSub_ComPlex.hpp:109-123 *)
Definition sub_Cplx_Mvec (cplx : ComPlex F) (mv : MultiVector F) : MultiVector F :=
  mkMvec
    (sub_Sca_Sca (cplxSca cplx) (mvSca mv))
    (neg_Vec (mvVec mv))
    (neg_Biv (mvBiv mv))
    (sub_Tri_Tri (cplxTri cplx) (mvTri mv)).

(** ** include/g3opsSub_DirPlex.hpp *)

(** g3opsSub_DirPlex.hpp:60-69 *)
Definition sub_Dplx_Vec (dplx : DirPlex F) (vec : Vector F) : DirPlex F :=
  neg_Dplx (sub_Vec_Dplx vec dplx).

(** g3opsSub_DirPlex.hpp:71-80 *)
Definition sub_Dplx_Biv (dplx : DirPlex F) (biv : BiVector F) : DirPlex F :=
  neg_Dplx (sub_Biv_Dplx biv dplx).

(** g3opsSub_DirPlex.hpp:88-97 *)
Definition sub_Dplx_Cplx (dplx : DirPlex F) (cplx : ComPlex F) : MultiVector F :=
  neg_Mvec (sub_Cplx_Dplx cplx dplx).

(** g3opsSub_DirPlex.hpp:105-119 *)
Definition sub_Dplx_Mvec (dplx : DirPlex F) (mv : MultiVector F) : MultiVector F :=
  mkMvec
    (neg_Sca (mvSca mv))
    (sub_Vec_Vec (dplxVec dplx) (mvVec mv))
    (sub_Biv_Biv (dplxBiv dplx) (mvBiv mv))
    (neg_Tri (mvTri mv)).

(** ** include/g3opsSub_MultiVector.hpp *)

(** g3opsSub_MultiVector.hpp:63-72 *)
Definition sub_Mvec_Sca (mv : MultiVector F) (sca : Scalar F) : MultiVector F :=
  neg_Mvec (sub_Sca_Mvec sca mv).

(** g3opsSub_MultiVector.hpp:74-83 *)
Definition sub_Mvec_Vec (mv : MultiVector F) (vec : Vector F) : MultiVector F :=
  neg_Mvec (sub_Vec_Mvec vec mv).

(** g3opsSub_MultiVector.hpp:85-94 *)
Definition sub_Mvec_Biv (mv : MultiVector F) (biv : BiVector F) : MultiVector F :=
  neg_Mvec (sub_Biv_Mvec biv mv).

(** g3opsSub_MultiVector.hpp:96-105 *)
Definition sub_Mvec_Tri (mv : MultiVector F) (tri : TriVector F) : MultiVector F :=
  neg_Mvec (sub_Tri_Mvec tri mv).

(** g3opsSub_MultiVector.hpp:107-116 *)
Definition sub_Mvec_Spin (mv : MultiVector F) (spin : Spinor F) : MultiVector F :=
  neg_Mvec (sub_Spin_Mvec spin mv).

(** g3opsSub_MultiVector.hpp:118-127 *)
Definition sub_Mvec_Imsp (mv : MultiVector F) (imsp : ImSpin F) : MultiVector F :=
  neg_Mvec (sub_Imsp_Mvec imsp mv).

(** g3opsSub_MultiVector.hpp:129-138 *)
Definition sub_Mvec_Cplx (mv : MultiVector F) (cplx : ComPlex F) : MultiVector F :=
  neg_Mvec (sub_Cplx_Mvec cplx mv).

(** g3opsSub_MultiVector.hpp:140-149 *)
Definition sub_Mvec_Dplx (mv : MultiVector F) (dplx : DirPlex F) : MultiVector F :=
  neg_Mvec (sub_Dplx_Mvec dplx mv).

(** Result type of [A - B]; [None] where no overload exists (such an
    expression does not compile).  Built-in [double] arithmetic is not listed. *)
(** return types of g3opsSub_BiVector.hpp:59-124, g3opsSub_ComPlex.hpp:60-123, g3opsSub_DirPlex.hpp:63-119,
    g3opsSub_ImSpin.hpp:62-118, g3opsSub_MultiVector.hpp:66-149, g3opsSub_Scalar.hpp:60-125,
    g3opsSub_Spinor.hpp:59-122, g3opsSub_TriVector.hpp:59-126, g3opsSub_Vector.hpp:64-127,
    g3opsSub_same.hpp:72-155 *)
Definition subTy (a b : ty) : option ty :=
  match a, b with
  | TSca, TSca => Some TSca
  | TSca, TBiv => Some TSpin
  | TSca, TTri => Some TCplx
  | TSca, TSpin => Some TSpin
  | TSca, TCplx => Some TCplx
  | TSca, TMvec => Some TMvec
  | TVec, TVec => Some TVec
  | TVec, TBiv => Some TDplx
  | TVec, TTri => Some TImsp
  | TVec, TImsp => Some TImsp
  | TVec, TDplx => Some TDplx
  | TVec, TMvec => Some TMvec
  | TBiv, TSca => Some TSpin
  | TBiv, TVec => Some TDplx
  | TBiv, TBiv => Some TBiv
  | TBiv, TSpin => Some TSpin
  | TBiv, TDplx => Some TDplx
  | TBiv, TMvec => Some TMvec
  | TTri, TSca => Some TCplx
  | TTri, TVec => Some TImsp
  | TTri, TTri => Some TTri
  | TTri, TImsp => Some TImsp
  | TTri, TCplx => Some TCplx
  | TTri, TMvec => Some TMvec
  | TSpin, TSca => Some TSpin
  | TSpin, TBiv => Some TSpin
  | TSpin, TSpin => Some TSpin
  | TSpin, TImsp => Some TMvec
  | TSpin, TMvec => Some TMvec
  | TImsp, TVec => Some TImsp
  | TImsp, TTri => Some TImsp
  | TImsp, TSpin => Some TMvec
  | TImsp, TImsp => Some TImsp
  | TImsp, TMvec => Some TMvec
  | TCplx, TSca => Some TCplx
  | TCplx, TTri => Some TCplx
  | TCplx, TCplx => Some TCplx
  | TCplx, TDplx => Some TMvec
  | TCplx, TMvec => Some TMvec
  | TDplx, TVec => Some TDplx
  | TDplx, TBiv => Some TDplx
  | TDplx, TCplx => Some TMvec
  | TDplx, TDplx => Some TDplx
  | TDplx, TMvec => Some TMvec
  | TMvec, TSca => Some TMvec
  | TMvec, TVec => Some TMvec
  | TMvec, TBiv => Some TMvec
  | TMvec, TTri => Some TMvec
  | TMvec, TSpin => Some TMvec
  | TMvec, TImsp => Some TMvec
  | TMvec, TCplx => Some TMvec
  | TMvec, TDplx => Some TMvec
  | TMvec, TMvec => Some TMvec
  | _, _ => None
  end.

(** The overload set of binary [operator-]. *)
(** binary operator- of the overloads in g3opsSub_BiVector.hpp:59-124, g3opsSub_ComPlex.hpp:60-123, g3opsSub_DirPlex.hpp:63-119,
    g3opsSub_ImSpin.hpp:62-118, g3opsSub_MultiVector.hpp:66-149, g3opsSub_Scalar.hpp:60-125,
    g3opsSub_Spinor.hpp:59-122, g3opsSub_TriVector.hpp:59-126, g3opsSub_Vector.hpp:64-127,
    g3opsSub_same.hpp:72-155 *)
Definition sub (a b : ty) : val F a -> val F b -> oval F (subTy a b) :=
  match a, b return val F a -> val F b -> oval F (subTy a b) with
  | TDub, TDub => fun _ _ => tt
  | TDub, TSca => fun _ _ => tt
  | TDub, TVec => fun _ _ => tt
  | TDub, TBiv => fun _ _ => tt
  | TDub, TTri => fun _ _ => tt
  | TDub, TSpin => fun _ _ => tt
  | TDub, TImsp => fun _ _ => tt
  | TDub, TCplx => fun _ _ => tt
  | TDub, TDplx => fun _ _ => tt
  | TDub, TMvec => fun _ _ => tt
  | TSca, TDub => fun _ _ => tt
  | TSca, TSca => sub_Sca_Sca
  | TSca, TVec => fun _ _ => tt
  | TSca, TBiv => sub_Sca_Biv
  | TSca, TTri => sub_Sca_Tri
  | TSca, TSpin => sub_Sca_Spin
  | TSca, TImsp => fun _ _ => tt
  | TSca, TCplx => sub_Sca_Cplx
  | TSca, TDplx => fun _ _ => tt
  | TSca, TMvec => sub_Sca_Mvec
  | TVec, TDub => fun _ _ => tt
  | TVec, TSca => fun _ _ => tt
  | TVec, TVec => sub_Vec_Vec
  | TVec, TBiv => sub_Vec_Biv
  | TVec, TTri => sub_Vec_Tri
  | TVec, TSpin => fun _ _ => tt
  | TVec, TImsp => sub_Vec_Imsp
  | TVec, TCplx => fun _ _ => tt
  | TVec, TDplx => sub_Vec_Dplx
  | TVec, TMvec => sub_Vec_Mvec
  | TBiv, TDub => fun _ _ => tt
  | TBiv, TSca => sub_Biv_Sca
  | TBiv, TVec => sub_Biv_Vec
  | TBiv, TBiv => sub_Biv_Biv
  | TBiv, TTri => fun _ _ => tt
  | TBiv, TSpin => sub_Biv_Spin
  | TBiv, TImsp => fun _ _ => tt
  | TBiv, TCplx => fun _ _ => tt
  | TBiv, TDplx => sub_Biv_Dplx
  | TBiv, TMvec => sub_Biv_Mvec
  | TTri, TDub => fun _ _ => tt
  | TTri, TSca => sub_Tri_Sca
  | TTri, TVec => sub_Tri_Vec
  | TTri, TBiv => fun _ _ => tt
  | TTri, TTri => sub_Tri_Tri
  | TTri, TSpin => fun _ _ => tt
  | TTri, TImsp => sub_Tri_Imsp
  | TTri, TCplx => sub_Tri_Cplx
  | TTri, TDplx => fun _ _ => tt
  | TTri, TMvec => sub_Tri_Mvec
  | TSpin, TDub => fun _ _ => tt
  | TSpin, TSca => sub_Spin_Sca
  | TSpin, TVec => fun _ _ => tt
  | TSpin, TBiv => sub_Spin_Biv
  | TSpin, TTri => fun _ _ => tt
  | TSpin, TSpin => sub_Spin_Spin
  | TSpin, TImsp => sub_Spin_Imsp
  | TSpin, TCplx => fun _ _ => tt
  | TSpin, TDplx => fun _ _ => tt
  | TSpin, TMvec => sub_Spin_Mvec
  | TImsp, TDub => fun _ _ => tt
  | TImsp, TSca => fun _ _ => tt
  | TImsp, TVec => sub_Imsp_Vec
  | TImsp, TBiv => fun _ _ => tt
  | TImsp, TTri => sub_Imsp_Tri
  | TImsp, TSpin => sub_Imsp_Spin
  | TImsp, TImsp => sub_Imsp_Imsp
  | TImsp, TCplx => fun _ _ => tt
  | TImsp, TDplx => fun _ _ => tt
  | TImsp, TMvec => sub_Imsp_Mvec
  | TCplx, TDub => fun _ _ => tt
  | TCplx, TSca => sub_Cplx_Sca
  | TCplx, TVec => fun _ _ => tt
  | TCplx, TBiv => fun _ _ => tt
  | TCplx, TTri => sub_Cplx_Tri
  | TCplx, TSpin => fun _ _ => tt
  | TCplx, TImsp => fun _ _ => tt
  | TCplx, TCplx => sub_Cplx_Cplx
  | TCplx, TDplx => sub_Cplx_Dplx
  | TCplx, TMvec => sub_Cplx_Mvec
  | TDplx, TDub => fun _ _ => tt
  | TDplx, TSca => fun _ _ => tt
  | TDplx, TVec => sub_Dplx_Vec
  | TDplx, TBiv => sub_Dplx_Biv
  | TDplx, TTri => fun _ _ => tt
  | TDplx, TSpin => fun _ _ => tt
  | TDplx, TImsp => fun _ _ => tt
  | TDplx, TCplx => sub_Dplx_Cplx
  | TDplx, TDplx => sub_Dplx_Dplx
  | TDplx, TMvec => sub_Dplx_Mvec
  | TMvec, TDub => fun _ _ => tt
  | TMvec, TSca => sub_Mvec_Sca
  | TMvec, TVec => sub_Mvec_Vec
  | TMvec, TBiv => sub_Mvec_Biv
  | TMvec, TTri => sub_Mvec_Tri
  | TMvec, TSpin => sub_Mvec_Spin
  | TMvec, TImsp => sub_Mvec_Imsp
  | TMvec, TCplx => sub_Mvec_Cplx
  | TMvec, TDplx => sub_Mvec_Dplx
  | TMvec, TMvec => sub_Mvec_Mvec
  end.
End Sub.
