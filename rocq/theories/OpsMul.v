(** * Model of include/g3opsMul*.hpp : binary operator*.

    One definition per C++ overload; local [const] variables become [let]. *)

Require Import Verif.Num Verif.Types Verif.Priv
  Verif.OpsUni Verif.OpsAdd Verif.OpsSub.

Section Mul.
Context {F : Type} `{Ring0 F}.
Local Open Scope num_scope.

(** ** include/g3opsMul_double.hpp *)

(** g3opsMul_double.hpp:68-76 *)
Definition mul_Dub_Sca (dubA : F) (scaB : Scalar F) : Scalar F :=
  Sca (dubA * sca_0 scaB).

(** g3opsMul_double.hpp:84-96 *)
Definition mul_Dub_Vec (dubA : F) (vecB : Vector F) : Vector F :=
  Vec (dubA * vec_0 vecB) (dubA * vec_1 vecB) (dubA * vec_2 vecB).

(** g3opsMul_double.hpp:104-116 *)
Definition mul_Dub_Biv (dubA : F) (bivB : BiVector F) : BiVector F :=
  Biv (dubA * biv_0 bivB) (dubA * biv_1 bivB) (dubA * biv_2 bivB).

(** g3opsMul_double.hpp:124-132 *)
Definition mul_Dub_Tri (dubA : F) (triB : TriVector F) : TriVector F :=
  Tri (dubA * tri_0 triB).

(** g3opsMul_double.hpp:140-156 *)
Definition mul_Dub_Spin (dubA : F) (spinB : Spinor F) : Spinor F :=
  mkSpin
    (Sca (dubA * (sca_0 (spinSca spinB))))
    (Biv (dubA * (biv_0 (spinBiv spinB))) (dubA * (biv_1 (spinBiv spinB))) (dubA * (biv_2 (spinBiv spinB)))).

(** g3opsMul_double.hpp:164-180 *)
Definition mul_Dub_Imsp (dubA : F) (imspB : ImSpin F) : ImSpin F :=
  mkImsp
    (Vec (dubA * (vec_0 (imspVec imspB))) (dubA * (vec_1 (imspVec imspB))) (dubA * (vec_2 (imspVec imspB))))
    (Tri (dubA * (tri_0 (imspTri imspB)))).

(** g3opsMul_double.hpp:188-199 *)
Definition mul_Dub_Cplx (dubA : F) (cplxB : ComPlex F) : ComPlex F :=
  mkCplx
    (Sca (dubA * (sca_0 (cplxSca cplxB))))
    (Tri (dubA * (tri_0 (cplxTri cplxB)))).

(** g3opsMul_double.hpp:207-226 *)
Definition mul_Dub_Dplx (dubA : F) (dplxB : DirPlex F) : DirPlex F :=
  mkDplx
    (Vec (dubA * (vec_0 (dplxVec dplxB))) (dubA * (vec_1 (dplxVec dplxB))) (dubA * (vec_2 (dplxVec dplxB))))
    (Biv (dubA * (biv_0 (dplxBiv dplxB))) (dubA * (biv_1 (dplxBiv dplxB))) (dubA * (biv_2 (dplxBiv dplxB)))).

(** g3opsMul_double.hpp:234-257 *)
Definition mul_Dub_Mvec (dubA : F) (mvB : MultiVector F) : MultiVector F :=
  mkMvec
    (Sca (dubA * (sca_0 (mvSca mvB))))
    (Vec (dubA * (vec_0 (mvVec mvB))) (dubA * (vec_1 (mvVec mvB))) (dubA * (vec_2 (mvVec mvB))))
    (Biv (dubA * (biv_0 (mvBiv mvB))) (dubA * (biv_1 (mvBiv mvB))) (dubA * (biv_2 (mvBiv mvB))))
    (Tri (dubA * (tri_0 (mvTri mvB)))).

(** ** include/g3opsMul_Scalar.hpp *)

(** g3opsMul_Scalar.hpp:60-68 *)
Definition mul_Sca_Dub (scaA : Scalar F) (dubB : F) : Scalar F :=
  mul_Dub_Sca dubB scaA.

(** g3opsMul_Scalar.hpp:80-88 *)
Definition mul_Sca_Sca (scaA : Scalar F) (scaB : Scalar F) : Scalar F :=
  Sca (sca_0 scaA * sca_0 scaB).

(** g3opsMul_Scalar.hpp:100-112 *)
Definition mul_Sca_Vec (scaA : Scalar F) (vecB : Vector F) : Vector F :=
  Vec
    (sca_0 scaA * vec_0 vecB)
    (sca_0 scaA * vec_1 vecB)
    (sca_0 scaA * vec_2 vecB).

(** g3opsMul_Scalar.hpp:120-132 *)
Definition mul_Sca_Biv (scaA : Scalar F) (bivB : BiVector F) : BiVector F :=
  Biv
    (sca_0 scaA * biv_0 bivB)
    (sca_0 scaA * biv_1 bivB)
    (sca_0 scaA * biv_2 bivB).

(** g3opsMul_Scalar.hpp:140-148 *)
Definition mul_Sca_Tri (scaA : Scalar F) (triB : TriVector F) : TriVector F :=
  Tri (sca_0 scaA * tri_0 triB).

(** g3opsMul_Scalar.hpp:156-172 *)
Definition mul_Sca_Spin (scaA : Scalar F) (spinB : Spinor F) : Spinor F :=
  mkSpin
    (Sca (sca_0 scaA * (sca_0 (spinSca spinB))))
    (Biv (sca_0 scaA * (biv_0 (spinBiv spinB))) (sca_0 scaA * (biv_1 (spinBiv spinB))) (sca_0 scaA * (biv_2 (spinBiv spinB)))).

(** g3opsMul_Scalar.hpp:180-196 *)
Definition mul_Sca_Imsp (scaA : Scalar F) (imspB : ImSpin F) : ImSpin F :=
  mkImsp
    (Vec (sca_0 scaA * (vec_0 (imspVec imspB))) (sca_0 scaA * (vec_1 (imspVec imspB))) (sca_0 scaA * (vec_2 (imspVec imspB))))
    (Tri (sca_0 scaA * (tri_0 (imspTri imspB)))).

(** g3opsMul_Scalar.hpp:204-215 *)
Definition mul_Sca_Cplx (scaA : Scalar F) (cplxB : ComPlex F) : ComPlex F :=
  mkCplx
    (Sca (sca_0 scaA * (sca_0 (cplxSca cplxB))))
    (Tri (sca_0 scaA * (tri_0 (cplxTri cplxB)))).

(** g3opsMul_Scalar.hpp:223-242 *)
Definition mul_Sca_Dplx (scaA : Scalar F) (dplxB : DirPlex F) : DirPlex F :=
  mkDplx
    (Vec (sca_0 scaA * (vec_0 (dplxVec dplxB))) (sca_0 scaA * (vec_1 (dplxVec dplxB))) (sca_0 scaA * (vec_2 (dplxVec dplxB))))
    (Biv (sca_0 scaA * (biv_0 (dplxBiv dplxB))) (sca_0 scaA * (biv_1 (dplxBiv dplxB))) (sca_0 scaA * (biv_2 (dplxBiv dplxB)))).

(** g3opsMul_Scalar.hpp:250-273 *)
Definition mul_Sca_Mvec (scaA : Scalar F) (mvB : MultiVector F) : MultiVector F :=
  mkMvec
    (Sca (sca_0 scaA * (sca_0 (mvSca mvB))))
    (Vec (sca_0 scaA * (vec_0 (mvVec mvB))) (sca_0 scaA * (vec_1 (mvVec mvB))) (sca_0 scaA * (vec_2 (mvVec mvB))))
    (Biv (sca_0 scaA * (biv_0 (mvBiv mvB))) (sca_0 scaA * (biv_1 (mvBiv mvB))) (sca_0 scaA * (biv_2 (mvBiv mvB))))
    (Tri (sca_0 scaA * (tri_0 (mvTri mvB)))).

(** ** include/g3opsMul_Vector.hpp *)

(** g3opsMul_Vector.hpp:65-73 *)
Definition mul_Vec_Dub (vecA : Vector F) (dubB : F) : Vector F :=
  mul_Dub_Vec dubB vecA.

(** g3opsMul_Vector.hpp:81-89 *)
Definition mul_Vec_Sca (vecA : Vector F) (scaB : Scalar F) : Vector F :=
  mul_Sca_Vec scaB vecA.

(** g3opsMul_Vector.hpp:101-111 *)
Definition mul_Vec_Vec (vecA : Vector F) (vecB : Vector F) : Spinor F :=
  let dot := Sca (prodComm3 (vecData vecA) (vecData vecB)) in
  let wedge := mkBiv (prodAnti (vecData vecA) (vecData vecB)) in
  mkSpin dot wedge.

(** g3opsMul_Vector.hpp:123-134 *)
Definition mul_Vec_Biv (vecA : Vector F) (bivB : BiVector F) : ImSpin F :=
  let v1 := mkVec (prodAnti (vecData vecA) (bivData bivB)) in
  let t1 := Tri (prodComm3 (vecData vecA) (bivData bivB)) in
  mkImsp (neg_Vec v1) t1.

(** g3opsMul_Vector.hpp:142-155 *)
Definition mul_Vec_Tri (vecA : Vector F) (triB : TriVector F) : BiVector F :=
  Biv
    (tri_0 triB * vec_0 vecA)
    (tri_0 triB * vec_1 vecA)
    (tri_0 triB * vec_2 vecA).

(** g3opsMul_Vector.hpp:163-180 *)
Definition mul_Vec_Spin (vecA : Vector F) (spinB : Spinor F) : ImSpin F :=
  let v1 :=
    Vec ((sca_0 (spinSca spinB)) * vec_0 vecA) ((sca_0 (spinSca spinB)) * vec_1 vecA) ((sca_0 (spinSca spinB)) * vec_2 vecA) in
  let v2 := mkVec (prodAnti (vecData vecA) (bivData (spinBiv spinB))) in
  let t2 := Tri (prodComm3 (vecData vecA) (bivData (spinBiv spinB))) in
  mkImsp (add_Vec_Vec (neg_Vec v2) v1) t2.

(** g3opsMul_Vector.hpp:188-215 *)
Definition mul_Vec_Imsp (vecA : Vector F) (imspB : ImSpin F) : Spinor F :=
  let v1 := vecA in
  let v2 := imspVec imspB in
  let t2 := imspTri imspB in
  let sca_v1v2 := Sca (prodComm3 (vecData v1) (vecData v2)) in
  let biv_v1v2 := mkBiv (prodAnti (vecData v1) (vecData v2)) in
  let biv_v1t2 := Biv (vec_0 v1 * tri_0 t2) (vec_1 v1 * tri_0 t2) (vec_2 v1 * tri_0 t2) in
  mkSpin
    sca_v1v2
    (Biv (biv_0 biv_v1v2 + biv_0 biv_v1t2) (biv_1 biv_v1v2 + biv_1 biv_v1t2) (biv_2 biv_v1v2 + biv_2 biv_v1t2)).

(** g3opsMul_Vector.hpp:223-242 *)
Definition mul_Vec_Cplx (vecA : Vector F) (mvB : ComPlex F) : DirPlex F :=
  mkDplx
    (Vec (vec_0 vecA * (sca_0 (cplxSca mvB))) (vec_1 vecA * (sca_0 (cplxSca mvB))) (vec_2 vecA * (sca_0 (cplxSca mvB))))
    (Biv (vec_0 vecA * (tri_0 (cplxTri mvB))) (vec_1 vecA * (tri_0 (cplxTri mvB))) (vec_2 vecA * (tri_0 (cplxTri mvB)))).

(** g3opsMul_Vector.hpp:250-272 *)
Definition mul_Vec_Dplx (vecA : Vector F) (dplxB : DirPlex F) : MultiVector F :=
  let v1 := vecA in
  let v2 := dplxVec dplxB in
  let b2 := dplxBiv dplxB in
  let sca_v1v2 := Sca (prodComm3 (vecData v1) (vecData v2)) in
  let biv_v1v2 := mkBiv (prodAnti (vecData v1) (vecData v2)) in
  let vec_v1b2 := mkVec (prodAnti (vecData v1) (bivData b2)) in
  let tri_v1b2 := Tri (prodComm3 (vecData v1) (bivData b2)) in
  mkMvec sca_v1v2 (neg_Vec vec_v1b2) biv_v1v2 tri_v1b2.

(** g3opsMul_Vector.hpp:280-317 *)
Definition mul_Vec_Mvec (vecA : Vector F) (mvB : MultiVector F) : MultiVector F :=
  let vec1 :=
    Vec (vec_0 vecA * (sca_0 (mvSca mvB))) (vec_1 vecA * (sca_0 (mvSca mvB))) (vec_2 vecA * (sca_0 (mvSca mvB))) in
  let biv1 :=
    Biv (vec_0 vecA * (tri_0 (mvTri mvB))) (vec_1 vecA * (tri_0 (mvTri mvB))) (vec_2 vecA * (tri_0 (mvTri mvB))) in
  let spin1 :=
    mkSpin (Sca (prodComm3 (vecData vecA) (vecData (mvVec mvB)))) (mkBiv (prodAnti (vecData vecA) (vecData (mvVec mvB)))) in
  let imsp1 :=
    mkImsp (mkVec (prodAnti (vecData vecA) (bivData (mvBiv mvB)))) (Tri (prodComm3 (vecData vecA) (bivData (mvBiv mvB)))) in
  mkMvec
    (spinSca spin1)
    (add_Vec_Vec vec1 (neg_Vec (imspVec imsp1)))
    (add_Biv_Biv biv1 (spinBiv spin1))
    (imspTri imsp1).

(** ** include/g3opsMul_BiVector.hpp *)

(** g3opsMul_BiVector.hpp:66-74 *)
Definition mul_Biv_Dub (bivA : BiVector F) (dubB : F) : BiVector F :=
  mul_Dub_Biv dubB bivA.

(** g3opsMul_BiVector.hpp:82-90 *)
Definition mul_Biv_Sca (bivA : BiVector F) (scaB : Scalar F) : BiVector F :=
  mul_Sca_Biv scaB bivA.

(** g3opsMul_BiVector.hpp:98-109 *)
Definition mul_Biv_Vec (bivA : BiVector F) (vecB : Vector F) : ImSpin F :=
  let anti := mkVec (prodAnti (bivData bivA) (vecData vecB)) in
  let symm := Tri (prodComm3 (bivData bivA) (vecData vecB)) in
  mkImsp (neg_Vec anti) symm.

(** g3opsMul_BiVector.hpp:121-140 *)
Definition mul_Biv_Biv (bivA : BiVector F) (bivB : BiVector F) : Spinor F :=
  let symm := Sca (prodComm3 (bivData bivA) (bivData bivB)) in
  let anti := mkBiv (prodAnti (bivData bivA) (bivData bivB)) in
  mkSpin
    (Sca (- sca_0 symm))
    (Biv (- biv_0 anti) (- biv_1 anti) (- biv_2 anti)).

(** g3opsMul_BiVector.hpp:152-165 *)
Definition mul_Biv_Tri (bivA : BiVector F) (triB : TriVector F) : Vector F :=
  Vec
    ((- tri_0 triB) * biv_0 bivA)
    ((- tri_0 triB) * biv_1 bivA)
    ((- tri_0 triB) * biv_2 bivA).

(** g3opsMul_BiVector.hpp:173-200 *)
Definition mul_Biv_Spin (bivA : BiVector F) (spinB : Spinor F) : Spinor F :=
  let b1 := bivA in
  let s2 := sca_0 (spinSca spinB) in
  let b2 := spinBiv spinB in
  let biv_b1s2 := Biv (biv_0 b1 * s2) (biv_1 b1 * s2) (biv_2 b1 * s2) in
  let sca_b1b2 := Sca (prodComm3 (bivData b1) (bivData b2)) in
  let biv_b1b2 := mkBiv (prodAnti (bivData b1) (bivData b2)) in
  mkSpin
    (neg_Sca sca_b1b2)
    (Biv (biv_0 biv_b1s2 - biv_0 biv_b1b2) (biv_1 biv_b1s2 - biv_1 biv_b1b2) (biv_2 biv_b1s2 - biv_2 biv_b1b2)).

(** g3opsMul_BiVector.hpp:208-235 *)
Definition mul_Biv_Imsp (bivA : BiVector F) (imspB : ImSpin F) : ImSpin F :=
  let b1 := bivA in
  let v2 := imspVec imspB in
  let t2 := imspTri imspB in
  let vec_b1v2 := mkVec (prodAnti (bivData b1) (vecData v2)) in
  let tri_b1v2 := Tri (prodComm3 (bivData b1) (vecData v2)) in
  let vec_b1t2 :=
    Vec ((- biv_0 b1) * tri_0 t2) ((- biv_1 b1) * tri_0 t2) ((- biv_2 b1) * tri_0 t2) in
  mkImsp
    (Vec (vec_0 vec_b1t2 - vec_0 vec_b1v2) (vec_1 vec_b1t2 - vec_1 vec_b1v2) (vec_2 vec_b1t2 - vec_2 vec_b1v2))
    tri_b1v2.

(** g3opsMul_BiVector.hpp:243-269 *)
Definition mul_Biv_Cplx (bivA : BiVector F) (cplxB : ComPlex F) : DirPlex F :=
  let b1 := bivA in
  let s2 := cplxSca cplxB in
  let t2 := cplxTri cplxB in
  let biv_b1s2 := Biv (biv_0 b1 * sca_0 s2) (biv_1 b1 * sca_0 s2) (biv_2 b1 * sca_0 s2) in
  let vec_b1t2 :=
    Vec ((- biv_0 b1) * tri_0 t2) ((- biv_1 b1) * tri_0 t2) ((- biv_2 b1) * tri_0 t2) in
  mkDplx vec_b1t2 biv_b1s2.

(** g3opsMul_BiVector.hpp:277-309 *)
Definition mul_Biv_Dplx (bivA : BiVector F) (dplxB : DirPlex F) : MultiVector F :=
  let b1 := bivA in
  let v2 := dplxVec dplxB in
  let b2 := dplxBiv dplxB in
  let tri_b1v2 := Tri (prodComm3 (bivData b1) (vecData v2)) in
  let vec_b1v2 := mkVec (prodAnti (bivData b1) (vecData v2)) in
  let sca_b1b2 := Sca (prodComm3 (bivData b1) (bivData b2)) in
  let biv_b1b2 := mkBiv (prodAnti (bivData b1) (bivData b2)) in
  mkMvec
    (Sca (- sca_0 sca_b1b2))
    (Vec (- vec_0 vec_b1v2) (- vec_1 vec_b1v2) (- vec_2 vec_b1v2))
    (Biv (- biv_0 biv_b1b2) (- biv_1 biv_b1b2) (- biv_2 biv_b1b2))
    (Tri (tri_0 tri_b1v2)).

(** g3opsMul_BiVector.hpp:317-363 *)
Definition mul_Biv_Mvec (bivA : BiVector F) (mvB : MultiVector F) : MultiVector F :=
  let b1 := bivA in
  let s2 := mvSca mvB in
  let v2 := mvVec mvB in
  let b2 := mvBiv mvB in
  let t2 := mvTri mvB in
  let biv_b1s2 := Biv (biv_0 b1 * sca_0 s2) (biv_1 b1 * sca_0 s2) (biv_2 b1 * sca_0 s2) in
  let vec_b1v2 := mkVec (prodAnti (bivData b1) (vecData v2)) in
  let tri_b1v2 := Tri (prodComm3 (bivData b1) (vecData v2)) in
  let sca_b1b2 := Sca (prodComm3 (bivData b1) (bivData b2)) in
  let biv_b1b2 := mkBiv (prodAnti (bivData b1) (bivData b2)) in
  let vec_b1t2 :=
    Vec ((- biv_0 b1) * tri_0 t2) ((- biv_1 b1) * tri_0 t2) ((- biv_2 b1) * tri_0 t2) in
  mkMvec
    (Sca (- sca_0 sca_b1b2))
    (Vec (vec_0 vec_b1t2 - vec_0 vec_b1v2) (vec_1 vec_b1t2 - vec_1 vec_b1v2) (vec_2 vec_b1t2 - vec_2 vec_b1v2))
    (Biv (biv_0 biv_b1s2 - biv_0 biv_b1b2) (biv_1 biv_b1s2 - biv_1 biv_b1b2) (biv_2 biv_b1s2 - biv_2 biv_b1b2))
    (Tri (tri_0 tri_b1v2)).

(** ** include/g3opsMul_TriVector.hpp *)

(** g3opsMul_TriVector.hpp:67-75 *)
Definition mul_Tri_Dub (triA : TriVector F) (dubB : F) : TriVector F :=
  Tri (dubB * tri_0 triA).

(** g3opsMul_TriVector.hpp:83-92 *)
Definition mul_Tri_Sca (triA : TriVector F) (scaB : Scalar F) : TriVector F :=
  Tri (sca_0 scaB * tri_0 triA).

(** g3opsMul_TriVector.hpp:100-109 *)
Definition mul_Tri_Vec (triA : TriVector F) (vecB : Vector F) : BiVector F :=
  mul_Vec_Tri vecB triA.

(** g3opsMul_TriVector.hpp:117-126 *)
Definition mul_Tri_Biv (triA : TriVector F) (bivB : BiVector F) : Vector F :=
  mul_Biv_Tri bivB triA.

(** g3opsMul_TriVector.hpp:138-150 *)
Definition mul_Tri_Tri (triA : TriVector F) (triB : TriVector F) : Scalar F :=
  Sca ((- tri_0 triA) * tri_0 triB).

(** g3opsMul_TriVector.hpp:162-179 *)
Definition mul_Tri_Spin (triA : TriVector F) (spinB : Spinor F) : ImSpin F :=
  mkImsp
    (Vec ((- tri_0 triA) * (biv_0 (spinBiv spinB))) ((- tri_0 triA) * (biv_1 (spinBiv spinB))) ((- tri_0 triA) * (biv_2 (spinBiv spinB))))
    (Tri (tri_0 triA * (sca_0 (spinSca spinB)))).

(** g3opsMul_TriVector.hpp:187-203 *)
Definition mul_Tri_Imsp (triA : TriVector F) (imspB : ImSpin F) : Spinor F :=
  mkSpin
    (Sca ((- tri_0 triA) * (tri_0 (imspTri imspB))))
    (Biv (tri_0 triA * (vec_0 (imspVec imspB))) (tri_0 triA * (vec_1 (imspVec imspB))) (tri_0 triA * (vec_2 (imspVec imspB)))).

(** g3opsMul_TriVector.hpp:211-222 *)
Definition mul_Tri_Cplx (triA : TriVector F) (cplx : ComPlex F) : ComPlex F :=
  mkCplx
    (Sca ((- tri_0 triA) * (tri_0 (cplxTri cplx))))
    (Tri (tri_0 triA * (sca_0 (cplxSca cplx)))).

(** g3opsMul_TriVector.hpp:230-249 *)
Definition mul_Tri_Dplx (triA : TriVector F) (dplx : DirPlex F) : DirPlex F :=
  mkDplx
    (Vec ((- tri_0 triA) * (biv_0 (dplxBiv dplx))) ((- tri_0 triA) * (biv_1 (dplxBiv dplx))) ((- tri_0 triA) * (biv_2 (dplxBiv dplx))))
    (Biv (tri_0 triA * (vec_0 (dplxVec dplx))) (tri_0 triA * (vec_1 (dplxVec dplx))) (tri_0 triA * (vec_2 (dplxVec dplx)))).

(** g3opsMul_TriVector.hpp:257-281 *)
Definition mul_Tri_Mvec (triA : TriVector F) (mvB : MultiVector F) : MultiVector F :=
  mkMvec
    (Sca ((- tri_0 triA) * (tri_0 (mvTri mvB))))
    (Vec ((- tri_0 triA) * (biv_0 (mvBiv mvB))) ((- tri_0 triA) * (biv_1 (mvBiv mvB))) ((- tri_0 triA) * (biv_2 (mvBiv mvB))))
    (Biv (tri_0 triA * (vec_0 (mvVec mvB))) (tri_0 triA * (vec_1 (mvVec mvB))) (tri_0 triA * (vec_2 (mvVec mvB))))
    (Tri (tri_0 triA * (sca_0 (mvSca mvB)))).

(** ** include/g3opsMul_Spinor.hpp *)

(** g3opsMul_Spinor.hpp:69-77 *)
Definition mul_Spin_Dub (spinA : Spinor F) (dubB : F) : Spinor F :=
  mkSpin
    (mul_Dub_Sca dubB (spinSca spinA))
    (mul_Dub_Biv dubB (spinBiv spinA)).

(** g3opsMul_Spinor.hpp:84-95 *)
Definition mul_Spin_Sca (spinA : Spinor F) (scaB : Scalar F) : Spinor F :=
  mkSpin
    (mul_Dub_Sca (sca_0 scaB) (spinSca spinA))
    (mul_Dub_Biv (sca_0 scaB) (spinBiv spinA)).

(** g3opsMul_Spinor.hpp:102-120 *)
Definition mul_Spin_Vec (spinA : Spinor F) (vecB : Vector F) : ImSpin F :=
  let v1 := mul_Sca_Vec (spinSca spinA) vecB in
  let v2 := mkVec (prodAnti (bivData (spinBiv spinA)) (vecData vecB)) in
  let t1 := Tri (prodComm3 (bivData (spinBiv spinA)) (vecData vecB)) in
  mkImsp (sub_Vec_Vec v1 v2) t1.

(** g3opsMul_Spinor.hpp:127-137 *)
Definition mul_Spin_Biv (spinA : Spinor F) (bivB : BiVector F) : Spinor F :=
  let biv1 := mul_Sca_Biv (spinSca spinA) bivB in
  let spin1 := mul_Biv_Biv (spinBiv spinA) bivB in
  mkSpin (spinSca spin1) (add_Biv_Biv (spinBiv spin1) biv1).

(** g3opsMul_Spinor.hpp:144-152 *)
Definition mul_Spin_Tri (spinA : Spinor F) (triB : TriVector F) : ImSpin F :=
  mkImsp
    (mul_Tri_Biv triB (spinBiv spinA))
    (mul_Tri_Sca triB (spinSca spinA)).

(** g3opsMul_Spinor.hpp:163-187 *)
Definition mul_Spin_Spin (spinA : Spinor F) (spinB : Spinor F) : Spinor F :=
  let alpha := sca_0 (spinSca spinA) in
  let bivA := spinBiv spinA in
  let beta := sca_0 (spinSca spinB) in
  let bivB := spinBiv spinB in
  let symmAB := prodComm3 (bivData bivA) (bivData bivB) in
  let antiAB := mkBiv (prodAnti (bivData bivA) (bivData bivB)) in
  let scaC := Sca (alpha * beta - symmAB) in
  let bivC :=
    sub_Biv_Biv (add_Biv_Biv (mul_Dub_Biv alpha bivB) (mul_Dub_Biv beta bivA)) antiAB in
  mkSpin scaC bivC.

(** g3opsMul_Spinor.hpp:198-208 *)
Definition mul_Spin_Imsp (spinA : Spinor F) (imspB : ImSpin F) : ImSpin F :=
  let imsp1 := mul_Dub_Imsp (sca_0 (spinSca spinA)) imspB in
  let imsp2 := mul_Biv_Imsp (spinBiv spinA) imspB in
  add_Imsp_Imsp imsp1 imsp2.

(** g3opsMul_Spinor.hpp:215-228 *)
Definition mul_Spin_Cplx (spinA : Spinor F) (cplxB : ComPlex F) : MultiVector F :=
  mkMvec
    (Sca ((sca_0 (spinSca spinA)) * (sca_0 (cplxSca cplxB))))
    (mul_Biv_Tri (spinBiv spinA) (cplxTri cplxB))
    (mul_Biv_Dub (spinBiv spinA) (sca_0 (cplxSca cplxB)))
    (mul_Dub_Tri (sca_0 (spinSca spinA)) (cplxTri cplxB)).

(** g3opsMul_Spinor.hpp:235-252 *)
Definition mul_Spin_Dplx (spinA : Spinor F) (dplxB : DirPlex F) : MultiVector F :=
  let vec := mul_Dub_Vec (sca_0 (spinSca spinA)) (dplxVec dplxB) in
  let biv := mul_Dub_Biv (sca_0 (spinSca spinA)) (dplxBiv dplxB) in
  let imsp := mul_Biv_Vec (spinBiv spinA) (dplxVec dplxB) in
  let spin := mul_Biv_Biv (spinBiv spinA) (dplxBiv dplxB) in
  mkMvec
    (spinSca spin)
    (add_Vec_Vec vec (imspVec imsp))
    (add_Biv_Biv biv (spinBiv spin))
    (imspTri imsp).

(** g3opsMul_Spinor.hpp:260-270 *)
Definition mul_Spin_Mvec (spinA : Spinor F) (mvB : MultiVector F) : MultiVector F :=
  let mv1 := mul_Dub_Mvec (sca_0 (spinSca spinA)) mvB in
  let mv2 := mul_Biv_Mvec (spinBiv spinA) mvB in
  add_Mvec_Mvec mv1 mv2.

(** ** include/g3opsMul_ImSpin.hpp *)

(** g3opsMul_ImSpin.hpp:70-78 *)
Definition mul_Imsp_Dub (imspA : ImSpin F) (dubB : F) : ImSpin F :=
  mkImsp
    (mul_Dub_Vec dubB (imspVec imspA))
    (mul_Dub_Tri dubB (imspTri imspA)).

(** g3opsMul_ImSpin.hpp:85-94 *)
Definition mul_Imsp_Sca (imspA : ImSpin F) (scaB : Scalar F) : ImSpin F :=
  let dubB := sca_0 scaB in
  mkImsp
    (mul_Dub_Vec dubB (imspVec imspA))
    (mul_Dub_Tri dubB (imspTri imspA)).

(** g3opsMul_ImSpin.hpp:101-112 *)
Definition mul_Imsp_Vec (imspA : ImSpin F) (vecB : Vector F) : Spinor F :=
  let spinAB := mul_Vec_Vec (imspVec imspA) vecB in
  let bivAB := mul_Tri_Vec (imspTri imspA) vecB in
  mkSpin (spinSca spinAB) (add_Biv_Biv (spinBiv spinAB) bivAB).

(** g3opsMul_ImSpin.hpp:119-129 *)
Definition mul_Imsp_Biv (imspA : ImSpin F) (bivB : BiVector F) : ImSpin F :=
  let imsp1 := mul_Vec_Biv (imspVec imspA) bivB in
  let vec1 := mul_Tri_Biv (imspTri imspA) bivB in
  mkImsp (add_Vec_Vec (imspVec imsp1) vec1) (imspTri imsp1).

(** g3opsMul_ImSpin.hpp:136-145 *)
Definition mul_Imsp_Tri (imspA : ImSpin F) (triB : TriVector F) : Spinor F :=
  mul_Tri_Imsp triB imspA.

(** g3opsMul_ImSpin.hpp:152-162 *)
Definition mul_Imsp_Spin (imspA : ImSpin F) (spinB : Spinor F) : ImSpin F :=
  let imsp1 := mul_Vec_Spin (imspVec imspA) spinB in
  let imsp2 := mul_Tri_Spin (imspTri imspA) spinB in
  add_Imsp_Imsp imsp1 imsp2.

(** g3opsMul_ImSpin.hpp:173-183 *)
Definition mul_Imsp_Imsp (imspA : ImSpin F) (imspB : ImSpin F) : Spinor F :=
  let spin1 := mul_Vec_Imsp (imspVec imspA) imspB in
  let spin2 := mul_Tri_Imsp (imspTri imspA) imspB in
  add_Spin_Spin spin1 spin2.

(** g3opsMul_ImSpin.hpp:194-207 *)
Definition mul_Imsp_Cplx (imspA : ImSpin F) (cplxB : ComPlex F) : MultiVector F :=
  mkMvec
    (mul_Tri_Tri (imspTri imspA) (cplxTri cplxB))
    (mul_Vec_Sca (imspVec imspA) (cplxSca cplxB))
    (mul_Vec_Tri (imspVec imspA) (cplxTri cplxB))
    (mul_Tri_Sca (imspTri imspA) (cplxSca cplxB)).

(** g3opsMul_ImSpin.hpp:214-229 *)
Definition mul_Imsp_Dplx (imspA : ImSpin F) (dplxB : DirPlex F) : MultiVector F :=
  let spin := mul_Vec_Vec (imspVec imspA) (dplxVec dplxB) in
  let imsp := mul_Vec_Biv (imspVec imspA) (dplxBiv dplxB) in
  mkMvec
    (spinSca spin)
    (add_Vec_Vec (imspVec imsp) (mul_Tri_Biv (imspTri imspA) (dplxBiv dplxB)))
    (add_Biv_Biv (spinBiv spin) (mul_Tri_Vec (imspTri imspA) (dplxVec dplxB)))
    (imspTri imsp).

(** g3opsMul_ImSpin.hpp:236-247 *)
Definition mul_Imsp_Mvec (imspA : ImSpin F) (mvB : MultiVector F) : MultiVector F :=
  add_Mvec_Mvec
    (mul_Vec_Mvec (imspVec imspA) mvB)
    (mul_Tri_Mvec (imspTri imspA) mvB).

(** ** include/g3opsMul_ComPlex.hpp *)

(** g3opsMul_ComPlex.hpp:71-79 *)
Definition mul_Cplx_Dub (cplxA : ComPlex F) (dubB : F) : ComPlex F :=
  mul_Dub_Cplx dubB cplxA.

(** g3opsMul_ComPlex.hpp:86-94 *)
Definition mul_Cplx_Sca (cplxA : ComPlex F) (scaB : Scalar F) : ComPlex F :=
  mul_Sca_Cplx scaB cplxA.

(** g3opsMul_ComPlex.hpp:101-109 *)
Definition mul_Cplx_Vec (cplxA : ComPlex F) (vecB : Vector F) : DirPlex F :=
  mul_Vec_Cplx vecB cplxA.

(** g3opsMul_ComPlex.hpp:116-124 *)
Definition mul_Cplx_Biv (cplxA : ComPlex F) (bivB : BiVector F) : DirPlex F :=
  mul_Biv_Cplx bivB cplxA.

(** g3opsMul_ComPlex.hpp:131-139 *)
Definition mul_Cplx_Tri (cplxA : ComPlex F) (triB : TriVector F) : ComPlex F :=
  mul_Tri_Cplx triB cplxA.

(** g3opsMul_ComPlex.hpp:146-154 *)
Definition mul_Cplx_Spin (cplxA : ComPlex F) (spinB : Spinor F) : MultiVector F :=
  mul_Spin_Cplx spinB cplxA.

(** g3opsMul_ComPlex.hpp:161-169 *)
Definition mul_Cplx_Imsp (cplxA : ComPlex F) (imspB : ImSpin F) : MultiVector F :=
  mul_Imsp_Cplx imspB cplxA.

(** g3opsMul_ComPlex.hpp:180-197 *)
Definition mul_Cplx_Cplx (cplxA : ComPlex F) (cplxB : ComPlex F) : ComPlex F :=
  mkCplx
    (Sca ((sca_0 (cplxSca cplxA)) * (sca_0 (cplxSca cplxB)) - (tri_0 (cplxTri cplxA)) * (tri_0 (cplxTri cplxB))))
    (Tri ((sca_0 (cplxSca cplxA)) * (tri_0 (cplxTri cplxB)) + (tri_0 (cplxTri cplxA)) * (sca_0 (cplxSca cplxB)))).

(** g3opsMul_ComPlex.hpp:208-225 *)
Definition mul_Cplx_Dplx (cplxA : ComPlex F) (dplxB : DirPlex F) : DirPlex F :=
  mkDplx
    (add_Vec_Vec (mul_Sca_Vec (cplxSca cplxA) (dplxVec dplxB)) (mul_Biv_Tri (dplxBiv dplxB) (cplxTri cplxA)))
    (add_Biv_Biv (mul_Sca_Biv (cplxSca cplxA) (dplxBiv dplxB)) (mul_Vec_Tri (dplxVec dplxB) (cplxTri cplxA))).

(** g3opsMul_ComPlex.hpp:232-249 *)
Definition mul_Cplx_Mvec (cplxA : ComPlex F) (mvecB : MultiVector F) : MultiVector F :=
  mkMvec
    (add_Sca_Sca (mul_Sca_Sca (cplxSca cplxA) (mvSca mvecB)) (mul_Tri_Tri (cplxTri cplxA) (mvTri mvecB)))
    (add_Vec_Vec (mul_Sca_Vec (cplxSca cplxA) (mvVec mvecB)) (mul_Biv_Tri (mvBiv mvecB) (cplxTri cplxA)))
    (add_Biv_Biv (mul_Sca_Biv (cplxSca cplxA) (mvBiv mvecB)) (mul_Vec_Tri (mvVec mvecB) (cplxTri cplxA)))
    (add_Tri_Tri (mul_Sca_Tri (cplxSca cplxA) (mvTri mvecB)) (mul_Sca_Tri (mvSca mvecB) (cplxTri cplxA))).

(** ** include/g3opsMul_DirPlex.hpp *)

(** g3opsMul_DirPlex.hpp:72-80 *)
Definition mul_Dplx_Dub (dplxA : DirPlex F) (dubB : F) : DirPlex F :=
  mul_Dub_Dplx dubB dplxA.

(** g3opsMul_DirPlex.hpp:87-95 *)
Definition mul_Dplx_Sca (dplxA : DirPlex F) (scaB : Scalar F) : DirPlex F :=
  mul_Sca_Dplx scaB dplxA.

(** g3opsMul_DirPlex.hpp:102-118 *)
Definition mul_Dplx_Vec (dplxA : DirPlex F) (vecB : Vector F) : MultiVector F :=
  let spin := mul_Vec_Vec (dplxVec dplxA) vecB in
  let imspRev := mul_Vec_Biv vecB (reverse_Biv (dplxBiv dplxA)) in
  let imsp := reverse_Imsp imspRev in
  mkMvec (spinSca spin) (imspVec imsp) (spinBiv spin) (imspTri imsp).

(** g3opsMul_DirPlex.hpp:125-141 *)
Definition mul_Dplx_Biv (dplxA : DirPlex F) (bivB : BiVector F) : MultiVector F :=
  let imsp := mul_Vec_Biv (dplxVec dplxA) bivB in
  let spinRev := mul_Biv_Biv (reverse_Biv bivB) (reverse_Biv (dplxBiv dplxA)) in
  let spin := reverse_Spin spinRev in
  mkMvec (spinSca spin) (imspVec imsp) (spinBiv spin) (imspTri imsp).

(** g3opsMul_DirPlex.hpp:148-159 *)
Definition mul_Dplx_Tri (dplxA : DirPlex F) (triB : TriVector F) : DirPlex F :=
  mkDplx
    (mul_Biv_Tri (dplxBiv dplxA) triB)
    (mul_Vec_Tri (dplxVec dplxA) triB).

(** g3opsMul_DirPlex.hpp:166-181 *)
Definition mul_Dplx_Spin (dplxA : DirPlex F) (spinB : Spinor F) : MultiVector F :=
  let imsp := mul_Vec_Biv (dplxVec dplxA) (spinBiv spinB) in
  let spin := mul_Biv_Biv (dplxBiv dplxA) (spinBiv spinB) in
  mkMvec
    (spinSca spin)
    (add_Vec_Vec (imspVec imsp) (mul_Sca_Vec (spinSca spinB) (dplxVec dplxA)))
    (add_Biv_Biv (spinBiv spin) (mul_Sca_Biv (spinSca spinB) (dplxBiv dplxA)))
    (imspTri imsp).

(** g3opsMul_DirPlex.hpp:188-203 *)
Definition mul_Dplx_Imsp (dplxA : DirPlex F) (imspB : ImSpin F) : MultiVector F :=
  let spin := mul_Vec_Vec (dplxVec dplxA) (imspVec imspB) in
  let imsp := mul_Biv_Vec (dplxBiv dplxA) (imspVec imspB) in
  mkMvec
    (spinSca spin)
    (add_Vec_Vec (imspVec imsp) (mul_Biv_Tri (dplxBiv dplxA) (imspTri imspB)))
    (add_Biv_Biv (spinBiv spin) (mul_Vec_Tri (dplxVec dplxA) (imspTri imspB)))
    (imspTri imsp).

(** g3opsMul_DirPlex.hpp:210-223 *)
Definition mul_Dplx_Cplx (dplxA : DirPlex F) (cplxB : ComPlex F) : DirPlex F :=
  mkDplx
    (add_Vec_Vec (mul_Sca_Vec (cplxSca cplxB) (dplxVec dplxA)) (mul_Biv_Tri (dplxBiv dplxA) (cplxTri cplxB)))
    (add_Biv_Biv (mul_Sca_Biv (cplxSca cplxB) (dplxBiv dplxA)) (mul_Vec_Tri (dplxVec dplxA) (cplxTri cplxB))).

(** g3opsMul_DirPlex.hpp:234-251 *)
Definition mul_Dplx_Dplx (dplxA : DirPlex F) (dplxB : DirPlex F) : MultiVector F :=
  let spin1 := mul_Vec_Vec (dplxVec dplxA) (dplxVec dplxB) in
  let imsp1 := mul_Biv_Vec (dplxBiv dplxA) (dplxVec dplxB) in
  let imsp2 := mul_Vec_Biv (dplxVec dplxA) (dplxBiv dplxB) in
  let spin2 := mul_Biv_Biv (dplxBiv dplxA) (dplxBiv dplxB) in
  mkMvec
    (add_Sca_Sca (spinSca spin1) (spinSca spin2))
    (add_Vec_Vec (imspVec imsp1) (imspVec imsp2))
    (add_Biv_Biv (spinBiv spin1) (spinBiv spin2))
    (add_Tri_Tri (imspTri imsp1) (imspTri imsp2)).

(** g3opsMul_DirPlex.hpp:262-284 *)
Definition mul_Dplx_Mvec (dplxA : DirPlex F) (mvecB : MultiVector F) : MultiVector F :=
  let spin1 := mul_Vec_Vec (dplxVec dplxA) (mvVec mvecB) in
  let imsp1 := mul_Vec_Biv (dplxVec dplxA) (mvBiv mvecB) in
  let spin2 := mul_Biv_Biv (dplxBiv dplxA) (mvBiv mvecB) in
  let imsp2Rev := mul_Vec_Biv (mvVec mvecB) (reverse_Biv (dplxBiv dplxA)) in
  let imsp2 := reverse_Imsp imsp2Rev in
  mkMvec
    (add_Sca_Sca (spinSca spin1) (spinSca spin2))
    (add_Vec_Vec (add_Vec_Vec (add_Vec_Vec (imspVec imsp1) (imspVec imsp2)) (mul_Sca_Vec (mvSca mvecB) (dplxVec dplxA))) (mul_Biv_Tri (dplxBiv dplxA) (mvTri mvecB)))
    (add_Biv_Biv (add_Biv_Biv (add_Biv_Biv (spinBiv spin1) (spinBiv spin2)) (mul_Vec_Tri (dplxVec dplxA) (mvTri mvecB))) (mul_Sca_Biv (mvSca mvecB) (dplxBiv dplxA)))
    (add_Tri_Tri (imspTri imsp1) (imspTri imsp2)).

(** ** include/g3opsMul_MultiVector.hpp *)

(** g3opsMul_MultiVector.hpp:73-86 *)
Definition mul_Mvec_Dub (mvA : MultiVector F) (dubB : F) : MultiVector F :=
  mkMvec
    (mul_Dub_Sca dubB (mvSca mvA))
    (mul_Dub_Vec dubB (mvVec mvA))
    (mul_Dub_Biv dubB (mvBiv mvA))
    (mul_Dub_Tri dubB (mvTri mvA)).

(** g3opsMul_MultiVector.hpp:93-107 *)
Definition mul_Mvec_Sca (mvA : MultiVector F) (scaB : Scalar F) : MultiVector F :=
  let dubB := sca_0 scaB in
  mkMvec
    (mul_Dub_Sca dubB (mvSca mvA))
    (mul_Dub_Vec dubB (mvVec mvA))
    (mul_Dub_Biv dubB (mvBiv mvA))
    (mul_Dub_Tri dubB (mvTri mvA)).

(** g3opsMul_MultiVector.hpp:114-131 *)
Definition mul_Mvec_Vec (mvA : MultiVector F) (vecB : Vector F) : MultiVector F :=
  let vec1 := mul_Sca_Vec (mvSca mvA) vecB in
  let spin1 := mul_Vec_Vec (mvVec mvA) vecB in
  let imsp1 := mul_Biv_Vec (mvBiv mvA) vecB in
  let biv1 := mul_Tri_Vec (mvTri mvA) vecB in
  mkMvec
    (spinSca spin1)
    (add_Vec_Vec vec1 (imspVec imsp1))
    (add_Biv_Biv biv1 (spinBiv spin1))
    (imspTri imsp1).

(** g3opsMul_MultiVector.hpp:138-155 *)
Definition mul_Mvec_Biv (mvA : MultiVector F) (bivB : BiVector F) : MultiVector F :=
  let biv1 := mul_Sca_Biv (mvSca mvA) bivB in
  let imsp1 := mul_Vec_Biv (mvVec mvA) bivB in
  let spin1 := mul_Biv_Biv (mvBiv mvA) bivB in
  let vec1 := mul_Tri_Biv (mvTri mvA) bivB in
  mkMvec
    (spinSca spin1)
    (add_Vec_Vec (imspVec imsp1) vec1)
    (add_Biv_Biv biv1 (spinBiv spin1))
    (imspTri imsp1).

(** g3opsMul_MultiVector.hpp:162-174 *)
Definition mul_Mvec_Tri (mvA : MultiVector F) (triB : TriVector F) : MultiVector F :=
  let tri1 := mul_Sca_Tri (mvSca mvA) triB in
  let biv1 := mul_Vec_Tri (mvVec mvA) triB in
  let vec1 := mul_Biv_Tri (mvBiv mvA) triB in
  let sca1 := mul_Tri_Tri (mvTri mvA) triB in
  mkMvec sca1 vec1 biv1 tri1.

(** g3opsMul_MultiVector.hpp:181-192 *)
Definition mul_Mvec_Spin (mvA : MultiVector F) (spinB : Spinor F) : MultiVector F :=
  add_Mvec_Mvec
    (mul_Mvec_Sca mvA (spinSca spinB))
    (mul_Mvec_Biv mvA (spinBiv spinB)).

(** g3opsMul_MultiVector.hpp:199-210 *)
Definition mul_Mvec_Imsp (mvA : MultiVector F) (imspB : ImSpin F) : MultiVector F :=
  add_Mvec_Mvec
    (mul_Mvec_Vec mvA (imspVec imspB))
    (mul_Mvec_Tri mvA (imspTri imspB)).

(** g3opsMul_MultiVector.hpp:217-225 *)
Definition mul_Mvec_Cplx (mvA : MultiVector F) (cplxB : ComPlex F) : MultiVector F :=
  mul_Cplx_Mvec cplxB mvA.

(** g3opsMul_MultiVector.hpp:232-253 *)
Definition mul_Mvec_Dplx (mvA : MultiVector F) (dplxB : DirPlex F) : MultiVector F :=
  let spin1 := mul_Vec_Vec (mvVec mvA) (dplxVec dplxB) in
  let imsp1 := mul_Biv_Vec (mvBiv mvA) (dplxVec dplxB) in
  let imsp2 := mul_Vec_Biv (mvVec mvA) (dplxBiv dplxB) in
  let spin2 := mul_Biv_Biv (mvBiv mvA) (dplxBiv dplxB) in
  mkMvec
    (add_Sca_Sca (spinSca spin1) (spinSca spin2))
    (add_Vec_Vec (add_Vec_Vec (add_Vec_Vec (imspVec imsp1) (imspVec imsp2)) (mul_Sca_Vec (mvSca mvA) (dplxVec dplxB))) (mul_Tri_Biv (mvTri mvA) (dplxBiv dplxB)))
    (add_Biv_Biv (add_Biv_Biv (add_Biv_Biv (spinBiv spin1) (spinBiv spin2)) (mul_Tri_Vec (mvTri mvA) (dplxVec dplxB))) (mul_Sca_Biv (mvSca mvA) (dplxBiv dplxB)))
    (add_Tri_Tri (imspTri imsp1) (imspTri imsp2)).

(** g3opsMul_MultiVector.hpp:280-371; [result] is assigned component by component. *)
Definition mul_Mvec_Mvec (mvA : MultiVector F) (mvB : MultiVector F) : MultiVector F :=
  let rs :=
     ( sca_0 (mvSca mvA) * sca_0 (mvSca mvB)
       + vec_0 (mvVec mvA) * vec_0 (mvVec mvB)
       + vec_1 (mvVec mvA) * vec_1 (mvVec mvB)
       + vec_2 (mvVec mvA) * vec_2 (mvVec mvB) )
     - ( biv_0 (mvBiv mvA) * biv_0 (mvBiv mvB)
       + biv_1 (mvBiv mvA) * biv_1 (mvBiv mvB)
       + biv_2 (mvBiv mvA) * biv_2 (mvBiv mvB)
       + tri_0 (mvTri mvA) * tri_0 (mvTri mvB) ) in
  let rv0 :=
     ( vec_0 (mvVec mvA) * sca_0 (mvSca mvB)
       + sca_0 (mvSca mvA) * vec_0 (mvVec mvB)
       + biv_2 (mvBiv mvA) * vec_1 (mvVec mvB)
       + vec_2 (mvVec mvA) * biv_1 (mvBiv mvB) )
     - ( biv_1 (mvBiv mvA) * vec_2 (mvVec mvB)
       + tri_0 (mvTri mvA) * biv_0 (mvBiv mvB)
       + vec_1 (mvVec mvA) * biv_2 (mvBiv mvB)
       + biv_0 (mvBiv mvA) * tri_0 (mvTri mvB) ) in
  let rv1 :=
     ( vec_1 (mvVec mvA) * sca_0 (mvSca mvB)
       + sca_0 (mvSca mvA) * vec_1 (mvVec mvB)
       + biv_0 (mvBiv mvA) * vec_2 (mvVec mvB)
       + vec_0 (mvVec mvA) * biv_2 (mvBiv mvB) )
     - ( biv_2 (mvBiv mvA) * vec_0 (mvVec mvB)
       + vec_2 (mvVec mvA) * biv_0 (mvBiv mvB)
       + tri_0 (mvTri mvA) * biv_1 (mvBiv mvB)
       + biv_1 (mvBiv mvA) * tri_0 (mvTri mvB) ) in
  let rv2 :=
     ( vec_2 (mvVec mvA) * sca_0 (mvSca mvB)
       + biv_1 (mvBiv mvA) * vec_0 (mvVec mvB)
       + sca_0 (mvSca mvA) * vec_2 (mvVec mvB)
       + vec_1 (mvVec mvA) * biv_0 (mvBiv mvB) )
     - ( biv_0 (mvBiv mvA) * vec_1 (mvVec mvB)
       + vec_0 (mvVec mvA) * biv_1 (mvBiv mvB)
       + tri_0 (mvTri mvA) * biv_2 (mvBiv mvB)
       + biv_2 (mvBiv mvA) * tri_0 (mvTri mvB) ) in
  let rb0 :=
     ( biv_0 (mvBiv mvA) * sca_0 (mvSca mvB)
       + tri_0 (mvTri mvA) * vec_0 (mvVec mvB)
       + vec_1 (mvVec mvA) * vec_2 (mvVec mvB)
       + sca_0 (mvSca mvA) * biv_0 (mvBiv mvB)
       + biv_2 (mvBiv mvA) * biv_1 (mvBiv mvB)
       + vec_0 (mvVec mvA) * tri_0 (mvTri mvB) )
     - ( vec_2 (mvVec mvA) * vec_1 (mvVec mvB)
       + biv_1 (mvBiv mvA) * biv_2 (mvBiv mvB) ) in
  let rb1 :=
     ( biv_1 (mvBiv mvA) * sca_0 (mvSca mvB)
       + vec_2 (mvVec mvA) * vec_0 (mvVec mvB)
       + tri_0 (mvTri mvA) * vec_1 (mvVec mvB)
       + sca_0 (mvSca mvA) * biv_1 (mvBiv mvB)
       + biv_0 (mvBiv mvA) * biv_2 (mvBiv mvB)
       + vec_1 (mvVec mvA) * tri_0 (mvTri mvB) )
     - ( vec_0 (mvVec mvA) * vec_2 (mvVec mvB)
       + biv_2 (mvBiv mvA) * biv_0 (mvBiv mvB) ) in
  let rb2 :=
     ( biv_2 (mvBiv mvA) * sca_0 (mvSca mvB)
       + vec_0 (mvVec mvA) * vec_1 (mvVec mvB)
       + tri_0 (mvTri mvA) * vec_2 (mvVec mvB)
       + biv_1 (mvBiv mvA) * biv_0 (mvBiv mvB)
       + sca_0 (mvSca mvA) * biv_2 (mvBiv mvB)
       + vec_2 (mvVec mvA) * tri_0 (mvTri mvB) )
     - ( vec_1 (mvVec mvA) * vec_0 (mvVec mvB)
       + biv_0 (mvBiv mvA) * biv_1 (mvBiv mvB) ) in
  let rt :=
     ( tri_0 (mvTri mvA) * sca_0 (mvSca mvB)
       + biv_0 (mvBiv mvA) * vec_0 (mvVec mvB)
       + biv_1 (mvBiv mvA) * vec_1 (mvVec mvB)
       + biv_2 (mvBiv mvA) * vec_2 (mvVec mvB)
       + vec_0 (mvVec mvA) * biv_0 (mvBiv mvB)
       + vec_1 (mvVec mvA) * biv_1 (mvBiv mvB)
       + vec_2 (mvVec mvA) * biv_2 (mvBiv mvB)
       + sca_0 (mvSca mvA) * tri_0 (mvTri mvB) ) in
  mkMvec (Sca rs) (Vec rv0 rv1 rv2) (Biv rb0 rb1 rb2) (Tri rt).

(** Result type of [A * B]. *)
(** return types of g3opsMul_BiVector.hpp:68-363, g3opsMul_ComPlex.hpp:73-249, g3opsMul_DirPlex.hpp:74-284,
    g3opsMul_ImSpin.hpp:72-247, g3opsMul_MultiVector.hpp:75-371, g3opsMul_Scalar.hpp:62-273,
    g3opsMul_Spinor.hpp:71-270, g3opsMul_TriVector.hpp:69-281, g3opsMul_Vector.hpp:67-317,
    g3opsMul_double.hpp:70-257 *)
Definition mulTy (a b : ty) : ty :=
  match a with
  | TDub =>
      match b with
      | TDub => TDub
      | TSca => TSca
      | TVec => TVec
      | TBiv => TBiv
      | TTri => TTri
      | TSpin => TSpin
      | TImsp => TImsp
      | TCplx => TCplx
      | TDplx => TDplx
      | TMvec => TMvec
      end
  | TSca =>
      match b with
      | TDub => TSca
      | TSca => TSca
      | TVec => TVec
      | TBiv => TBiv
      | TTri => TTri
      | TSpin => TSpin
      | TImsp => TImsp
      | TCplx => TCplx
      | TDplx => TDplx
      | TMvec => TMvec
      end
  | TVec =>
      match b with
      | TDub => TVec
      | TSca => TVec
      | TVec => TSpin
      | TBiv => TImsp
      | TTri => TBiv
      | TSpin => TImsp
      | TImsp => TSpin
      | TCplx => TDplx
      | TDplx => TMvec
      | TMvec => TMvec
      end
  | TBiv =>
      match b with
      | TDub => TBiv
      | TSca => TBiv
      | TVec => TImsp
      | TBiv => TSpin
      | TTri => TVec
      | TSpin => TSpin
      | TImsp => TImsp
      | TCplx => TDplx
      | TDplx => TMvec
      | TMvec => TMvec
      end
  | TTri =>
      match b with
      | TDub => TTri
      | TSca => TTri
      | TVec => TBiv
      | TBiv => TVec
      | TTri => TSca
      | TSpin => TImsp
      | TImsp => TSpin
      | TCplx => TCplx
      | TDplx => TDplx
      | TMvec => TMvec
      end
  | TSpin =>
      match b with
      | TDub => TSpin
      | TSca => TSpin
      | TVec => TImsp
      | TBiv => TSpin
      | TTri => TImsp
      | TSpin => TSpin
      | TImsp => TImsp
      | TCplx => TMvec
      | TDplx => TMvec
      | TMvec => TMvec
      end
  | TImsp =>
      match b with
      | TDub => TImsp
      | TSca => TImsp
      | TVec => TSpin
      | TBiv => TImsp
      | TTri => TSpin
      | TSpin => TImsp
      | TImsp => TSpin
      | TCplx => TMvec
      | TDplx => TMvec
      | TMvec => TMvec
      end
  | TCplx =>
      match b with
      | TDub => TCplx
      | TSca => TCplx
      | TVec => TDplx
      | TBiv => TDplx
      | TTri => TCplx
      | TSpin => TMvec
      | TImsp => TMvec
      | TCplx => TCplx
      | TDplx => TDplx
      | TMvec => TMvec
      end
  | TDplx =>
      match b with
      | TDub => TDplx
      | TSca => TDplx
      | TVec => TMvec
      | TBiv => TMvec
      | TTri => TDplx
      | TSpin => TMvec
      | TImsp => TMvec
      | TCplx => TDplx
      | TDplx => TMvec
      | TMvec => TMvec
      end
  | TMvec =>
      match b with
      | TDub => TMvec
      | TSca => TMvec
      | TVec => TMvec
      | TBiv => TMvec
      | TTri => TMvec
      | TSpin => TMvec
      | TImsp => TMvec
      | TCplx => TMvec
      | TDplx => TMvec
      | TMvec => TMvec
      end
  end.

(** The overload set of [operator*]; [double * double] is the built-in product. *)
(** operator* of the overloads in g3opsMul_BiVector.hpp:68-363, g3opsMul_ComPlex.hpp:73-249, g3opsMul_DirPlex.hpp:74-284,
    g3opsMul_ImSpin.hpp:72-247, g3opsMul_MultiVector.hpp:75-371, g3opsMul_Scalar.hpp:62-273,
    g3opsMul_Spinor.hpp:71-270, g3opsMul_TriVector.hpp:69-281, g3opsMul_Vector.hpp:67-317,
    g3opsMul_double.hpp:70-257 *)
Definition mul (a b : ty) : val F a -> val F b -> val F (mulTy a b) :=
  match a, b return val F a -> val F b -> val F (mulTy a b) with
  | TDub, TDub => nmul
  | TDub, TSca => mul_Dub_Sca
  | TDub, TVec => mul_Dub_Vec
  | TDub, TBiv => mul_Dub_Biv
  | TDub, TTri => mul_Dub_Tri
  | TDub, TSpin => mul_Dub_Spin
  | TDub, TImsp => mul_Dub_Imsp
  | TDub, TCplx => mul_Dub_Cplx
  | TDub, TDplx => mul_Dub_Dplx
  | TDub, TMvec => mul_Dub_Mvec
  | TSca, TDub => mul_Sca_Dub
  | TSca, TSca => mul_Sca_Sca
  | TSca, TVec => mul_Sca_Vec
  | TSca, TBiv => mul_Sca_Biv
  | TSca, TTri => mul_Sca_Tri
  | TSca, TSpin => mul_Sca_Spin
  | TSca, TImsp => mul_Sca_Imsp
  | TSca, TCplx => mul_Sca_Cplx
  | TSca, TDplx => mul_Sca_Dplx
  | TSca, TMvec => mul_Sca_Mvec
  | TVec, TDub => mul_Vec_Dub
  | TVec, TSca => mul_Vec_Sca
  | TVec, TVec => mul_Vec_Vec
  | TVec, TBiv => mul_Vec_Biv
  | TVec, TTri => mul_Vec_Tri
  | TVec, TSpin => mul_Vec_Spin
  | TVec, TImsp => mul_Vec_Imsp
  | TVec, TCplx => mul_Vec_Cplx
  | TVec, TDplx => mul_Vec_Dplx
  | TVec, TMvec => mul_Vec_Mvec
  | TBiv, TDub => mul_Biv_Dub
  | TBiv, TSca => mul_Biv_Sca
  | TBiv, TVec => mul_Biv_Vec
  | TBiv, TBiv => mul_Biv_Biv
  | TBiv, TTri => mul_Biv_Tri
  | TBiv, TSpin => mul_Biv_Spin
  | TBiv, TImsp => mul_Biv_Imsp
  | TBiv, TCplx => mul_Biv_Cplx
  | TBiv, TDplx => mul_Biv_Dplx
  | TBiv, TMvec => mul_Biv_Mvec
  | TTri, TDub => mul_Tri_Dub
  | TTri, TSca => mul_Tri_Sca
  | TTri, TVec => mul_Tri_Vec
  | TTri, TBiv => mul_Tri_Biv
  | TTri, TTri => mul_Tri_Tri
  | TTri, TSpin => mul_Tri_Spin
  | TTri, TImsp => mul_Tri_Imsp
  | TTri, TCplx => mul_Tri_Cplx
  | TTri, TDplx => mul_Tri_Dplx
  | TTri, TMvec => mul_Tri_Mvec
  | TSpin, TDub => mul_Spin_Dub
  | TSpin, TSca => mul_Spin_Sca
  | TSpin, TVec => mul_Spin_Vec
  | TSpin, TBiv => mul_Spin_Biv
  | TSpin, TTri => mul_Spin_Tri
  | TSpin, TSpin => mul_Spin_Spin
  | TSpin, TImsp => mul_Spin_Imsp
  | TSpin, TCplx => mul_Spin_Cplx
  | TSpin, TDplx => mul_Spin_Dplx
  | TSpin, TMvec => mul_Spin_Mvec
  | TImsp, TDub => mul_Imsp_Dub
  | TImsp, TSca => mul_Imsp_Sca
  | TImsp, TVec => mul_Imsp_Vec
  | TImsp, TBiv => mul_Imsp_Biv
  | TImsp, TTri => mul_Imsp_Tri
  | TImsp, TSpin => mul_Imsp_Spin
  | TImsp, TImsp => mul_Imsp_Imsp
  | TImsp, TCplx => mul_Imsp_Cplx
  | TImsp, TDplx => mul_Imsp_Dplx
  | TImsp, TMvec => mul_Imsp_Mvec
  | TCplx, TDub => mul_Cplx_Dub
  | TCplx, TSca => mul_Cplx_Sca
  | TCplx, TVec => mul_Cplx_Vec
  | TCplx, TBiv => mul_Cplx_Biv
  | TCplx, TTri => mul_Cplx_Tri
  | TCplx, TSpin => mul_Cplx_Spin
  | TCplx, TImsp => mul_Cplx_Imsp
  | TCplx, TCplx => mul_Cplx_Cplx
  | TCplx, TDplx => mul_Cplx_Dplx
  | TCplx, TMvec => mul_Cplx_Mvec
  | TDplx, TDub => mul_Dplx_Dub
  | TDplx, TSca => mul_Dplx_Sca
  | TDplx, TVec => mul_Dplx_Vec
  | TDplx, TBiv => mul_Dplx_Biv
  | TDplx, TTri => mul_Dplx_Tri
  | TDplx, TSpin => mul_Dplx_Spin
  | TDplx, TImsp => mul_Dplx_Imsp
  | TDplx, TCplx => mul_Dplx_Cplx
  | TDplx, TDplx => mul_Dplx_Dplx
  | TDplx, TMvec => mul_Dplx_Mvec
  | TMvec, TDub => mul_Mvec_Dub
  | TMvec, TSca => mul_Mvec_Sca
  | TMvec, TVec => mul_Mvec_Vec
  | TMvec, TBiv => mul_Mvec_Biv
  | TMvec, TTri => mul_Mvec_Tri
  | TMvec, TSpin => mul_Mvec_Spin
  | TMvec, TImsp => mul_Mvec_Imsp
  | TMvec, TCplx => mul_Mvec_Cplx
  | TMvec, TDplx => mul_Mvec_Dplx
  | TMvec, TMvec => mul_Mvec_Mvec
  end.
End Mul.
