(** * Model of include/g3opsUni.hpp : negation, reverse, oddverse, dirverse, dual. *)

Require Import Verif.Num Verif.Types Verif.Priv.

Section Uni.
Context {F : Type} `{Ring0 F}.
Local Open Scope num_scope.

(** ** unary operator- *)

(** g3opsUni.hpp:123-141, the blade template at [Scalar]. *)
Definition neg_Sca (sca : Scalar F) : Scalar F :=
  mkSca (map1 (fun elem => - elem) (scaData sca)).

(** g3opsUni.hpp:123-141, the blade template at [Vector]. *)
Definition neg_Vec (vec : Vector F) : Vector F :=
  mkVec (map3 (fun elem => - elem) (vecData vec)).

(** g3opsUni.hpp:123-141, the blade template at [BiVector]. *)
Definition neg_Biv (biv : BiVector F) : BiVector F :=
  mkBiv (map3 (fun elem => - elem) (bivData biv)).

(** g3opsUni.hpp:123-141, the blade template at [TriVector]. *)
Definition neg_Tri (tri : TriVector F) : TriVector F :=
  mkTri (map1 (fun elem => - elem) (triData tri)).

(** g3opsUni.hpp:144-151 *)
Definition neg_Spin (spin : Spinor F) : Spinor F :=
  mkSpin (neg_Sca (spinSca spin)) (neg_Biv (spinBiv spin)).

(** g3opsUni.hpp:154-161 *)
Definition neg_Imsp (imsp : ImSpin F) : ImSpin F :=
  mkImsp (neg_Vec (imspVec imsp)) (neg_Tri (imspTri imsp)).

(** g3opsUni.hpp:164-171 *)
Definition neg_Cplx (cplex : ComPlex F) : ComPlex F :=
  mkCplx (neg_Sca (cplxSca cplex)) (neg_Tri (cplxTri cplex)).

(** g3opsUni.hpp:174-181 *)
Definition neg_Dplx (dplex : DirPlex F) : DirPlex F :=
  mkDplx (neg_Vec (dplxVec dplex)) (neg_Biv (dplxBiv dplex)).

(** g3opsUni.hpp:184-191 *)
Definition neg_Mvec (mv : MultiVector F) : MultiVector F :=
  mkMvec
    (neg_Sca (mvSca mv))
    (neg_Vec (mvVec mv))
    (neg_Biv (mvBiv mv))
    (neg_Tri (mvTri mv)).

(** ** reverse *)

(** g3opsUni.hpp:198-205 *)
Definition reverse_Dub (dub : F) : F :=
  dub.

(** g3opsUni.hpp:208-215 *)
Definition reverse_Sca (sca : Scalar F) : Scalar F :=
  sca.

(** g3opsUni.hpp:218-225 *)
Definition reverse_Vec (vec : Vector F) : Vector F :=
  vec.

(** g3opsUni.hpp:228-236 *)
Definition reverse_Biv (biv : BiVector F) : BiVector F :=
  Biv (- biv_0 biv) (- biv_1 biv) (- biv_2 biv).

(** g3opsUni.hpp:239-246 *)
Definition reverse_Tri (tri : TriVector F) : TriVector F :=
  Tri (- tri_0 tri).

(** g3opsUni.hpp:249-260 *)
Definition reverse_Spin (spin : Spinor F) : Spinor F :=
  mkSpin (reverse_Sca (spinSca spin)) (reverse_Biv (spinBiv spin)).

(** g3opsUni.hpp:263-274 *)
Definition reverse_Imsp (imsp : ImSpin F) : ImSpin F :=
  mkImsp (reverse_Vec (imspVec imsp)) (reverse_Tri (imspTri imsp)).

(** g3opsUni.hpp:277-287 *)
Definition reverse_Cplx (cplex : ComPlex F) : ComPlex F :=
  mkCplx (reverse_Sca (cplxSca cplex)) (reverse_Tri (cplxTri cplex)).

(** g3opsUni.hpp:290-300 *)
Definition reverse_Dplx (dplex : DirPlex F) : DirPlex F :=
  mkDplx (reverse_Vec (dplxVec dplex)) (reverse_Biv (dplxBiv dplex)).

(** g3opsUni.hpp:303-316 *)
Definition reverse_Mvec (mv : MultiVector F) : MultiVector F :=
  mkMvec
    (reverse_Sca (mvSca mv))
    (reverse_Vec (mvVec mv))
    (reverse_Biv (mvBiv mv))
    (reverse_Tri (mvTri mv)).

(** ** oddverse *)

(** g3opsUni.hpp:323-330 *)
Definition oddverse_Sca (sca : Scalar F) : Scalar F :=
  sca.

(** g3opsUni.hpp:333-340 *)
Definition oddverse_Vec (vec : Vector F) : Vector F :=
  Vec (- vec_0 vec) (- vec_1 vec) (- vec_2 vec).

(** g3opsUni.hpp:343-350 *)
Definition oddverse_Biv (biv : BiVector F) : BiVector F :=
  biv.

(** g3opsUni.hpp:353-360 *)
Definition oddverse_Tri (tri : TriVector F) : TriVector F :=
  Tri (- tri_0 tri).

(** g3opsUni.hpp:363-370 *)
Definition oddverse_Spin (spin : Spinor F) : Spinor F :=
  spin.

(** g3opsUni.hpp:373-383 *)
Definition oddverse_Imsp (imsp : ImSpin F) : ImSpin F :=
  mkImsp (oddverse_Vec (imspVec imsp)) (oddverse_Tri (imspTri imsp)).

(** g3opsUni.hpp:386-396 *)
Definition oddverse_Cplx (cplex : ComPlex F) : ComPlex F :=
  mkCplx (cplxSca cplex) (oddverse_Tri (cplxTri cplex)).

(** g3opsUni.hpp:399-409 *)
Definition oddverse_Dplx (dplex : DirPlex F) : DirPlex F :=
  mkDplx (oddverse_Vec (dplxVec dplex)) (dplxBiv dplex).

(** g3opsUni.hpp:412-425 *)
Definition oddverse_Mvec (mv : MultiVector F) : MultiVector F :=
  mkMvec
    (oddverse_Sca (mvSca mv))
    (oddverse_Vec (mvVec mv))
    (oddverse_Biv (mvBiv mv))
    (oddverse_Tri (mvTri mv)).

(** ** dirverse *)

(** g3opsUni.hpp:433-440 *)
Definition dirverse_Sca (sca : Scalar F) : Scalar F :=
  sca.

(** g3opsUni.hpp:443-450 *)
Definition dirverse_Vec (vec : Vector F) : Vector F :=
  Vec (- vec_0 vec) (- vec_1 vec) (- vec_2 vec).

(** g3opsUni.hpp:453-460 *)
Definition dirverse_Biv (biv : BiVector F) : BiVector F :=
  Biv (- biv_0 biv) (- biv_1 biv) (- biv_2 biv).

(** g3opsUni.hpp:463-470 *)
Definition dirverse_Tri (tri : TriVector F) : TriVector F :=
  tri.

(** g3opsUni.hpp:473-484 *)
Definition dirverse_Spin (spin : Spinor F) : Spinor F :=
  mkSpin (dirverse_Sca (spinSca spin)) (dirverse_Biv (spinBiv spin)).

(** g3opsUni.hpp:487-499 *)
Definition dirverse_Imsp (imsp : ImSpin F) : ImSpin F :=
  mkImsp (dirverse_Vec (imspVec imsp)) (dirverse_Tri (imspTri imsp)).

(** g3opsUni.hpp:502-509 *)
Definition dirverse_Cplx (cplex : ComPlex F) : ComPlex F :=
  cplex.

(** g3opsUni.hpp:512-523 *)
Definition dirverse_Dplx (dplex : DirPlex F) : DirPlex F :=
  mkDplx (dirverse_Vec (dplxVec dplex)) (dirverse_Biv (dplxBiv dplex)).

(** g3opsUni.hpp:526-539 *)
Definition dirverse_Mvec (mv : MultiVector F) : MultiVector F :=
  mkMvec
    (dirverse_Sca (mvSca mv))
    (dirverse_Vec (mvVec mv))
    (dirverse_Biv (mvBiv mv))
    (dirverse_Tri (mvTri mv)).

(** ** dual *)

(** g3opsUni.hpp:546-553 *)
Definition dual_Dub (dub : F) : TriVector F :=
  Tri dub.

(** g3opsUni.hpp:556-563 *)
Definition dual_Sca (sca : Scalar F) : TriVector F :=
  mkTri (scaData sca).

(** g3opsUni.hpp:566-573 *)
Definition dual_Vec (vec : Vector F) : BiVector F :=
  mkBiv (vecData vec).

(** g3opsUni.hpp:576-587 *)
Definition dual_Biv (biv : BiVector F) : Vector F :=
  Vec (- biv_0 biv) (- biv_1 biv) (- biv_2 biv).

(** g3opsUni.hpp:590-597 *)
Definition dual_Tri (tri : TriVector F) : Scalar F :=
  Sca (- tri_0 tri).

(** g3opsUni.hpp:600-607 *)
Definition dual_Spin (spin : Spinor F) : ImSpin F :=
  mkImsp (dual_Biv (spinBiv spin)) (dual_Sca (spinSca spin)).

(** g3opsUni.hpp:610-617 *)
Definition dual_Imsp (imsp : ImSpin F) : Spinor F :=
  mkSpin (dual_Tri (imspTri imsp)) (dual_Vec (imspVec imsp)).

(** g3opsUni.hpp:620-627 *)
Definition dual_Cplx (cplex : ComPlex F) : ComPlex F :=
  mkCplx (dual_Tri (cplxTri cplex)) (dual_Sca (cplxSca cplex)).

(** g3opsUni.hpp:630-637 *)
Definition dual_Dplx (dplex : DirPlex F) : DirPlex F :=
  mkDplx (dual_Biv (dplxBiv dplex)) (dual_Vec (dplxVec dplex)).

(** g3opsUni.hpp:640-652 *)
Definition dual_Mvec (mv : MultiVector F) : MultiVector F :=
  mkMvec (dual_Tri (mvTri mv)) (dual_Biv (mvBiv mv))
    (dual_Vec (mvVec mv)) (dual_Sca (mvSca mv)).

(** ** The overload sets.

    Unary minus on [double] is the built-in one. [oddverse] and [dirverse] have
    no [double] overload; that line is the identity here and no theorem uses it. *)

(** overload set of g3opsUni.hpp:123-191 *)
Definition neg (t : ty) : val F t -> val F t :=
  match t with
  | TDub => nopp
  | TSca => neg_Sca
  | TVec => neg_Vec
  | TBiv => neg_Biv
  | TTri => neg_Tri
  | TSpin => neg_Spin
  | TImsp => neg_Imsp
  | TCplx => neg_Cplx
  | TDplx => neg_Dplx
  | TMvec => neg_Mvec
  end.

(** overload set of g3opsUni.hpp:198-316 *)
Definition reverse (t : ty) : val F t -> val F t :=
  match t with
  | TDub => reverse_Dub
  | TSca => reverse_Sca
  | TVec => reverse_Vec
  | TBiv => reverse_Biv
  | TTri => reverse_Tri
  | TSpin => reverse_Spin
  | TImsp => reverse_Imsp
  | TCplx => reverse_Cplx
  | TDplx => reverse_Dplx
  | TMvec => reverse_Mvec
  end.

(** overload set of g3opsUni.hpp:323-425 *)
Definition oddverse (t : ty) : val F t -> val F t :=
  match t with
  | TDub => fun x => x
  | TSca => oddverse_Sca
  | TVec => oddverse_Vec
  | TBiv => oddverse_Biv
  | TTri => oddverse_Tri
  | TSpin => oddverse_Spin
  | TImsp => oddverse_Imsp
  | TCplx => oddverse_Cplx
  | TDplx => oddverse_Dplx
  | TMvec => oddverse_Mvec
  end.

(** overload set of g3opsUni.hpp:433-539 *)
Definition dirverse (t : ty) : val F t -> val F t :=
  match t with
  | TDub => fun x => x
  | TSca => dirverse_Sca
  | TVec => dirverse_Vec
  | TBiv => dirverse_Biv
  | TTri => dirverse_Tri
  | TSpin => dirverse_Spin
  | TImsp => dirverse_Imsp
  | TCplx => dirverse_Cplx
  | TDplx => dirverse_Dplx
  | TMvec => dirverse_Mvec
  end.

(** return types of g3opsUni.hpp:546-653 *)
Definition dualTy (t : ty) : ty :=
  match t with
  | TDub => TTri
  | TSca => TTri
  | TVec => TBiv
  | TBiv => TVec
  | TTri => TSca
  | TSpin => TImsp
  | TImsp => TSpin
  | TCplx => TCplx
  | TDplx => TDplx
  | TMvec => TMvec
  end.

(** overload set of g3opsUni.hpp:546-653 *)
Definition dual (t : ty) : val F t -> val F (dualTy t) :=
  match t return val F t -> val F (dualTy t) with
  | TDub => dual_Dub
  | TSca => dual_Sca
  | TVec => dual_Vec
  | TBiv => dual_Biv
  | TTri => dual_Tri
  | TSpin => dual_Spin
  | TImsp => dual_Imsp
  | TCplx => dual_Cplx
  | TDplx => dual_Dplx
  | TMvec => dual_Mvec
  end.
End Uni.
