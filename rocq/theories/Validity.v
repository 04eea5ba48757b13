(** * Model of include/g3validity.hpp : isValid. *)

Require Import Bool List.
Require Import Verif.Num Verif.Types.
Import ListNotations.

Section Validity.
Context {F : Type} `{Arith F}.
Local Open Scope num_scope.

(** g3validity.hpp:83-91 *)
Definition isValid_Dub (dub : F) : bool := nisnormal dub || neqb 0 dub.

(** g3validity.hpp:98-111.  A [std::array] is a list; [Dim = 0] reads
    [data[0]] out of bounds and is outside the model (answer [false]). *)
Definition isValid_arr (data : list F) : bool :=
  match data with
  | [] => false
  | x :: r => fold_left (fun okay y => okay && isValid_Dub y) r (isValid_Dub x)
  end.

(** g3validity.hpp:114-125: only [theData[0]] is inspected. *)
Definition isValid_Sca (b : Scalar F) : bool := isValid_Dub (sca_0 b).
(** g3validity.hpp:114-125 *)
Definition isValid_Vec (b : Vector F) : bool := isValid_Dub (vec_0 b).
(** g3validity.hpp:114-125 *)
Definition isValid_Biv (b : BiVector F) : bool := isValid_Dub (biv_0 b).
(** g3validity.hpp:114-125 *)
Definition isValid_Tri (b : TriVector F) : bool := isValid_Dub (tri_0 b).
(** g3validity.hpp:128-135 *)
Definition isValid_Spin (s : Spinor F) : bool :=
  isValid_Sca (spinSca s) && isValid_Biv (spinBiv s).
(** g3validity.hpp:138-145 *)
Definition isValid_Imsp (s : ImSpin F) : bool :=
  isValid_Vec (imspVec s) && isValid_Tri (imspTri s).
(** g3validity.hpp:148-155 *)
Definition isValid_Cplx (c : ComPlex F) : bool :=
  isValid_Sca (cplxSca c) && isValid_Tri (cplxTri c).
(** g3validity.hpp:158-165 *)
Definition isValid_Dplx (d : DirPlex F) : bool :=
  isValid_Vec (dplxVec d) && isValid_Biv (dplxBiv d).
(** g3validity.hpp:168-180 *)
Definition isValid_Mvec (mv : MultiVector F) : bool :=
  isValid_Sca (mvSca mv) && isValid_Vec (mvVec mv)
  && isValid_Biv (mvBiv mv) && isValid_Tri (mvTri mv).

(** The overload set, g3validity.hpp:83-180. *)
Definition isValid (t : ty) : val F t -> bool :=
  match t with
  | TDub => isValid_Dub
  | TSca => isValid_Sca
  | TVec => isValid_Vec
  | TBiv => isValid_Biv
  | TTri => isValid_Tri
  | TSpin => isValid_Spin
  | TImsp => isValid_Imsp
  | TCplx => isValid_Cplx
  | TDplx => isValid_Dplx
  | TMvec => isValid_Mvec
  end.
End Validity.
