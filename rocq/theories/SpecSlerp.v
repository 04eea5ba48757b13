(** * Specification vocabulary: powers of spinors, chains of mirrors. *)

Require Import Reals List.
Require Import Verif.Num Verif.Types Verif.OpsUni Verif.OpsMul Verif.Const Verif.Func Verif.SpecFunc Verif.SpecGeom Verif.RealInst.
Import ListNotations.
Local Open Scope R_scope.

(** The client expression [exp(t * logG2(S, plane))]. *)
Definition power (S : Spinor R) (plane : BiVector R) (t : R) : Spinor xreal :=
  exp_Spin (mul_Dub_Spin (Some t : xreal) (logG2 (exact TSpin S) (exact TBiv plane))).

(** [w] comes from [v] by mirroring in the planes with normals [a1], [b1],
    [a2], [b2], ..., one after the other, for [l = (a1, b1) :: (a2, b2) :: ...]. *)
Inductive mirrors : list (Vector R * Vector R) -> Vector R -> Vector R -> Prop :=
| mirrors_none v : mirrors nil v v
| mirrors_two a b l v p q w : mirrored a v p -> mirrored b p q -> mirrors l q w -> mirrors ((a, b) :: l) v w.

(** The client expression [... * (b2 * a2) * (b1 * a1)], and the product of the
    squared lengths. *)
Fixpoint mirror_product (l : list (Vector R * Vector R)) : Spinor R :=
  match l with
  | nil => one_Spin
  | (a, b) :: l => mul TSpin TSpin (mirror_product l) (mul TVec TVec b a)
  end.
Fixpoint mirror_scale (l : list (Vector R * Vector R)) : R :=
  match l with
  | nil => 1
  | (a, b) :: l => dot a a * dot b b * mirror_scale l
  end.
