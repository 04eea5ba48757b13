(** * Specification: identities of the algebra that hold to the bit. *)

Require Import List.
From Flocq Require Import BinarySingleNaN.
Require Import Verif.Num Verif.Types Verif.B64 Verif.SpecRound.
Import ListNotations.

(** All eight components of a value of any type. *)
Definition parts {F} `{Ring0 F} (t : ty) (x : val F t) : list F := elems TMvec (to_mv t x).
(** The same doubles, signs of zeros apart. *)
Definition identical (l m : list f64) : Prop := Forall2 same_but_zero_sign l m.

(** Types of values that commute with everything. *)
Definition central (t : ty) : Prop := t = TDub \/ t = TSca \/ t = TTri \/ t = TCplx.

(** Rename the axes: 1 to 3, 2 to 1, 3 to 2. *)
Definition cycle {F} (t : ty) : val F t -> val F t :=
  let v := fun (x : Vector F) => Vec (vec_1 x) (vec_2 x) (vec_0 x) in
  let b := fun (x : BiVector F) => Biv (biv_1 x) (biv_2 x) (biv_0 x) in
  match t with
  | TDub => fun x => x | TSca => fun x => x | TTri => fun x => x | TCplx => fun x => x
  | TVec => v | TBiv => b
  | TSpin => fun x => mkSpin (spinSca x) (b (spinBiv x))
  | TImsp => fun x => mkImsp (v (imspVec x)) (imspTri x)
  | TDplx => fun x => mkDplx (v (dplxVec x)) (b (dplxBiv x))
  | TMvec => fun x => mkMvec (mvSca x) (v (mvVec x)) (b (mvBiv x)) (mvTri x)
  end.

(** The pairs of types whose product is not computed like that of the
    MultiVectors they stand for. *)
Definition own_order : list (ty * ty) :=
  [(TVec, TSpin); (TVec, TImsp); (TVec, TMvec); (TBiv, TSpin); (TBiv, TImsp); (TBiv, TMvec);
   (TSpin, TVec); (TSpin, TBiv); (TSpin, TSpin); (TSpin, TImsp); (TSpin, TDplx); (TSpin, TMvec);
   (TImsp, TVec); (TImsp, TBiv); (TImsp, TSpin); (TImsp, TImsp); (TImsp, TDplx); (TImsp, TMvec);
   (TDplx, TSpin); (TDplx, TImsp); (TDplx, TDplx); (TDplx, TMvec);
   (TMvec, TVec); (TMvec, TBiv); (TMvec, TSpin); (TMvec, TImsp); (TMvec, TDplx)].
(** The pairs for which reversing the product is not to the bit multiplying
    the reverses. *)
Definition no_reverse : list (ty * ty) := [(TSpin, TImsp); (TImsp, TSpin); (TImsp, TImsp); (TMvec, TMvec)].
(** The pairs for which the dual of the product is not to the bit the product
    with the dual of the first, and of the second, factor. *)
Definition no_dual_left : list (ty * ty) := [(TSpin, TSpin); (TImsp, TSpin); (TDplx, TMvec); (TMvec, TMvec)].
Definition no_dual_right : list (ty * ty) := [(TSpin, TSpin); (TSpin, TImsp); (TMvec, TDplx); (TMvec, TMvec)].

(** The scalar component, the trivector component, the six between. *)
Definition scalar_of (l : list f64) : f64 := nth 0 l (B754_zero false).
Definition trivector_of (l : list f64) : f64 := nth 7 l (B754_zero false).
Definition between (l : list f64) : list f64 := firstn 6 (skipn 1 l).
Definition finites (l : list f64) : Prop := Forall (fun c : f64 => is_finite c = true) l.
Definition zeros (l : list f64) : Prop := Forall (fun c : f64 => exists s, c = B754_zero s) l.
