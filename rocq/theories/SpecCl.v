(** * Specification: the Clifford algebra Cl(3,0) over the real numbers.

    Independent of the model of the library (it only reads the stored
    components of a value).  A multivector is a function giving the real
    coefficient of each basis blade; a basis blade is a subset of
    {e1, e2, e3}, its generators multiplied in increasing order. *)

Require Import Reals Bool List.
Require Import Verif.Types Verif.Priv.
Import ListNotations.
Local Open Scope R_scope.

(** Which of e1, e2, e3 occur. *)
Record blade : Set := B { in1 : bool; in2 : bool; in3 : bool }.

Definition bS   := B false false false.
Definition bE1  := B true  false false.
Definition bE2  := B false true  false.
Definition bE3  := B false false true.
Definition bE12 := B true  true  false.
Definition bE13 := B true  false true.
Definition bE23 := B false true  true.
Definition bE123 := B true true true.

Definition all_blades : list blade := [bS; bE1; bE2; bE3; bE12; bE13; bE23; bE123].

Definition clf : Type := blade -> R.

(** Equal generators cancel ([e_i e_i = 1]): the product of two basis blades
    is, up to sign, the blade of the symmetric difference. *)
Definition bxor (i j : blade) : blade :=
  B (xorb (in1 i) (in1 j)) (xorb (in2 i) (in2 j)) (xorb (in3 i) (in3 j)).

(** Bringing the generators of [j] past the larger generators of [i], one sign
    change per exchange ([e_i e_j = - e_j e_i]). *)
Definition swaps_odd (i j : blade) : bool :=
  xorb (xorb (in2 i && in1 j) (in3 i && in1 j)) (in3 i && in2 j).
Definition bsign (i j : blade) : R := if swaps_odd i j then -1 else 1.

Definition rsum (l : list R) : R := fold_right Rplus 0 l.

(** The geometric product. *)
Definition gp (a b : clf) : clf := fun k =>
  rsum (map (fun i => bsign i (bxor i k) * a i * b (bxor i k)) all_blades).

Definition cadd (a b : clf) : clf := fun k => a k + b k.
Definition csub (a b : clf) : clf := fun k => a k - b k.
Definition copp (a : clf) : clf := fun k => - a k.
Definition cscale (r : R) (a : clf) : clf := fun k => r * a k.
Definition cbasis (i : blade) : clf := fun k =>
  if eqb (in1 i) (in1 k) && eqb (in2 i) (in2 k) && eqb (in3 i) (in3 k) then 1 else 0.
Definition czero : clf := fun _ => 0.
Definition cone : clf := cbasis bS.
Definition ceq (a b : clf) : Prop := forall k, a k = b k.

(** Number of generators. *)
Definition grade (k : blade) : nat :=
  (if in1 k then 1 else 0) + (if in2 k then 1 else 0) + (if in3 k then 1 else 0).

(** The three canonical involutions, by grade: reversing the order of the
    generators (grades 2, 3 change sign), negating every generator (grades
    1, 3), and both (grades 1, 2). *)
Definition crev (a : clf) : clf := fun k =>
  match grade k with 0%nat | 1%nat => a k | _ => - a k end.
Definition codd (a : clf) : clf := fun k =>
  match grade k with 1%nat | 3%nat => - a k | _ => a k end.
Definition cdir (a : clf) : clf := fun k =>
  match grade k with 1%nat | 2%nat => - a k | _ => a k end.

(** Coefficients of grade [n] only. *)
Definition cgrade (n : nat) (a : clf) : clf := fun k =>
  if Nat.eqb (grade k) n then a k else 0.

(** Sum of squared coefficients. *)
Definition cnorm2 (a : clf) : R := rsum (map (fun i => a i * a i) all_blades).

(** The defining properties of the product of Cl(3,0): bilinear, associative,
    unital; each generator squares to one; distinct generators anticommute;
    the basis blades are the ordered products of generators.
    ([AlgSpec.v] proves that [gp] has them and that nothing else does.) *)
Record is_clifford_product (P : clf -> clf -> clf) : Prop := {
  cp_ext : forall a a' b b', ceq a a' -> ceq b b' -> ceq (P a b) (P a' b');
  cp_add_l : forall a b c, ceq (P (cadd a b) c) (cadd (P a c) (P b c));
  cp_add_r : forall a b c, ceq (P c (cadd a b)) (cadd (P c a) (P c b));
  cp_scale_l : forall r a b, ceq (P (cscale r a) b) (cscale r (P a b));
  cp_scale_r : forall r a b, ceq (P a (cscale r b)) (cscale r (P a b));
  cp_assoc : forall a b c, ceq (P (P a b) c) (P a (P b c));
  cp_one_l : forall a, ceq (P cone a) a;
  cp_one_r : forall a, ceq (P a cone) a;
  cp_sq1 : ceq (P (cbasis bE1) (cbasis bE1)) cone;
  cp_sq2 : ceq (P (cbasis bE2) (cbasis bE2)) cone;
  cp_sq3 : ceq (P (cbasis bE3) (cbasis bE3)) cone;
  cp_21 : ceq (P (cbasis bE2) (cbasis bE1)) (copp (P (cbasis bE1) (cbasis bE2)));
  cp_31 : ceq (P (cbasis bE3) (cbasis bE1)) (copp (P (cbasis bE1) (cbasis bE3)));
  cp_32 : ceq (P (cbasis bE3) (cbasis bE2)) (copp (P (cbasis bE2) (cbasis bE3)));
  cp_e12 : ceq (cbasis bE12) (P (cbasis bE1) (cbasis bE2));
  cp_e13 : ceq (cbasis bE13) (P (cbasis bE1) (cbasis bE3));
  cp_e23 : ceq (cbasis bE23) (P (cbasis bE2) (cbasis bE3));
  cp_e123 : ceq (cbasis bE123) (P (P (cbasis bE1) (cbasis bE2)) (cbasis bE3))
}.

(** Linear maps of the algebra. *)
Record is_linear (f : clf -> clf) : Prop := {
  lin_ext : forall a a', ceq a a' -> ceq (f a) (f a');
  lin_add : forall a b, ceq (f (cadd a b)) (cadd (f a) (f b));
  lin_scale : forall r a, ceq (f (cscale r a)) (cscale r (f a))
}.

(** ** What a stored value stands for.

    Vector components belong to e1, e2, e3; BiVector components to
    e2e3, e3e1, e1e2, in that order ([e3e1 = - e1e3]); the TriVector
    component to e1e2e3. *)
Definition den8 (s x y z p q r t : R) : clf := fun k =>
  match k with
  | B false false false => s
  | B true  false false => x
  | B false true  false => y
  | B false false true  => z
  | B false true  true  => p
  | B true  false true  => - q
  | B true  true  false => r
  | B true  true  true  => t
  end.

Definition den (t : ty) : val R t -> clf :=
  match t with
  | TDub => fun x => den8 x 0 0 0 0 0 0 0
  | TSca => fun x => den8 (sca_0 x) 0 0 0 0 0 0 0
  | TVec => fun v => den8 0 (vec_0 v) (vec_1 v) (vec_2 v) 0 0 0 0
  | TBiv => fun b => den8 0 0 0 0 (biv_0 b) (biv_1 b) (biv_2 b) 0
  | TTri => fun x => den8 0 0 0 0 0 0 0 (tri_0 x)
  | TSpin => fun m => den8 (sca_0 (spinSca m)) 0 0 0
      (biv_0 (spinBiv m)) (biv_1 (spinBiv m)) (biv_2 (spinBiv m)) 0
  | TImsp => fun m => den8 0 (vec_0 (imspVec m)) (vec_1 (imspVec m)) (vec_2 (imspVec m))
      0 0 0 (tri_0 (imspTri m))
  | TCplx => fun m => den8 (sca_0 (cplxSca m)) 0 0 0 0 0 0 (tri_0 (cplxTri m))
  | TDplx => fun m => den8 0 (vec_0 (dplxVec m)) (vec_1 (dplxVec m)) (vec_2 (dplxVec m))
      (biv_0 (dplxBiv m)) (biv_1 (dplxBiv m)) (biv_2 (dplxBiv m)) 0
  | TMvec => fun m => den8 (sca_0 (mvSca m))
      (vec_0 (mvVec m)) (vec_1 (mvVec m)) (vec_2 (mvVec m))
      (biv_0 (mvBiv m)) (biv_1 (mvBiv m)) (biv_2 (mvBiv m)) (tri_0 (mvTri m))
  end.

(** The grades a type stores. *)
Definition has_grade (t : ty) (n : nat) : bool :=
  match t, n with
  | TDub, 0%nat | TSca, 0%nat | TVec, 1%nat | TBiv, 2%nat | TTri, 3%nat => true
  | TSpin, 0%nat | TSpin, 2%nat | TImsp, 1%nat | TImsp, 3%nat => true
  | TCplx, 0%nat | TCplx, 3%nat | TDplx, 1%nat | TDplx, 2%nat => true
  | TMvec, 0%nat | TMvec, 1%nat | TMvec, 2%nat | TMvec, 3%nat => true
  | _, _ => false
  end.

(** "Whenever the overload exists": [P] of the result, if there is one. *)
Definition if_exists {F} (P : forall t, val F t -> Prop) (o : option ty) : oval F o -> Prop :=
  match o with
  | Some t => fun x => P t x
  | None => fun _ => True
  end.
