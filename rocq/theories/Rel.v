(** * Two runs of the model on related numbers give related results.

    [R] relates numbers of two carriers and is respected by the six ring
    operations; then it relates the results of every operator (proofs only). *)

Require Import List.
Require Import Verif.Num Verif.Types Verif.Priv Verif.OpsUni Verif.OpsAdd Verif.OpsSub
  Verif.OpsMul Verif.Const Verif.Func.
Import ListNotations.

Record ring_rel {F G : Type} (RF : Ring0 F) (RG : Ring0 G) (R : F -> G -> Prop) : Prop := {
  rr_zero : R nzero nzero;
  rr_one : R none_ none_;
  rr_add : forall a b c d, R a c -> R b d -> R (nadd a b) (nadd c d);
  rr_sub : forall a b c d, R a c -> R b d -> R (nsub a b) (nsub c d);
  rr_mul : forall a b c d, R a c -> R b d -> R (nmul a b) (nmul c d);
  rr_opp : forall a c, R a c -> R (nopp a) (nopp c)
}.

(** Componentwise relation. *)
Definition relv {F G : Type} (R : F -> G -> Prop) (t : ty) (x : val F t) (y : val G t) : Prop :=
  Forall2 R (elems t x) (elems t y).
Definition relo {F G : Type} (R : F -> G -> Prop) (o : option ty) : oval F o -> oval G o -> Prop :=
  match o with
  | Some t => relv R t
  | None => fun _ _ => True
  end.

Ltac dv x :=
  match type of x with
  | Arr1 _ => destruct x as [?x]
  | Arr3 _ => destruct x as [?x ?x ?x]
  | Scalar _ => destruct x as [x]; dv x
  | Vector _ => destruct x as [x]; dv x
  | BiVector _ => destruct x as [x]; dv x
  | TriVector _ => destruct x as [x]; dv x
  | Spinor _ => let s := fresh in let b := fresh in destruct x as [s b]; dv s; dv b
  | ImSpin _ => let s := fresh in let b := fresh in destruct x as [s b]; dv s; dv b
  | ComPlex _ => let s := fresh in let b := fresh in destruct x as [s b]; dv s; dv b
  | DirPlex _ => let s := fresh in let b := fresh in destruct x as [s b]; dv s; dv b
  | MultiVector _ =>
      let s := fresh in let v := fresh in let b := fresh in let t := fresh in
      destruct x as [s v b t]; dv s; dv v; dv b; dv t
  end.
Ltac dvs := cbn [val] in *; repeat match goal with
  | x : Scalar _ |- _ => dv x
  | x : Vector _ |- _ => dv x
  | x : BiVector _ |- _ => dv x
  | x : TriVector _ |- _ => dv x
  | x : Spinor _ |- _ => dv x
  | x : ImSpin _ |- _ => dv x
  | x : ComPlex _ |- _ => dv x
  | x : DirPlex _ |- _ => dv x
  | x : MultiVector _ |- _ => dv x
  end.
Ltac inv2 := repeat match goal with
  | H : Forall2 _ (_ :: _) (_ :: _) |- _ => inversion H; subst; clear H
  | H : Forall2 _ [] [] |- _ => clear H
  end.

Section Rel.
Context {F G : Type} {RF : Ring0 F} {RG : Ring0 G} {R : F -> G -> Prop} (HR : ring_rel RF RG R).

Ltac rrs := repeat first
  [ assumption | exact (rr_zero _ _ _ HR) | exact (rr_one _ _ _ HR) | apply (rr_add _ _ _ HR)
  | apply (rr_sub _ _ _ HR) | apply (rr_mul _ _ _ HR) | apply (rr_opp _ _ _ HR) ].
Ltac go := unfold relv in *; dvs;
  cbv -[nzero none_ nadd nsub nmul nopp] in *; inv2;
  repeat (apply Forall2_cons || apply Forall2_nil); rrs.

Lemma mul_rel : forall a b x y x' y', relv R a x x' -> relv R b y y' ->
  relv R (mulTy a b) (mul a b x y) (mul a b x' y').
Proof. intros a b x y x' y' Hx Hy; destruct a, b; go. Qed.
Lemma add_rel : forall a b x y x' y', relv R a x x' -> relv R b y y' ->
  relo R (addTy a b) (add a b x y) (add a b x' y').
Proof. intros a b x y x' y' Hx Hy; destruct a, b; try exact I; go. Qed.
Lemma sub_rel : forall a b x y x' y', relv R a x x' -> relv R b y y' ->
  relo R (subTy a b) (sub a b x y) (sub a b x' y').
Proof. intros a b x y x' y' Hx Hy; destruct a, b; try exact I; go. Qed.
Lemma neg_rel : forall t x x', relv R t x x' -> relv R t (neg t x) (neg t x').
Proof. intros t x x' Hx; destruct t; go. Qed.
Lemma reverse_rel : forall t x x', relv R t x x' -> relv R t (reverse t x) (reverse t x').
Proof. intros t x x' Hx; destruct t; go. Qed.
Lemma oddverse_rel : forall t x x', relv R t x x' -> relv R t (oddverse t x) (oddverse t x').
Proof. intros t x x' Hx; destruct t; go. Qed.
Lemma dirverse_rel : forall t x x', relv R t x x' -> relv R t (dirverse t x) (dirverse t x').
Proof. intros t x x' Hx; destruct t; go. Qed.
Lemma dual_rel : forall t x x', relv R t x x' -> relv R (dualTy t) (dual t x) (dual t x').
Proof. intros t x x' Hx; destruct t; go. Qed.
Lemma magSq_rel : forall t x x', relv R t x x' -> R (magSq t x) (magSq t x').
Proof. intros t x x' Hx; destruct t; go. Qed.
Lemma scale_rel : forall t r r' x x', R r r' -> relv R t x x' -> relv R t (scale t r x) (scale t r' x').
Proof. intros t r r' x x' Hr Hx; destruct t; go. Qed.
Lemma zero_rel : forall t, relv R t (zero t) (zero t).
Proof. intros t; destruct t; go. Qed.
Lemma to_mv_rel : forall t x x', relv R t x x' -> relv R TMvec (to_mv t x) (to_mv t x').
Proof. intros t x x' Hx; destruct t; go. Qed.
End Rel.
