(** * Specification: client expressions of any size.

    A client expression combines values by the library's operators.  [eval]
    is what the model computes, with no result where an overload is missing;
    [meaning] is the multivector the expression stands for. *)

Require Import Reals ZArith List Bool.
From Flocq Require Import Core BinarySingleNaN.
Require Import Verif.Num Verif.Types Verif.Priv Verif.OpsUni Verif.OpsAdd Verif.OpsSub Verif.OpsMul Verif.Const Verif.Func
  Verif.SpecCl Verif.SpecFunc Verif.B64 Verif.SpecRound.
Import ListNotations.
Local Open Scope R_scope.

Inductive uop : Set := UNeg | URev | UOdd | UDir | UDual | UMv | UMagSq.
Inductive prog (F : Type) : Type :=
  | PLeaf (t : ty) (x : val F t)
  | PUni (u : uop) (p : prog F)
  | PMul (p q : prog F)
  | PAdd (p q : prog F)
  | PSub (p q : prog F).
Arguments PLeaf {F}. Arguments PUni {F}. Arguments PMul {F}. Arguments PAdd {F}. Arguments PSub {F}.

(** Types. *)
Definition uniTy (u : uop) (t : ty) : ty :=
  match u with UDual => dualTy t | UMv => TMvec | UMagSq => TDub | _ => t end.
Definition bind2 {A B C} (f : A -> B -> option C) (p : option A) (q : option B) : option C :=
  match p, q with Some a, Some b => f a b | _, _ => None end.
Fixpoint typ {F} (p : prog F) : option ty :=
  match p with
  | PLeaf t _ => Some t
  | PUni u p => match typ p with Some t => Some (uniTy u t) | None => None end
  | PMul p q => bind2 (fun a b => Some (mulTy a b)) (typ p) (typ q)
  | PAdd p q => bind2 addTy (typ p) (typ q)
  | PSub p q => bind2 subTy (typ p) (typ q)
  end.

(** Evaluation by the model. *)
Definition tval (F : Type) : Type := { t : ty & val F t }.
Definition uni {F} {RF : Ring0 F} (u : uop) (t : ty) : val F t -> val F (uniTy u t) :=
  match u return val F t -> val F (uniTy u t) with
  | UNeg => neg t | URev => reverse t | UOdd => oddverse t | UDir => dirverse t
  | UDual => dual t | UMv => to_mv t | UMagSq => magSq t
  end.
Definition some_val {F} (o : option ty) : oval F o -> option (tval F) :=
  match o with Some t => fun x => Some (existT _ t x) | None => fun _ => None end.
Fixpoint eval {F} {RF : Ring0 F} (p : prog F) : option (tval F) :=
  match p with
  | PLeaf t x => Some (existT _ t x)
  | PUni u p => match eval p with Some x => Some (existT _ _ (uni u _ (projT2 x))) | None => None end
  | PMul p q => bind2 (fun x y => Some (existT _ _ (mul _ _ (projT2 x) (projT2 y)))) (eval p) (eval q)
  | PAdd p q => bind2 (fun x y => some_val _ (add _ _ (projT2 x) (projT2 y))) (eval p) (eval q)
  | PSub p q => bind2 (fun x y => some_val _ (sub _ _ (projT2 x) (projT2 y))) (eval p) (eval q)
  end.

(** The six pairs of C03 are not used for differences. *)
Fixpoint no_wrong_sign {F} (p : prog F) : Prop :=
  match p with
  | PLeaf _ _ => True
  | PUni _ p => no_wrong_sign p
  | PMul p q | PAdd p q => no_wrong_sign p /\ no_wrong_sign q
  | PSub p q => no_wrong_sign p /\ no_wrong_sign q /\
      forall a b, typ p = Some a -> typ q = Some b -> ~ wrong_sign_pair a b
  end.

(** The multivector meant. *)
Definition cuni (u : uop) (a : clf) : clf :=
  match u with
  | UNeg => copp a | URev => crev a | UOdd => codd a | UDir => cdir a
  | UDual => gp (cbasis bE123) a | UMv => a | UMagSq => cscale (cnorm2 a) cone
  end.
Fixpoint meaning (p : prog R) : clf :=
  match p with
  | PLeaf t x => den t x
  | PUni u p => cuni u (meaning p)
  | PMul p q => gp (meaning p) (meaning q)
  | PAdd p q => cadd (meaning p) (meaning q)
  | PSub p q => csub (meaning p) (meaning q)
  end.
Fixpoint mapp {F G} (f : F -> G) (p : prog F) : prog G :=
  match p with
  | PLeaf t x => PLeaf t (mapv f t x)
  | PUni u p => PUni u (mapp f p)
  | PMul p q => PMul (mapp f p) (mapp f q)
  | PAdd p q => PAdd (mapp f p) (mapp f q)
  | PSub p q => PSub (mapp f p) (mapp f q)
  end.
Definition meant (p : prog f64) : clf := meaning (mapp (fun v : f64 => B2R v) p).

(** Properties of all values written in an expression. *)
Fixpoint every_leaf {F} (Q : forall t, val F t -> Prop) (p : prog F) : Prop :=
  match p with
  | PLeaf t x => Q t x
  | PUni _ p => every_leaf Q p
  | PMul p q | PAdd p q | PSub p q => every_leaf Q p /\ every_leaf Q q
  end.
Fixpoint some_leaf {F} (Q : forall t, val F t -> Prop) (p : prog F) : Prop :=
  match p with
  | PLeaf t x => Q t x
  | PUni _ p => some_leaf Q p
  | PMul p q | PAdd p q | PSub p q => some_leaf Q p \/ some_leaf Q q
  end.
(** Two expressions that differ in the values written only. *)
Inductive alike {F} (Q : forall t, val F t -> val F t -> Prop) : prog F -> prog F -> Prop :=
  | alike_leaf : forall t x y, Q t x y -> alike Q (PLeaf t x) (PLeaf t y)
  | alike_uni : forall u p q, alike Q p q -> alike Q (PUni u p) (PUni u q)
  | alike_mul : forall p q p' q', alike Q p p' -> alike Q q q' -> alike Q (PMul p q) (PMul p' q')
  | alike_add : forall p q p' q', alike Q p p' -> alike Q q q' -> alike Q (PAdd p q) (PAdd p' q')
  | alike_sub : forall p q p' q', alike Q p p' -> alike Q q q' -> alike Q (PSub p q) (PSub p' q').
Inductive alike_result {F} (Q : forall t, val F t -> val F t -> Prop) : option (tval F) -> option (tval F) -> Prop :=
  | alike_none : alike_result Q None None
  | alike_some : forall t x y, Q t x y -> alike_result Q (Some (existT _ t x)) (Some (existT _ t y)).
Fixpoint no_dual {F} (p : prog F) : Prop :=
  match p with
  | PLeaf _ _ => True
  | PUni UDual _ => False
  | PUni _ p => no_dual p
  | PMul p q | PAdd p q | PSub p q => no_dual p /\ no_dual q
  end.

(** Running bounds: [size] of the norm of the multivector meant, [error] of
    the value computed.  A product of two values of the types DirPlex and
    MultiVector may be longer than the product of the lengths. *)
Definition stretch (a b : option ty) : R :=
  match a, b with Some a, Some b => if unmixed a || unmixed b then 1 else sqrt 2 | _, _ => sqrt 2 end.
Fixpoint size (p : prog f64) : R :=
  match p with
  | PLeaf t x => cnorm (exactly t x)
  | PUni UMagSq p => size p * size p
  | PUni _ p => size p
  | PMul p q => stretch (typ p) (typ q) * (size p * size q)
  | PAdd p q | PSub p q => size p + size q
  end.
Fixpoint error (p : prog f64) : R :=
  match p with
  | PLeaf _ _ => 0
  | PUni UMagSq p => let m := size p + error p in
      error p * (2 * size p + error p) + 9 * unit_roundoff * (m * m) + 9 * underflow_unit
  | PUni _ p => error p
  | PMul p q =>
      stretch (typ p) (typ q) * (size p * error q + error p * (size q + error q)) +
      26 * unit_roundoff * ((size p + error p) * (size q + error q)) + 26 * underflow_unit
  | PAdd p q | PSub p q =>
      error p + error q + unit_roundoff * (size p + error p + (size q + error q))
  end.

(** Bounds of integers: a product has components that are sums of at most
    eight products; a squared magnitude has two more for its starting zeros. *)
Fixpoint integer_bound (M : Z) {F} (p : prog F) : Z :=
  match p with
  | PLeaf _ _ => M
  | PUni UMagSq p => 10 * (integer_bound M p * integer_bound M p)
  | PUni _ p => integer_bound M p
  | PMul p q => 8 * (integer_bound M p * integer_bound M q)
  | PAdd p q | PSub p q => integer_bound M p + integer_bound M q
  end.
Definition integers (M : Z) (t : ty) (x : val f64 t) : Prop :=
  Forall (fun v => is_finite v = true /\ exists n : Z, (Z.abs n <= M)%Z /\ B2R v = IZR n) (elems t x).

(** A product of any number of values, from left to right, for example of
    the spinors of a sequence of rotations. *)
Definition chain {F} (x : tval F) (l : list (tval F)) : prog F :=
  fold_left (fun p v => PMul p (PLeaf (projT1 v) (projT2 v))) l (PLeaf (projT1 x) (projT2 x)).

(** Bounds of exponents, where the values written are below 2^e. *)
Fixpoint exponent_bound (e : Z) {F} (p : prog F) : Z :=
  match p with
  | PLeaf _ _ => e
  | PUni UMagSq p => 2 * exponent_bound e p + 3
  | PUni _ p => exponent_bound e p
  | PMul p q => exponent_bound e p + exponent_bound e q + 3
  | PAdd p q | PSub p q => Z.max (exponent_bound e p) (exponent_bound e q) + 1
  end.
