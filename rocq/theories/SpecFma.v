(** * Specification: other rounding modes and fused operations.

    The model's text is run on expressions; an expression then is evaluated
    in any of the ways a compiler and processor may choose. *)

Require Import Reals ZArith List Bool.
From Flocq Require Import Core BinarySingleNaN.
Require Import Verif.Num Verif.Types Verif.Priv Verif.B64.
Import ListNotations.

Inductive expr : Type :=
  | Num (x : f64)
  | Add (a b : expr)
  | Sub (a b : expr)
  | Mul (a b : expr)
  | Opp (a : expr).
Definition Ring0_expr : Ring0 expr := {|
  nzero := Num (B754_zero false); none_ := Num (f64_lit 1 0);
  nadd := Add; nsub := Sub; nmul := Mul; nopp := Opp |}.

(** A product, possibly with minus signs in front. *)
Inductive product_of (a b : expr) : bool -> expr -> Prop :=
  | prod_mul : product_of a b false (Mul a b)
  | prod_opp : forall s p, product_of a b s p -> product_of a b (negb s) (Opp p).
Definition signed (s : bool) (x : f64) : f64 := if s then Bopp x else x.

(** Evaluations.  Each operation rounds in one of the modes [P] allows; a
    product may be fused with the addition or subtraction it is an operand of,
    so that it is not rounded itself. *)
Inductive runs (P : mode -> Prop) : expr -> f64 -> Prop :=
  | run_num : forall x, runs P (Num x) x
  | run_add : forall m a b x y, P m -> runs P a x -> runs P b y -> runs P (Add a b) (Bplus m x y)
  | run_sub : forall m a b x y, P m -> runs P a x -> runs P b y -> runs P (Sub a b) (Bminus m x y)
  | run_mul : forall m a b x y, P m -> runs P a x -> runs P b y -> runs P (Mul a b) (Bmult m x y)
  | run_opp : forall a x, runs P a x -> runs P (Opp a) (Bopp x)
  | run_fma_l : forall m s p a b c x y z, P m -> product_of a b s p -> runs P a x -> runs P b y -> runs P c z ->
      runs P (Add p c) (Bfma m (signed s x) y z)
  | run_fma_r : forall m s p a b c x y z, P m -> product_of a b s p -> runs P a x -> runs P b y -> runs P c z ->
      runs P (Add c p) (Bfma m (signed s x) y z)
  | run_fms_l : forall m s p a b c x y z, P m -> product_of a b s p -> runs P a x -> runs P b y -> runs P c z ->
      runs P (Sub p c) (Bfma m (signed s x) y (Bopp z))
  | run_fms_r : forall m s p a b c x y z, P m -> product_of a b s p -> runs P a x -> runs P b y -> runs P c z ->
      runs P (Sub c p) (Bfma m (signed (negb s) x) y z).
Definition default_mode (m : mode) : Prop := m = mode_NE.
Definition any_mode (m : mode) : Prop := True.
Definition nearest_mode (m : mode) : Prop := m = mode_NE \/ m = mode_NA.

(** The operands as expressions, the outcomes of a value of expressions. *)
Definition given (t : ty) (x : val f64 t) : val expr t := mapv Num t x.
Definition outcome (P : mode -> Prop) (t : ty) (e : val expr t) (r : val f64 t) : Prop :=
  Forall2 (runs P) (elems t e) (elems t r).
