(** * Tactics for componentwise proofs over all operand types. *)

Require Import Reals Lra Bool List.
Require Import Verif.Num Verif.Types Verif.Priv Verif.OpsUni Verif.OpsAdd
  Verif.OpsSub Verif.OpsMul Verif.SpecCl Verif.RealInst.
Import ListNotations.
Local Open Scope R_scope.

Ltac dval x :=
  match type of x with
  | R => idtac
  | Arr1 _ => destruct x as [?x]
  | Arr3 _ => destruct x as [?x ?x ?x]
  | Scalar _ => destruct x as [x]; dval x
  | Vector _ => destruct x as [x]; dval x
  | BiVector _ => destruct x as [x]; dval x
  | TriVector _ => destruct x as [x]; dval x
  | Spinor _ => let s := fresh in let b := fresh in destruct x as [s b]; dval s; dval b
  | ImSpin _ => let s := fresh in let b := fresh in destruct x as [s b]; dval s; dval b
  | ComPlex _ => let s := fresh in let b := fresh in destruct x as [s b]; dval s; dval b
  | DirPlex _ => let s := fresh in let b := fresh in destruct x as [s b]; dval s; dval b
  | MultiVector _ =>
      let s := fresh in let v := fresh in let b := fresh in let t := fresh in
      destruct x as [s v b t]; dval s; dval v; dval b; dval t
  end.
Ltac dvals := cbn [val] in *; repeat match goal with
  | x : Scalar _ |- _ => dval x
  | x : Vector _ |- _ => dval x
  | x : BiVector _ |- _ => dval x
  | x : TriVector _ |- _ => dval x
  | x : Spinor _ |- _ => dval x
  | x : ImSpin _ |- _ => dval x
  | x : ComPlex _ |- _ => dval x
  | x : DirPlex _ |- _ => dval x
  | x : MultiVector _ |- _ => dval x
  | x : Arr1 _ |- _ => dval x
  | x : Arr3 _ |- _ => dval x
  end.
Ltac dblade k := destruct k as [[|] [|] [|]].

Ltac dring := cbv -[Rplus Rminus Rmult Ropp R R0 R1 IZR]; ring.
