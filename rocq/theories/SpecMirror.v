(** * Specification: reflections in the coordinate planes and negation. *)

Require Import Arith List Bool.
From Flocq Require Import BinarySingleNaN.
Require Import Verif.Types Verif.Priv Verif.B64 Verif.SpecCl Verif.SpecSame.
Import ListNotations.

(** The basis blades of the components, in memory order. *)
Definition comps (t : ty) : list blade :=
  match t with
  | TDub => [bS]
  | TSca => [bS]
  | TVec => [bE1; bE2; bE3]
  | TBiv => [bE23; bE13; bE12]
  | TTri => [bE123]
  | TSpin => [bS; bE23; bE13; bE12]
  | TImsp => [bE1; bE2; bE3; bE123]
  | TCplx => [bS; bE123]
  | TDplx => [bE1; bE2; bE3; bE23; bE13; bE12]
  | TMvec => [bS; bE1; bE2; bE3; bE23; bE13; bE12; bE123]
  end.

(** [y] has the components of [x], with another sign for the blades that [s]
    selects; up to the sign of zero. *)
Definition mirrored (s : blade -> bool) (t : ty) (x y : val f64 t) : Prop :=
  Forall2 same (map (fun p => if s (fst p) then Bopp (snd p) else snd p) (combine (comps t) (elems t x))) (elems t y).
Definition mirroredo (s : blade -> bool) (o : option ty) : oval f64 o -> oval f64 o -> Prop :=
  match o with Some t => mirrored s t | None => fun _ _ => True end.

(** The same with all signs, those of zeros too. *)
Definition image (s : blade -> bool) (t : ty) (x y : val f64 t) : Prop :=
  elems t y = map (fun p => if s (fst p) then Bopp (snd p) else snd p) (combine (comps t) (elems t x)).

(** Reflections: e1 changes its sign if [r1], and so on; [c] negates
    everything besides. *)
Definition mirror (c r1 r2 r3 : bool) (k : blade) : bool :=
  xorb c (xorb (r1 && in1 k) (xorb (r2 && in2 k) (r3 && in3 k))).
(** Reversal besides. *)
Definition mirror_rev (v r1 r2 r3 : bool) (k : blade) : bool :=
  xorb (v && (2 <=? grade k)%nat) (mirror false r1 r2 r3 k).
(** The blade times e1e2e3. *)
Definition complement (k : blade) : blade := bxor k bE123.
