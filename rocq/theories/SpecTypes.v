(** * Specification: where the components of each type belong.

    The documented index of a component within its own type is its place in
    the list [elems] of stored numbers; [slot t i] is the place of that
    component among the eight of a MultiVector (scalar; e1 e2 e3; e23 e31 e12;
    e123). *)

Require Import NArith List Bool.
Require Import Verif.Num Verif.Types.
Import ListNotations.

Definition slots (t : ty) : list nat :=
  match t with
  | TDub | TSca => [0]
  | TVec => [1; 2; 3]
  | TBiv => [4; 5; 6]
  | TTri => [7]
  | TSpin => [0; 4; 5; 6]
  | TImsp => [1; 2; 3; 7]
  | TCplx => [0; 7]
  | TDplx => [1; 2; 3; 4; 5; 6]
  | TMvec => [0; 1; 2; 3; 4; 5; 6; 7]
  end.

(** Place of [k] in a list. *)
Fixpoint place (k : nat) (l : list nat) : option nat :=
  match l with
  | [] => None
  | x :: r => if Nat.eqb x k then Some 0 else option_map S (place k r)
  end.

(** The eight numbers of the embedding of [x]: its own components in their
    slots, [z] elsewhere. *)
Definition embedding {F} (z : F) (t : ty) (x : val F t) : list F :=
  map (fun k => match place k (slots t) with Some i => nth i (elems t x) z | None => z end)
      [0; 1; 2; 3; 4; 5; 6; 7].

(** Indices are values of [std::size_t]. *)
Definition is_size (i : N) : Prop := (i < 2 ^ 64)%N.

(** The list with its [i]-th element replaced. *)
Fixpoint replace {F} (i : nat) (x : F) (l : list F) : list F :=
  match l, i with
  | [], _ => []
  | _ :: r, O => x :: r
  | y :: r, S i' => y :: replace i' x r
  end.
