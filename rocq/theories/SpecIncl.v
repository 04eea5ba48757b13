(** Specification: a text in which every name is declared before it is used,
    and no name is declared twice. *)

From Coq Require Import String List.
From Verif Require Import Headers.
Import ListNotations.

(** [n] is declared somewhere in [t] *)
Definition declared (n : string) (t : list decl) : Prop :=
  exists d, In d t /\ In n (declares d).

(** wherever a declaration stands, all it refers to is declared before it, or
    by itself *)
Definition in_order (t : list decl) : Prop :=
  forall before d after n,
    t = before ++ d :: after -> In n (refers d) ->
    declared n before \/ In n (declares d).

(** no name is declared twice *)
Definition no_repetition (t : list decl) : Prop :=
  NoDup (flat_map declares t).

(** the names of all the files *)
Definition library_name (n : string) : Prop :=
  exists h d, In d (declarations h) /\ In n (declares d).

(** [h] is included by [h'], directly or through others, or is it *)
Inductive reaches (incs : header -> list header) : header -> header -> Prop :=
  | reaches_self h : reaches incs h h
  | reaches_step h h' h'' :
      In h' (incs h) -> reaches incs h' h'' -> reaches incs h h''.
