(** What the preprocessor makes of a list of [#include] lines.

    Every file of /repo/include is wrapped in an include guard (lines 26-27
    and last line of each), so the text of a file appears where the file is
    first reached, and nothing appears when it is reached again.  As all
    [#include] lines of a file precede its declarations, the text is a
    sequence of whole files, a file following those it includes. *)

From Coq Require Import String List Bool Arith.
From Verif Require Import Headers.
Import ListNotations.

Definition is_in (h : header) (l : list header) : bool :=
  if in_dec header_eq_dec h l then true else false.

Section Preprocessor.

(** the [#include] lines of the files: [includes] for the code as it is *)
Context (incs : header -> list header).

(** The preprocessor at the line [#include h].  [guards] are the guards
    defined so far.  The results are the guards defined afterwards and the
    files whose declarations the line is replaced by, in order.  The guard is
    defined before the [#include] lines of the file itself are met (line 27
    of each file).  [depth] bounds the nesting. *)
Fixpoint include (depth : nat) (guards : list header) (h : header)
  : list header * list header :=
  match depth with
  | O => (guards, [])
  | S d =>
      if is_in h guards then (guards, [])
      else
        let '(g, out) :=
          fold_left
            (fun s h' => let '(g, out) := s in
                         let '(g', out') := include d g h' in
                         (g', out ++ out'))
            (incs h) (h :: guards, []) in
        (g, out ++ [h])
  end.

(** a sequence of [#include] lines *)
Definition include_all (depth : nat) (guards : list header) (l : list header)
  : list header * list header :=
  fold_left
    (fun s h' => let '(g, out) := s in
                 let '(g', out') := include depth g h' in
                 (g', out ++ out'))
    l (guards, []).

(** files are nested less deeply than this *)
Definition max_depth : nat := length all_headers.

(** the files that a source file beginning with the lines [#include h], for
    [h] in [l], consists of, in order *)
Definition files_of (l : list header) : list header :=
  snd (include_all max_depth [] l).

(** its declarations, in order *)
Definition text_of (l : list header) : list decl :=
  flat_map declarations (files_of l).

End Preprocessor.

(** What the compiler checks of names: each name that a declaration refers to
    is declared by then (in C++ a function may refer to itself). *)
Fixpoint accepted_after (known : list string) (t : list decl) : bool :=
  match t with
  | [] => true
  | d :: t' =>
      let known' := declares d ++ known in
      forallb (fun n => existsb (String.eqb n) known') (refers d)
      && accepted_after known' t'
  end.

Definition accepted (t : list decl) : bool := accepted_after [] t.

(** the source files of the tests begin with checks.hpp, which begins with
    these lines (/repo/test/checks.hpp, lines 26-31) *)
Definition checks_hpp : list header := [h_g3io; h_g3compare; h_std].
