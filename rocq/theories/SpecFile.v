(** * Specification: clients that read several objects from one text. *)

Require Import List Ascii.
Require Import Verif.Types Verif.B64 Verif.SpecValid Verif.Stream Verif.Io Verif.SpecText Verif.SpecIo Verif.SpecProg.
Import ListNotations.

(** Objects of given types, one after the other: [T x; is >> x;].  [fresh] is
    what their memory contains before. *)
Fixpoint read_types (fresh : forall t, val cell t) (ts : list ty) (i : istream) : option (list (tval cell) * istream) :=
  match ts with
  | [] => Some ([], i)
  | t :: r =>
      match extract t i (fresh t) with
      | Some (y, i') =>
          match read_types fresh r i' with
          | Some (l, i'') => Some (existT _ t y :: l, i'')
          | None => None
          end
      | None => None
      end
  end.
(** [T x; while (is >> x) list.push_back(x);], for at most [fuel] rounds;
    [None] if these do not suffice. *)
Fixpoint read_loop (fuel : nat) (t : ty) (x : val cell t) (i : istream) : option (list (val cell t) * istream) :=
  match fuel with
  | O => None
  | S fuel =>
      match extract t i x with
      | Some (y, i') =>
          if is_fail i' then Some ([], i')
          else match read_loop fuel t y i' with
               | Some (l, i'') => Some (y :: l, i'')
               | None => None
               end
      | None => None
      end
  end.

Definition types_of (l : list (tval f64)) : list ty := map (fun v => projT1 v) l.
(** All cells written. *)
Definition filled (v : tval f64) : tval cell := existT _ (projT1 v) (mapv Some (projT1 v) (projT2 v)).
(** Texts on a line each. *)
Definition lines (l : list text) : text := concat (map (fun s => s ++ ["010"%char]) l).
(** A word no number begins with. *)
Definition no_number (w : text) : Prop :=
  match w with c :: _ => ~ In c ("+"%char :: "-"%char :: "."%char :: digit_chars) | [] => False end.
(** No number to read: no word at all, or such a word first. *)
Definition stuck (ws : list text) : Prop := match ws with [] => True | w :: _ => no_number w end.
(** An object of the library with valid components. *)
Definition storable (v : tval f64) : Prop := projT1 v <> TDub /\ all_valid (projT1 v) (projT2 v).
(** The text that enote gives. *)
Definition enote_of (nn : bool) (a : BinNums.Z) (v : tval f64) (s : text) : Prop :=
  exists f, enote nn (projT1 v) = Some f /\ s = f (projT2 v) a.
(** [os << x << '\n'] for one object after the other. *)
Fixpoint write_all (nn : bool) (l : list (tval f64)) (os : ostream) : option ostream :=
  match l with
  | [] => Some os
  | v :: r =>
      match insert nn (projT1 v) with
      | Some f => write_all nn r (put_text (f (projT2 v) os) ["010"%char])
      | None => None
      end
  end.
(** The same type, each component within [tol]. *)
Definition near_value (tol : Rdefinitions.R) (v w : tval f64) : Prop :=
  exists t x y, v = existT _ t x /\ w = existT _ t y /\ Forall2 (close_to tol) (elems t x) (elems t y).
