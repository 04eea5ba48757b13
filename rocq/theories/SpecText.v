(** * Specification: words, decimal numerals, what it means to read a number. *)

Require Import Reals ZArith List Ascii.
From Flocq Require Import Core BinarySingleNaN.
Require Import Verif.B64 Verif.SpecRound.
Import ListNotations.
Local Open Scope R_scope.

(** White space of the C locale: blank, \t \n \v \f \r. *)
Definition white (c : ascii) : Prop :=
  In c [" "%char; "009"%char; "010"%char; "011"%char; "012"%char; "013"%char].
Definition white_dec (c : ascii) : {white c} + {~ white c} := in_dec ascii_dec c _.

(** The maximal runs of other characters. *)
Fixpoint words_from (cur : list ascii) (s : list ascii) : list (list ascii) :=
  match s with
  | [] => match cur with [] => [] | _ => [cur] end
  | c :: r =>
      if white_dec c
      then match cur with [] => words_from [] r | _ => cur :: words_from [] r end
      else words_from (cur ++ [c]) r
  end.
Definition words (s : list ascii) : list (list ascii) := words_from [] s.

(** Decimal digits. *)
Definition digit_chars : list ascii :=
  ["0"; "1"; "2"; "3"; "4"; "5"; "6"; "7"; "8"; "9"]%char.
Definition digit_char (d : nat) : ascii := nth d digit_chars "0"%char.
Definition digits_text (ds : list nat) : list ascii := map digit_char ds.
Fixpoint digits_nat (acc : Z) (ds : list nat) : Z :=
  match ds with [] => acc | d :: r => digits_nat (10 * acc + Z.of_nat d) r end.

(** A numeral: sign, digits before the point, digits after it if there is a
    point, and exponent (lower or upper case letter, sign, digits). *)
Record numeral := mkNumeral {
  nm_sign : option bool;                      (* Some true: minus *)
  nm_int : list nat;
  nm_frac : option (list nat);
  nm_exp : option (bool * option bool * list nat)
}.
Definition sign_chars (s : option bool) : list ascii :=
  match s with None => [] | Some true => ["-"%char] | Some false => ["+"%char] end.
Definition is_minus (s : option bool) : bool := match s with Some b => b | None => false end.
Definition frac_digits (n : numeral) : list nat :=
  match nm_frac n with Some f => f | None => [] end.
Definition numeral_text (n : numeral) : list ascii :=
  sign_chars (nm_sign n) ++ digits_text (nm_int n)
  ++ match nm_frac n with None => [] | Some f => "."%char :: digits_text f end
  ++ match nm_exp n with
     | None => []
     | Some (upper, s, ds) => (if upper then "E"%char else "e"%char) :: sign_chars s ++ digits_text ds
     end.
Definition proper (n : numeral) : Prop :=
  Forall (fun d => (d < 10)%nat) (nm_int n) /\ Forall (fun d => (d < 10)%nat) (frac_digits n) /\
  nm_int n ++ frac_digits n <> [] /\
  match nm_exp n with
  | None => True
  | Some (_, _, ds) => ds <> [] /\ Forall (fun d => (d < 10)%nat) ds
  end.
Definition exponent (n : numeral) : Z :=
  match nm_exp n with
  | None => 0
  | Some (_, s, ds) => if is_minus s then - digits_nat 0 ds else digits_nat 0 ds
  end%Z.
(** Its value. *)
Definition numeral_value (n : numeral) : R :=
  (if is_minus (nm_sign n) then -1 else 1)
  * IZR (digits_nat 0 (nm_int n ++ frac_digits n))
  * powerRZ 10 (exponent n - Z.of_nat (length (frac_digits n))).

(** The numeral ends here: what follows cannot continue it. *)
Definition ends (n : numeral) (rest : list ascii) : Prop :=
  match rest with
  | [] => True
  | c :: _ =>
      ~ In c digit_chars /\
      (nm_exp n = None -> c <> "e"%char /\ c <> "E"%char /\ (nm_frac n = None -> c <> "."%char))
  end.

(** Reading the double [x] at the front of a text. *)
Definition reads (s : list ascii) (x : f64) (rest : list ascii) : Prop :=
  exists blanks n, s = blanks ++ numeral_text n ++ rest /\ Forall white blanks /\ proper n /\ ends n rest /\
    is_finite x = true /\ B2R x = nearest64 (numeral_value n) /\ Bsign x = is_minus (nm_sign n) /\
    Rabs (nearest64 (numeral_value n)) < bpow radix2 1024.
(** Nothing left to read. *)
Definition nilb {A} (l : list A) : bool := match l with [] => true | _ => false end.
(** Reading several, one after the other. *)
Inductive reads_all : list ascii -> list f64 -> list ascii -> Prop :=
| reads_none : forall s, reads_all s [] s
| reads_one : forall s x s' xs rest, reads s x s' -> reads_all s' xs rest -> reads_all s (x :: xs) rest.
