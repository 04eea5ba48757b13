(** * Specification: numbers in general notation; the demonstration program. *)

Require Import Reals ZArith Ascii String List.
From Flocq Require Import Core BinarySingleNaN.
Require Import Verif.Num Verif.Types Verif.B64 Verif.Stream Verif.SpecRound Verif.SpecSame Verif.SpecText Verif.SpecIo.
Import ListNotations.
Local Open Scope R_scope.

(** No zero at the end of a fraction, and no empty one. *)
Definition no_end_zero (fr : option (list nat)) : Prop :=
  match fr with None => True | Some ds => ds <> [] /\ last ds 0%nat <> 0%nat end.
(** One digit that is not 0, and the exponent [x] with two digits or more. *)
Definition with_exponent (x : Z) (n : numeral) : Prop :=
  (exists d, nm_int n = [d] /\ d <> 0%nat) /\
  exists eneg eds, nm_exp n = Some (false, Some eneg, eds) /\ exponent n = x /\ (x = 0%Z -> eneg = false) /\
    (length eds = 2 \/ (2 < length eds /\ hd 0 eds <> 0))%nat.
(** [tok] is [x] with up to [P] significant digits: rounded to [P] of them,
    written without exponent if the exponent of the rounded value is from -4
    to [P - 1], and otherwise with one. *)
Definition shows_general (nanneg : bool) (P : nat) (x : f64) (tok : list ascii) : Prop :=
  match x with
  | B754_nan => tok = sign_chars (minus_if nanneg) ++ ["n"; "a"; "n"]%char
  | B754_infinity s => tok = sign_chars (minus_if s) ++ ["i"; "n"; "f"]%char
  | B754_zero s => tok = sign_chars (minus_if s) ++ ["0"%char]
  | _ => exists n e k, tok = numeral_text n /\ proper n /\ nm_sign n = minus_if (Bsign x) /\ normal_int (nm_int n) /\ no_end_zero (nm_frac n) /\
      powerRZ 10 e <= Rabs (B2R x) < powerRZ 10 (e + 1) /\
      numeral_value n = nearest_decimal (Z.of_nat P - 1 - e) (B2R x) /\
      powerRZ 10 k <= Rabs (numeral_value n) < powerRZ 10 (k + 1) /\
      ((-4 <= k < Z.of_nat P)%Z -> nm_exp n = None) /\ (~ (-4 <= k < Z.of_nat P)%Z -> with_exponent k n)
  end.

(** In the notation and with the precision a stream is set to; a negative
    precision counts as 6, and in general notation 0 as 1. *)
Definition shows_as (nanneg : bool) (nt : notation) (prec : Z) (x : f64) (tok : list ascii) : Prop :=
  let p := Z.to_nat (if Z_lt_dec prec 0 then 6 else prec) in
  match nt with
  | general => shows_general nanneg (Nat.max p 1) x tok
  | fixed_nt => shows_fixed nanneg p x tok
  | scientific => shows_sci nanneg p x tok
  end.
(** Lines: a label, a number, the end of the line. *)
Definition labelled (labels toks : list (list ascii)) : list ascii :=
  concat (map (fun p => fst p ++ snd p ++ ["010"%char]) (combine labels toks)).
(** [s] shows an object with six decimals. *)
Definition shows_object (nanneg : bool) (t : ty) (x : val f64 t) (s : list ascii) : Prop :=
  Forall2 (shows_fixed nanneg 6) (elems t x) (words s).
(** The text of the demonstration program around the numbers in it. *)
Definition nl : ascii := "010"%char.
Definition str (s : string) : list ascii := list_ascii_of_string s.
Definition demo_text (d t1 t2 t3 t4 t5 t6 t7 t8 : list ascii) : list ascii :=
  nl :: str "Basic Types" ++ nl ::
  str "dub: " ++ d ++ nl :: str "sca: " ++ t1 ++ nl :: str "vec: " ++ t2 ++ nl ::
  str "biv: " ++ t3 ++ nl :: str "tri: " ++ t4 ++ nl ::
  nl :: str "Composite Types" ++ nl ::
  str "spinAB: " ++ t5 ++ nl :: str "imspAB: " ++ t6 ++ nl ::
  str "multiOrig: " ++ t7 ++ nl :: str "multiCopy: " ++ t8 ++ [nl].
(** The labels in the text of exp(MultiVector). *)
Definition exp_labels : list (list ascii) :=
  map str ["apos: "; "aneg: "; "cospos: "; "cosneg: "; "syncpos: "; "syncneg: "; "hea0  : "; "epa123: "; "ena123: "; " sum  : "]%string.
