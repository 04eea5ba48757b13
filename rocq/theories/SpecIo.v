(** * Specification: numbers and objects as text. *)

Require Import Reals ZArith List Ascii.
From Flocq Require Import Core BinarySingleNaN.
Require Import Verif.Types Verif.B64 Verif.SpecValid Verif.SpecCompare Verif.SpecText.
Import ListNotations.
Local Open Scope R_scope.

(** The numbers of components of the grades; added up. *)
Definition grade_sizes (t : ty) : list nat := map snd (slices t).
Definition total (ns : list nat) : nat := fold_right Nat.add 0%nat ns.

(** The nearest multiple of 10^-k, ties to an even one. *)
Definition nearest_decimal (k : Z) (r : R) : R := IZR (ZnearestE (r * powerRZ 10 k)) * powerRZ 10 (- k).

(** No superfluous zero in front. *)
Definition normal_int (ds : list nat) : Prop := (length ds = 1 \/ (1 < length ds /\ hd 0 ds <> 0))%nat.
(** [p] digits after the point; no point for none. *)
Definition point_digits (p : nat) (fr : option (list nat)) : Prop :=
  match p with O => fr = None | S _ => exists ds, fr = Some ds /\ length ds = p end.
Definition minus_if (s : bool) : option bool := if s then Some true else None.

(** [tok] is [x] with [p] digits after the point.  [nanneg] is the sign a NaN
    is printed with. *)
Definition shows_fixed (nanneg : bool) (p : nat) (x : f64) (tok : list ascii) : Prop :=
  match x with
  | B754_nan => tok = sign_chars (minus_if nanneg) ++ ["n"; "a"; "n"]%char
  | B754_infinity s => tok = sign_chars (minus_if s) ++ ["i"; "n"; "f"]%char
  | _ => exists n, tok = numeral_text n /\ proper n /\ nm_sign n = minus_if (Bsign x) /\
      normal_int (nm_int n) /\ point_digits p (nm_frac n) /\ nm_exp n = None /\
      numeral_value n = nearest_decimal (Z.of_nat p) (B2R x)
  end.
(** [tok] is [x] in scientific notation with [p] digits after the point. *)
Definition shows_sci (nanneg : bool) (p : nat) (x : f64) (tok : list ascii) : Prop :=
  match x with
  | B754_nan => tok = sign_chars (minus_if nanneg) ++ ["n"; "a"; "n"]%char
  | B754_infinity s => tok = sign_chars (minus_if s) ++ ["i"; "n"; "f"]%char
  | _ => exists n eneg eds, tok = numeral_text n /\ proper n /\ nm_sign n = minus_if (Bsign x) /\
      (exists d, nm_int n = [d] /\ (B2R x <> 0 -> d <> 0%nat)) /\ point_digits p (nm_frac n) /\
      nm_exp n = Some (false, Some eneg, eds) /\ (length eds = 2 \/ (2 < length eds /\ hd 0 eds <> 0))%nat /\
      (B2R x = 0 -> numeral_value n = 0 /\ eneg = false /\ eds = [0; 0]%nat) /\
      (B2R x <> 0 -> exists e, powerRZ 10 e <= Rabs (B2R x) < powerRZ 10 (e + 1) /\
         numeral_value n = nearest_decimal (Z.of_nat p - e) (B2R x))
  end.

(** The fields of the components set out grade by grade. *)
Fixpoint intercalate (sep : list ascii) (l : list (list ascii)) : list ascii :=
  match l with [] => [] | [x] => x | x :: r => x ++ sep ++ intercalate sep r end.
Definition layout (sep gap : list ascii) (t : ty) (fields : list (list ascii)) : list ascii :=
  intercalate gap (map (fun p => intercalate sep (slice fields p)) (slices t)).

(** A number that fits a field of [lead] digits before the point and [p]
    after it. *)
Definition fits (lead p : Z) (x : f64) : Prop :=
  (is_finite x = true /\ (1 <= lead)%Z /\ Rabs (nearest_decimal p (B2R x)) < powerRZ 10 lead) \/
  (is_finite x = false /\ (2 <= lead + p)%Z).

(** A text that is empty or begins with white space. *)
Definition opens (b : list ascii) : Prop := match b with [] => True | c :: _ => white c end.
(** [v] differs from [x] by at most [tol], absolute or relative to [x]. *)
Definition close_to (tol : R) (x v : f64) : Prop := Rabs (B2R v - B2R x) <= tol.
Definition rounded_to (tol : R) (x v : f64) : Prop := Rabs (B2R v - B2R x) <= tol * Rabs (B2R x).
(** Zero, or well inside the range of normal numbers. *)
Definition moderate (x : f64) : Prop :=
  is_finite x = true /\ (B2R x = 0 \/ bpow radix2 (-1021) <= Rabs (B2R x) <= bpow radix2 1023).
(** The numbers of the first [k] grades of an object can be read off the front
    of a text. *)
Definition readable (t : ty) (k : nat) (s : list ascii) (vs : list f64) (rest : list ascii) : Prop :=
  reads_all s vs rest /\ Forall valid_number vs /\ length vs = total (firstn k (grade_sizes t)).
