(** * Text streams of the C++ library, as far as g3io.hpp uses them.

    This file models the environment, not Engabra: number formatting
    ([std::num_put], C locale, exact decimal conversion with ties to even),
    number parsing ([std::num_get], C locale, correctly rounded conversion),
    and the stream state both act on.  It follows the GNU implementation
    where the standard leaves a choice. *)

Require Import ZArith List Bool Ascii.
From Flocq Require Import Core BinarySingleNaN.
Require Import Verif.B64.
Import ListNotations.
Local Open Scope Z_scope.

Definition text := list ascii.
Definition c_space : ascii := " "%char.

(** [std::size_t] arithmetic and its conversion to [int], both modular. *)
Definition to_size (n : Z) : Z := n mod 2 ^ 64.
Definition to_int (n : Z) : Z := (n + 2 ^ 31) mod 2 ^ 32 - 2 ^ 31.

(** ** Decimal digits *)
Definition digit (d : Z) : ascii := ascii_of_N (Z.to_N (48 + d)).
(** The [k] lowest digits of [n]. *)
Fixpoint digits (k : nat) (n : Z) : text :=
  match k with
  | O => []
  | S k => digits k (n / 10) ++ [digit (n mod 10)]
  end.
(** Number of digits of [n], at least one; [fuel] bounds the iterations. *)
Fixpoint ndigits (fuel : nat) (n : Z) : nat :=
  match fuel with
  | O => 1%nat
  | S f => if n <? 10 then 1%nat else S (ndigits f (n / 10))
  end.
Definition dlen (n : Z) : nat := ndigits (Z.to_nat (Z.log2 n)) n.
Definition dec (n : Z) : text := digits (dlen n) n.

(** [num / den] rounded to an integer, ties to even. *)
Definition div_even (num den : Z) : Z :=
  let q := num / den in
  match 2 * (num mod den) ?= den with
  | Lt => q
  | Eq => if Z.even q then q else q + 1
  | Gt => q + 1
  end.

(** ** Number formatting: [printf] conversions f and e of [num / den >= 0]. *)
Definition point (p : nat) (frac : Z) : text :=
  match p with O => [] | S _ => "."%char :: digits p frac end.
Definition fixed_text (p : nat) (num den : Z) : text :=
  let n := div_even (num * 10 ^ Z.of_nat p) den in
  dec (n / 10 ^ Z.of_nat p) ++ point p (n mod 10 ^ Z.of_nat p).

(** Decimal exponent of [num / den]. *)
Definition exp10 (num den : Z) : Z :=
  let e := Z.of_nat (dlen num) - Z.of_nat (dlen den) in
  if den * 10 ^ (Z.max e 0) <=? num * 10 ^ (Z.max (- e) 0) then e else e - 1.
(** Mantissa of [p + 1] digits and exponent. *)
Definition sci_parts (p : nat) (num den : Z) : Z * Z :=
  if num =? 0 then (0, 0)
  else
    let e := exp10 num den in
    let k := Z.of_nat p - e in
    let n := div_even (num * 10 ^ (Z.max k 0)) (den * 10 ^ (Z.max (- k) 0)) in
    if n =? 10 ^ (Z.of_nat p + 1) then (10 ^ Z.of_nat p, e + 1) else (n, e).
Definition exp_text (e : Z) : text :=
  "e"%char :: (if e <? 0 then "-"%char else "+"%char) ::
  (if Z.abs e <? 10 then "0"%char :: dec (Z.abs e) else dec (Z.abs e)).
Definition sci_text (p : nat) (num den : Z) : text :=
  let '(n, e) := sci_parts p num den in
  dec (n / 10 ^ Z.of_nat p) ++ point p (n mod 10 ^ Z.of_nat p) ++ exp_text e.

(** Conversion g: scientific notation with [P - 1] digits after the point, or
    fixed notation with as many digits in all if the exponent is from -4 to
    [P - 1]; zeros at the end of the fraction are left out, and so is a point
    nothing would follow. *)
Fixpoint strip_zeros (s : text) : text :=
  match s with
  | [] => []
  | c :: r =>
      match strip_zeros r with
      | [] => if ascii_dec c "0"%char then [] else [c]
      | r' => c :: r'
      end
  end.
Definition short_point (p : nat) (frac : Z) : text :=
  match strip_zeros (digits p frac) with [] => [] | d => "."%char :: d end.
Definition general_text (p : nat) (num den : Z) : text :=
  let P := Nat.max p 1 in
  let '(n, x) := sci_parts (P - 1) num den in
  if (-4 <=? x) && (x <? Z.of_nat P)
  then
    let q := Z.to_nat (Z.of_nat P - 1 - x) in
    let n' := div_even (num * 10 ^ Z.of_nat q) den in
    dec (n' / 10 ^ Z.of_nat q) ++ short_point q (n' mod 10 ^ Z.of_nat q)
  else dec (n / 10 ^ Z.of_nat (P - 1)) ++ short_point (P - 1) (n mod 10 ^ Z.of_nat (P - 1)) ++ exp_text x.

(** The library selects the latter two; [general] is what a new stream has. *)
Inductive notation := general | fixed_nt | scientific.
Definition magnitude_text (nt : notation) (p : nat) (num den : Z) : text :=
  match nt with
  | general => general_text p num den
  | fixed_nt => fixed_text p num den
  | scientific => sci_text p num den
  end.
Definition sign_text (s : bool) : text := if s then ["-"%char] else [].

(** The value as a fraction. *)
Definition frac_num (m : positive) (e : Z) : Z := Zpos m * 2 ^ (Z.max e 0).
Definition frac_den (e : Z) : Z := 2 ^ (Z.max (- e) 0).
(** A negative precision counts as 6.  A NaN may print with or without a
    sign: [nanneg] says which (its sign is not part of [f64]). *)
Definition num_text (nanneg : bool) (nt : notation) (prec : Z) (x : f64) : text :=
  let p := Z.to_nat (if prec <? 0 then 6 else prec) in
  match x with
  | B754_zero s => sign_text s ++ magnitude_text nt p 0 1
  | B754_infinity s => sign_text s ++ ["i"; "n"; "f"]%char
  | B754_nan => sign_text nanneg ++ ["n"; "a"; "n"]%char
  | B754_finite s m e _ => sign_text s ++ magnitude_text nt p (frac_num m e) (frac_den e)
  end.

(** ** Output streams *)
Record ostream := mkOs {
  os_out : text;        (* everything written so far *)
  os_nt : notation;
  os_prec : Z;
  os_width : Z;
  os_fill : ascii;
  os_left : bool        (* adjustfield is left *)
}.
(** A new [std::stringstream]. *)
Definition os_new : ostream := mkOs [] general 6 0 c_space false.

Definition padded (os : ostream) (s : text) : text :=
  let n := Z.to_nat (os_width os - Z.of_nat (length s)) in
  if os_left os then s ++ repeat (os_fill os) n else repeat (os_fill os) n ++ s.
(** [ostrm << s] for a string, [ostrm << x] for a double: the width is used
    up. *)
Definition put_text (os : ostream) (s : text) : ostream :=
  mkOs (os_out os ++ padded os s) (os_nt os) (os_prec os) 0 (os_fill os) (os_left os).
Definition put_num (nanneg : bool) (os : ostream) (x : f64) : ostream :=
  put_text os (num_text nanneg (os_nt os) (os_prec os) x).
(** [std::fixed], [std::scientific], [std::setprecision], [std::setw]. *)
Definition set_notation (nt : notation) (os : ostream) : ostream :=
  mkOs (os_out os) nt (os_prec os) (os_width os) (os_fill os) (os_left os).
Definition set_precision (n : Z) (os : ostream) : ostream :=
  mkOs (os_out os) (os_nt os) (to_int n) (os_width os) (os_fill os) (os_left os).
Definition set_width (n : Z) (os : ostream) : ostream :=
  mkOs (os_out os) (os_nt os) (os_prec os) (to_int n) (os_fill os) (os_left os).

(** ** Number parsing *)
Definition code (c : ascii) : Z := Z.of_N (N_of_ascii c).
Definition is_digit (c : ascii) : bool := (48 <=? code c) && (code c <=? 57).
Definition is_space (c : ascii) : bool := (code c =? 32) || ((9 <=? code c) && (code c <=? 13)).
Definition is_sign (c : ascii) : bool := (code c =? 43) || (code c =? 45).
Definition is_exp (c : ascii) : bool := (code c =? 101) || (code c =? 69).

Fixpoint skip_space (s : text) : text :=
  match s with
  | c :: r => if is_space c then skip_space r else s
  | [] => []
  end.
(** Longest prefix of digits. *)
Fixpoint span_digits (s : text) : text * text :=
  match s with
  | c :: r => if is_digit c then let '(d, r') := span_digits r in (c :: d, r') else ([], s)
  | [] => ([], [])
  end.
Definition take_sign (s : text) : bool * text :=
  match s with
  | c :: r => if is_sign c then (code c =? 45, r) else (false, s)
  | [] => (false, [])
  end.
Definition digits_value (d : text) : Z := fold_left (fun n c => 10 * n + (code c - 48)) d 0.

(** The characters [num_get] collects: sign, digits, point, digits and, once
    a digit has been seen, an exponent.  The result is the sign, the digits
    before and after the point, the exponent if its letter was taken (sign,
    digits), and the remaining text. *)
Definition scan (s : text) : bool * text * text * option (bool * text) * text :=
  let '(neg, s) := take_sign s in
  let '(ip, s) := span_digits s in
  let '(fp, s) := match s with
                  | c :: r => if code c =? 46 then span_digits r else ([], s)
                  | [] => ([], [])
                  end in
  match s with
  | c :: r =>
      if is_exp c && negb (Nat.eqb (length (ip ++ fp)) 0) then
        let '(eneg, r) := take_sign r in
        let '(ed, r) := span_digits r in
        (neg, ip, fp, Some (eneg, ed), r)
      else (neg, ip, fp, None, s)
  | [] => (neg, ip, fp, None, [])
  end.

(** [strtod]: the double nearest to [(-1)^neg * n * 10^k], an infinity if
    that is out of range. *)
Definition nearest_frac (neg : bool) (num den : positive) : f64 :=
  SF2B _ (proj1 (Bdiv_correct_aux 53 1024 _ _ mode_NE neg num 0 false den 0)).
Definition decimal (neg : bool) (n k : Z) : f64 :=
  match n with
  | Zpos m =>
      if 0 <=? k then nearest_frac neg (Z.to_pos (n * 10 ^ k)) 1
      else nearest_frac neg m (Z.to_pos (10 ^ (- k)))
  | _ => B754_zero neg
  end.
Definition f64_max (neg : bool) : f64 :=
  if neg then Bopp (f64_lit (2 ^ 53 - 1) 971) else f64_lit (2 ^ 53 - 1) 971.

(** Conversion of the collected characters: the value stored and whether it
    succeeded. *)
Definition convert (neg : bool) (ip fp : text) (ex : option (bool * text)) : f64 * bool :=
  let d := ip ++ fp in
  let bad_exp := match ex with Some (_, []) => true | _ => false end in
  if (Nat.eqb (length d) 0) || bad_exp then (B754_zero false, false)
  else
    let e := match ex with
             | Some (true, ed) => - digits_value ed
             | Some (false, ed) => digits_value ed
             | None => 0
             end in
    match decimal neg (digits_value d) (e - Z.of_nat (length fp)) with
    | B754_infinity s => (f64_max s, false)
    | v => (v, true)
    end.

(** ** Input streams *)
Record istream := mkIs { is_text : text; is_eof : bool; is_fail : bool }.

(** [istrm >> x]: a cell may be uninitialised ([None]); it is left alone when
    the stream is not good or has no more characters. *)
Definition get_num (is : istream) (cell : option f64) : option f64 * istream :=
  if is_eof is || is_fail is then (cell, mkIs (is_text is) (is_eof is) true)
  else
    match skip_space (is_text is) with
    | [] => (cell, mkIs [] true true)
    | s =>
        let '(neg, ip, fp, ex, rest) := scan s in
        let '(v, okay) := convert neg ip fp ex in
        (Some v, mkIs rest (match rest with [] => true | _ => false end) (negb okay))
    end.
