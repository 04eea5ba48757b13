(** * Text input and output.

    [nn] is the sign a NaN is printed with; the claims hold for both. *)

Require Import Reals ZArith Bool Ascii String List.
From Flocq Require Import Core BinarySingleNaN.
Require Import Verif.Num Verif.Types Verif.B64 Verif.Validity Verif.Stream Verif.Io Verif.SpecValid Verif.SpecRound Verif.SpecCompare
  Verif.SpecText Verif.SpecIo Verif.InFacts Verif.OutFacts Verif.RoundTrip Verif.IoThm.
Import ListNotations.
Local Open Scope R_scope.

(** C43: an extraction never reads memory that was not written before and
    sets every component to a value that depends on the stream only. *)
Theorem C43_initialised : forall t i, t <> TDub ->
  exists y i', forall x : val cell t, extract t i x = Some (mapv Some t y, i').
Proof. exact extract_initialised. Qed.
Print Assumptions C43_initialised.
(** The object is valid exactly if its numbers can be read; then they are its
    components, in order, and just they have been consumed. *)
Theorem C43_valid_iff : forall t s x y i', t <> TDub -> extract t (mkIs s false false) x = Some (mapv Some t y, i') ->
  (isValid t y = true <-> exists vs rest, readable t (length (slices t)) s vs rest) /\
  (forall vs rest, readable t (length (slices t)) s vs rest -> elems t y = vs /\ i' = mkIs rest (nilb rest) false).
Proof. exact extract_iff. Qed.
Print Assumptions C43_valid_iff.
(** A valid object has no invalid component, although isValid looks at the
    first of each grade only. *)
Theorem C43_all_valid : forall t i x y i', t <> TDub -> extract t i x = Some (mapv Some t y, i') ->
  isValid t y = true -> all_valid t y.
Proof. exact valid_is_all. Qed.
Print Assumptions C43_all_valid.
(** The grades in front are kept, the first that cannot be read is NaN. *)
Theorem C43_failing_grade : forall t s x y i' k, t <> TDub -> extract t (mkIs s false false) x = Some (mapv Some t y, i') ->
  forall vs rest, readable t k s vs rest -> firstn (length vs) (elems t y) = vs /\
    ((forall vs' rest', ~ readable t (S k) s vs' rest') ->
     Forall (fun v => is_nan v = true) (slice (elems t y) (nth k (slices t) (0%nat, 0%nat)))).
Proof. exact extract_grades. Qed.
Print Assumptions C43_failing_grade.
(** Whatever the stream, no grade is mixed. *)
Theorem C43_each_grade : forall t i x y i', t <> TDub -> extract t i x = Some (mapv Some t y, i') ->
  Forall (fun p => Forall valid_number (slice (elems t y) p) \/
                   Forall (fun v => is_nan v = true) (slice (elems t y) p)) (slices t).
Proof. exact each_grade. Qed.
Print Assumptions C43_each_grade.
(** Nothing is read from a stream at its end or in error. *)
Theorem C43_dead_stream : forall t i x y i', t <> TDub -> is_eof i = true \/ is_fail i = true ->
  extract t i x = Some (mapv Some t y, i') -> all_nan t y /\ is_fail i' = true.
Proof. exact extract_dead. Qed.
Print Assumptions C43_dead_stream.
Example C43_example_valid : outcome TVec " 1 -2.5
 3e2 x" = Some ([num 1 0; num (-5) (-1); num 300 0], text_of " x", false, false).
Proof. exact vector_read. Qed.
Example C43_example_short : outcome TSpin "1 2 3" = Some ([num 1 0; nan_; nan_; nan_], [], true, true).
Proof. exact spinor_short. Qed.
(** After an invalid number the rest of its grade is not skipped: the next
    grade begins with it. *)
Example C43_example_shifted :
  outcome TImsp "1e-310 2 3 4" = Some ([nan_; nan_; nan_; num 2 0], text_of " 3 4", false, false).
Proof. exact imspin_shifted. Qed.

(** C44: one word per component, in order, each the decimal text of that
    component: for fixed, enote and operator<<.  [p] is the number of digits
    asked for as long as it is an [int]. *)
Theorem C44_fixed : forall nn t f, fixed nn t = Some f -> forall x b a, exists p, ((0 <= a < 2 ^ 31)%Z -> Z.of_nat p = a) /\
  Forall2 (shows_fixed nn p) (elems t x) (words (f x b a)).
Proof. exact fixed_words. Qed.
Print Assumptions C44_fixed.
Theorem C44_enote : forall nn t f, enote nn t = Some f -> forall x a, exists p, ((0 <= a < 2 ^ 31)%Z -> Z.of_nat p = a) /\
  Forall2 (shows_sci nn p) (elems t x) (words (f x a)).
Proof. exact enote_words. Qed.
Print Assumptions C44_enote.
(** The fill character only matters if a field width was left on the stream. *)
Theorem C44_operator : forall nn t f, insert nn t = Some f -> forall x os, white (os_fill os) \/ (os_width os <= 0)%Z ->
  exists s, os_out (f x os) = os_out os ++ s /\ Forall2 (shows_fixed nn 6) (elems t x) (words s).
Proof. exact insert_words. Qed.
Print Assumptions C44_operator.
(** So texts with up to 307 digits after the point can be read; every
    component comes back within one unit of the last digit. *)
Theorem C44_fixed_read : forall nn t f, fixed nn t = Some f -> t <> TDub -> forall x b a rest, (0 <= a <= 307)%Z ->
  all_finite t x -> opens rest -> exists y r, words r = words rest /\
  Forall2 (close_to (powerRZ 10 (- a))) (elems t x) (elems t y) /\ all_valid t y /\ forall x0,
    extract t (mkIs (f x b a ++ rest) false false) x0 = Some (mapv Some t y, mkIs r (nilb r) false).
Proof. exact fixed_approx. Qed.
Print Assumptions C44_fixed_read.
Theorem C44_operator_read : forall nn t f, insert nn t = Some f -> t <> TDub -> forall x os rest,
  white (os_fill os) \/ (os_width os <= 0)%Z ->
  all_finite t x -> opens rest -> exists s y r, os_out (f x os) = os_out os ++ s /\ words r = words rest /\
  Forall2 (close_to (powerRZ 10 (- 6))) (elems t x) (elems t y) /\ all_valid t y /\ forall x0,
    extract t (mkIs (s ++ rest) false false) x0 = Some (mapv Some t y, mkIs r (nilb r) false).
Proof. exact insert_approx. Qed.
Print Assumptions C44_operator_read.
Example C44_example : forall nn,
  map (option_map (fun f => f (mkImsp (Vec (f64_lit 1 0) (f64_lit (-5) (-2)) (B754_infinity true)) (Tri third)) 2 3)%Z)
    [fixed nn TImsp] = [Some (text_of "   1.000  -1.250    -inf     0.300")].
Proof. exact fixed_shown. Qed.
(** Without the condition on the fill character the words run together. *)
Example C44_operator_glued : forall nn,
  option_map (fun f => os_out (f (Vec (f64_lit 1 0) (f64_lit 1 0) (f64_lit 1 0))
    (mkOs [] fixed_nt 6 40 "*"%char true))) (insert nn TVec)
  = Some (text_of "    1.000000    1.000000    1.000000****").
Proof. exact glued. Qed.

(** C45: the fields of fixed. *)
Theorem C45_columns : forall nn t f, fixed nn t = Some f -> forall x b a, (0 <= b -> 0 <= a -> b + a + 2 < 2 ^ 31 ->
  exists fields, f x b a = layout [] [" "; " "]%char t fields /\
    Forall2 (fun v s => exists k tok, s = repeat " "%char (S k) ++ tok /\ shows_fixed nn (Z.to_nat a) v tok /\
                        b + a + 3 <= Z.of_nat (length s) /\ (fits b a v -> Z.of_nat (length s) = b + a + 3))
      (elems t x) fields)%Z.
Proof. exact fixed_columns. Qed.
Print Assumptions C45_columns.
Example C45_example : fits 2 3 (f64_lit (-5) (-2)) /\ ~ fits 2 3 (f64_lit 100 0).
Proof. exact fits_cases. Qed.

(** C46: text of enote with 17 or more digits gives back the same value, for
    objects and for single doubles. *)
Theorem C46_objects : forall nn t f, enote nn t = Some f -> t <> TDub -> forall x a rest, (16 <= a < 2 ^ 31)%Z -> all_valid t x ->
  opens rest -> exists r, words r = words rest /\ forall x0,
    extract t (mkIs (f x a ++ rest) false false) x0 = Some (mapv Some t x, mkIs r (nilb r) false).
Proof. exact enote_round_trip. Qed.
Print Assumptions C46_objects.
Theorem C46_numbers : forall nn (x : f64) a rest d, is_finite x = true -> (16 <= a < 2 ^ 31)%Z -> opens rest ->
  exists r, words r = words rest /\
    get_num (mkIs (enote_Dub nn x a ++ rest) false false) d = (Some x, mkIs r (nilb r) false).
Proof. exact enote_number. Qed.
Print Assumptions C46_numbers.
(** With fewer digits (15 is the default) the relative error is at most one
    unit of the last digit, away from the ends of the range. *)
Theorem C46_fewer_digits : forall nn t f, enote nn t = Some f -> t <> TDub -> forall x a rest, (1 <= a < 2 ^ 31)%Z ->
  Forall moderate (elems t x) -> opens rest -> exists y r, words r = words rest /\
  Forall2 (rounded_to (powerRZ 10 (- a))) (elems t x) (elems t y) /\ forall x0,
    extract t (mkIs (f x a ++ rest) false false) x0 = Some (mapv Some t y, mkIs r (nilb r) false).
Proof. exact enote_approx. Qed.
Print Assumptions C46_fewer_digits.
(** The default does not give back every value. *)
Theorem C46_default_refuted : forall nn, ~ (forall x : f64, valid_number x -> reads_back nn x 15).
Proof. exact default_loses. Qed.
Print Assumptions C46_default_refuted.
(** Nor does every number of digits from 16: the conversion to [int] loses
    the upper bits. *)
Theorem C46_narrowing_refuted : forall nn, ~ (forall (x : f64) a, valid_number x -> (16 <= a)%Z -> reads_back nn x a).
Proof. exact narrowed. Qed.
Print Assumptions C46_narrowing_refuted.
(** At the ends of the range the default is not even read as a number. *)
Example C46_largest : valid_number dmax /\
  forall nn d, is_fail (snd (get_num (mkIs (enote_Dub nn dmax 15) false false) d)) = true.
Proof. exact (conj dmax_valid dmax_unreadable). Qed.
Example C46_smallest : valid_number dmin /\
  forall nn d, exists v, fst (get_num (mkIs (enote_Dub nn dmin 15) false false) d) = Some v /\ ~ valid_number v.
Proof. exact (conj dmin_valid dmin_invalid). Qed.
Example C46_example : valid_number third /\
  forall nn, enote_Dub nn third 15 = text_of " 3.000000000000000e-01" /\
             enote_Dub nn third 16 = text_of " 3.0000000000000004e-01".
Proof. exact (conj third_valid third_shown). Qed.
