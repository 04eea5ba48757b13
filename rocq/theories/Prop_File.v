(** * Several objects in one text. *)

Require Import Reals ZArith Bool Ascii String List.
From Flocq Require Import Core BinarySingleNaN.
Require Import Verif.Num Verif.Types Verif.B64 Verif.Validity Verif.Stream Verif.Io Verif.SpecValid Verif.SpecRound Verif.SpecCompare
  Verif.SpecText Verif.SpecIo Verif.IoThm Verif.SpecProg Verif.SpecFile Verif.FileFacts.
Import ListNotations.

(** C70: objects of any types and in any number whose enote texts with 17 or
    more digits make up the words of a text are read back one after the
    other, exactly, whatever the white space; what follows stays. *)
Theorem C70_sequence : forall nn a l texts, (16 <= a < 2 ^ 31)%Z -> Forall2 (enote_of nn a) l texts -> Forall storable l ->
  forall fresh s more, words s = concat (map words texts) ++ more ->
  exists i', read_types fresh (types_of l) (mkIs s false false) = Some (map filled l, i') /\
    words (is_text i') = more /\ is_fail i' = false.
Proof. exact sequence_back. Qed.
Print Assumptions C70_sequence.
(** Such as one text on each line. *)
Theorem C70_lines : forall nn a l texts, (16 <= a < 2 ^ 31)%Z -> Forall2 (enote_of nn a) l texts -> Forall storable l -> forall fresh,
  exists i', read_types fresh (types_of l) (mkIs (lines texts) false false) = Some (map filled l, i') /\ is_fail i' = false.
Proof. exact lines_back. Qed.
Print Assumptions C70_lines.
(** A loop over objects of one type collects just these: it stops at the end
    of the text and at a word that does not begin like a number. *)
Theorem C70_loop : forall nn a t f l, enote nn t = Some f -> t <> TDub -> (16 <= a < 2 ^ 31)%Z -> Forall (all_valid t) l ->
  forall s more, words s = concat (map (fun x => words (f x a)) l) ++ more -> stuck more ->
  exists i', is_fail i' = true /\ forall x fuel, (length l < fuel)%nat ->
  read_loop fuel t x (mkIs s false false) = Some (map (mapv Some t) l, i').
Proof. exact loop_back. Qed.
Print Assumptions C70_loop.
(** The loop ends on every text, after no more rounds than it has characters;
    what it collects depends on the stream only, and every component has been
    written. *)
Theorem C70_terminates : forall t i, t <> TDub -> exists l i', is_fail i' = true /\ (length l <= length (is_text i))%nat /\
  forall x fuel, (length (is_text i) < fuel)%nat -> read_loop fuel t x i = Some (map (mapv Some t) l, i').
Proof. exact loop_terminates. Qed.
Print Assumptions C70_terminates.
(** Objects written with operator<<, a line each, to one stream: they come
    back in number and type, and within 10^-6. *)
Theorem C70_printed : forall nn l os os', (white (os_fill os) \/ os_width os <= 0)%Z ->
  Forall (fun v => projT1 v <> TDub /\ all_finite (projT1 v) (projT2 v)) l -> write_all nn l os = Some os' ->
  exists s l', os_out os' = os_out os ++ s /\ Forall2 (near_value (powerRZ 10 (-6))) l l' /\ Forall storable l' /\
  forall fresh, exists i', read_types fresh (types_of l) (mkIs s false false) = Some (map filled l', i') /\ is_fail i' = false.
Proof. exact printed_back. Qed.
Print Assumptions C70_printed.
(** Validity is needed in the first theorems.  A first component that is
    finite but not valid makes its vector NaN, and the vector read next is
    made of the rest of this one and the beginning of the other; the stream
    does not fail. *)
Theorem C70_misaligned_refuted : forall nn a f (x y z u v w : f64), enote nn TVec = Some f -> (16 <= a < 2 ^ 31)%Z ->
  is_finite x = true -> ~ valid_number x -> valid_number y -> valid_number z -> valid_number u -> forall fresh,
  exists i', read_types fresh [TVec; TVec] (mkIs (lines [f (Vec x y z) a; f (Vec u v w) a]) false false) =
    Some ([filled (existT _ TVec (Vec nnan nnan nnan)); filled (existT _ TVec (Vec y z u))], i') /\ is_fail i' = false.
Proof. exact misaligned. Qed.
Print Assumptions C70_misaligned_refuted.
Example C70_example_storable : Forall storable two_objects.
Proof. exact two_storable. Qed.
Example C70_example_tiny : is_finite tiny = true /\ ~ valid_number tiny.
Proof. exact tiny_finite. Qed.
Example C70_example_loop : forall c : cell,
  shown (read_loop 40 TVec (Vec c c c) (mkIs (text_of " 1 -2.5
 3e2 4 5 6 total 7 8 9") false false)) =
  Some ([[num 1 0; num (-5) (-1); num 300 0]; [num 4 0; num 5 0; num 6 0]], text_of "total 7 8 9", false, true).
Proof. exact loop_shown. Qed.
