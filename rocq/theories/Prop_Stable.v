(** * What is written from what was read back.

    [nn] is the sign a NaN is printed with; the claims hold for both. *)

Require Import Reals ZArith Bool Ascii List.
From Flocq Require Import Core BinarySingleNaN.
Require Import Verif.Num Verif.Types Verif.B64 Verif.Validity Verif.Stream Verif.Io Verif.SpecValid Verif.SpecRound Verif.SpecCompare
  Verif.SpecText Verif.SpecIo Verif.SpecStable Verif.StableFacts.
Import ListNotations.
Local Open Scope R_scope.

(** C75: a text read back may give another object, but writing that gives the
    same text: for fixed and operator<< with any finite numbers, and for any
    number of digits a valid number can be read from. *)
Theorem C75_fixed : forall nn t f, fixed nn t = Some f -> t <> TDub -> forall x b a rest, (0 <= a <= 307)%Z ->
  all_finite t x -> opens rest -> exists y r, words r = words rest /\ all_valid t y /\ f y b a = f x b a /\ forall x0,
    extract t (mkIs (f x b a ++ rest) false false) x0 = Some (mapv Some t y, mkIs r (nilb r) false).
Proof. exact fixed_stable. Qed.
Print Assumptions C75_fixed.
Theorem C75_operator : forall nn t f, insert nn t = Some f -> t <> TDub -> forall x os rest, white (os_fill os) \/ (os_width os <= 0)%Z ->
  all_finite t x -> opens rest -> exists s y r, os_out (f x os) = os_out os ++ s /\ os_out (f y os) = os_out os ++ s /\
  words r = words rest /\ all_valid t y /\ forall x0,
    extract t (mkIs (s ++ rest) false false) x0 = Some (mapv Some t y, mkIs r (nilb r) false).
Proof. exact insert_stable. Qed.
Print Assumptions C75_operator.
(** For enote with every number of digits but one. *)
Theorem C75_enote : forall nn t f, enote nn t = Some f -> t <> TDub -> forall x a rest, (1 <= a < 2 ^ 31)%Z -> a <> 15%Z ->
  Forall moderate (elems t x) -> opens rest -> exists y r, words r = words rest /\ all_valid t y /\ f y a = f x a /\ forall x0,
    extract t (mkIs (f x a ++ rest) false false) x0 = Some (mapv Some t y, mkIs r (nilb r) false).
Proof. exact enote_stable. Qed.
Print Assumptions C75_enote.
(** So copies of copies are the same text, however many times. *)
Theorem C75_fixed_copies : forall nn t f, fixed nn t = Some f -> t <> TDub -> forall x b a s, (0 <= a <= 307)%Z ->
  all_finite t x -> copied t (fun y => f y b a) (f x b a) s -> s = f x b a.
Proof. exact fixed_copies. Qed.
Print Assumptions C75_fixed_copies.
Theorem C75_enote_copies : forall nn t f, enote nn t = Some f -> t <> TDub -> forall x a s, (1 <= a < 2 ^ 31)%Z -> a <> 15%Z ->
  Forall moderate (elems t x) -> copied t (fun y => f y a) (f x a) s -> s = f x a.
Proof. exact enote_copies. Qed.
Print Assumptions C75_enote_copies.
(** The exception is the default of enote: the double next above 10^23 is
    written as 1.000000000000000e+23, which reads as the double next below,
    which is written as 9.999999999999999e+22. *)
Theorem C75_default_refuted : forall nn f, enote nn TSca = Some f ->
  ~ (forall x s, Forall moderate (elems TSca x) -> copied TSca (fun y => f y 15%Z) (f x 15%Z) s -> s = f x 15%Z).
Proof. exact default_changes. Qed.
Print Assumptions C75_default_refuted.
(** The text of 0.1 + 0.2 with three digits reads as 0.3, which is another
    double with the same text. *)
Example C75_example : forall nn f, fixed nn TSca = Some f -> forall x0, exists i,
  extract TSca (mkIs (f (Sca sum12) 2%Z 3%Z) false false) x0 = Some (mapv Some TSca (Sca three10), i) /\
  three10 <> sum12 /\ f (Sca three10) 2%Z 3%Z = f (Sca sum12) 2%Z 3%Z.
Proof. exact other_number. Qed.
Example C75_example_moderate : moderate above23.
Proof. exact above_moderate. Qed.
