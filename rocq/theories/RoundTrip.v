(** * Reading back what was written: proofs. *)

Require Import Reals ZArith List Bool Ascii Lra Lia.
From Flocq Require Import Core BinarySingleNaN.
Require Import Verif.Num Verif.Types Verif.B64 Verif.B64Facts Verif.Validity Verif.SpecValid Verif.ValidFacts Verif.Stream Verif.Io
  Verif.SpecCompare Verif.SpecRound Verif.SpecText Verif.SpecIo Verif.TextFacts Verif.ParseFacts Verif.NumText Verif.InFacts Verif.OutFacts.
Import ListNotations.
Local Open Scope R_scope.

Notation fexp64 := (FLT_exp (-1074) 53).
Local Instance prec53gt : Prec_gt_0 53.
Proof. reflexivity. Qed.
Lemma nearest64_FLT : forall v, nearest64 v = round radix2 fexp64 ZnearestE v.
Proof. reflexivity. Qed.

(** ** Numbers *)
Lemma gap_below : forall u, 0 < u -> u * bpow radix2 (-53) <= u - pred radix2 fexp64 u.
Proof.
  intros u Hu. rewrite pred_eq_pos by lra. unfold pred_pos. destruct (Req_bool_spec u (bpow radix2 (mag radix2 u - 1))) as [E|E].
  - replace (u - (u - bpow radix2 (fexp64 (mag radix2 u - 1)))) with (bpow radix2 (fexp64 (mag radix2 u - 1))) by ring.
    rewrite E at 1. rewrite <- bpow_plus. apply bpow_le. unfold FLT_exp. lia.
  - replace (u - (u - ulp radix2 fexp64 u)) with (ulp radix2 fexp64 u) by ring.
    pose proof (ulp_FLT_gt radix2 (-1074) 53 u) as H. rewrite Rabs_pos_eq in H by lra. apply Rlt_le, H.
Qed.
Lemma gap_above : forall u, 0 < u -> u * bpow radix2 (-53) <= succ radix2 fexp64 u - u.
Proof.
  intros u Hu. rewrite succ_eq_pos by lra. pose proof (ulp_FLT_gt radix2 (-1074) 53 u) as H. rewrite Rabs_pos_eq in H by lra.
  change (- (53))%Z with (-53)%Z in H. lra.
Qed.
Lemma near_back_pos : forall u v, generic_format radix2 fexp64 u -> 0 < u ->
  Rabs (v - u) < u * bpow radix2 (-54) -> nearest64 v = u.
Proof.
  intros u v F Hu H. rewrite nearest64_FLT. apply Rabs_def2 in H. destruct H as [H1 H2].
  assert (B : bpow radix2 (-53) = 2 * bpow radix2 (-54)) by (change (-53)%Z with (1 + -54)%Z; rewrite bpow_plus; reflexivity).
  pose proof (gap_below u Hu) as G1. pose proof (gap_above u Hu) as G2. rewrite B in G1, G2.
  apply Rle_antisym.
  - apply round_N_le_midp; [typeclasses eauto|exact F|]. lra.
  - apply round_N_ge_midp; [typeclasses eauto|exact F|]. lra.
Qed.
Lemma nearest64_opp : forall v, nearest64 (- v) = - nearest64 v.
Proof. intros v. rewrite !nearest64_FLT. apply round_NE_opp. Qed.
Lemma format_f64 : forall x : f64, generic_format radix2 fexp64 (B2R x).
Proof. intros x. apply (generic_format_B2R 53 1024 x). Qed.
Lemma near_back : forall (x : f64) v, Rabs (v - B2R x) < Rabs (B2R x) * bpow radix2 (-54) -> nearest64 v = B2R x.
Proof.
  intros x v H. pose proof (format_f64 x) as F. set (u := B2R x) in *.
  destruct (Rtotal_order u 0) as [N|[Z|P]].
  - rewrite (Rabs_left u) in H by exact N. rewrite <- (Ropp_involutive v), nearest64_opp, (near_back_pos (- u)); [ring| | |].
    + apply generic_format_opp, F.
    + lra.
    + replace (- v - - u) with (- (v - u)) by ring. rewrite Rabs_Ropp. exact H.
  - rewrite Z, Rabs_R0, Rmult_0_l in H. pose proof (Rabs_pos (v - 0)). lra.
  - rewrite (Rabs_pos_eq u) in H by lra. apply near_back_pos; auto.
Qed.
Lemma nearest_decimal_err : forall k r, Rabs (nearest_decimal k r - r) <= / 2 * powerRZ 10 (- k).
Proof.
  intros k r. unfold nearest_decimal. assert (P := pow10_pos (- k)).
  replace (IZR (ZnearestE (r * powerRZ 10 k)) * powerRZ 10 (- k) - r)
    with ((IZR (ZnearestE (r * powerRZ 10 k)) - r * powerRZ 10 k) * powerRZ 10 (- k)).
  2:{ rewrite pow10_opp. field. pose proof (pow10_pos k). lra. }
  rewrite Rabs_mult, (Rabs_pos_eq (powerRZ _ _)) by lra. apply Rmult_le_compat_r; [lra|].
  rewrite Rabs_minus_sym. apply Znearest_half.
Qed.
Lemma b54 : / 2 * / 10 ^ 16 < bpow radix2 (-54).
Proof. cbn. lra. Qed.
(** 17 significant digits determine a double. *)
Lemma digits17 : forall (x : f64) e p, (16 <= p)%Z -> powerRZ 10 e <= Rabs (B2R x) ->
  nearest64 (nearest_decimal (p - e) (B2R x)) = B2R x.
Proof.
  intros x e p Hp He. apply near_back. eapply Rle_lt_trans; [apply nearest_decimal_err|].
  assert (Pe := pow10_pos e). replace (- (p - e))%Z with (e + - p)%Z by lia. rewrite pow10_add.
  apply Rle_lt_trans with (powerRZ 10 e * (/ 2 * / 10 ^ 16)).
  - rewrite (Rmult_comm (powerRZ 10 e)), <- Rmult_assoc, (Rmult_comm _ (powerRZ 10 e)).
    apply Rmult_le_compat_l; [lra|]. apply Rmult_le_compat_l; [lra|].
    replace (- p)%Z with (- 16 + - (p - 16))%Z by lia. rewrite pow10_add. rewrite (pow10_opp (p - 16)), (pow10_Z (p - 16)) by lia.
    replace (powerRZ 10 (-16)) with (/ 10 ^ 16) by (change (-16)%Z with (- Z.of_nat 16)%Z; rewrite pow10_opp, <- pow_powerRZ; reflexivity).
    rewrite <- (Rmult_1_r (/ 10 ^ 16)) at 2. apply Rmult_le_compat_l; [lra|]. rewrite <- Rinv_1. apply Rinv_le; [lra|].
    apply (IZR_le 1). pose proof (Z.pow_pos_nonneg 10 (p - 16)). lia.
  - apply Rlt_le_trans with (powerRZ 10 e * bpow radix2 (-54)).
    + apply Rmult_lt_compat_l; [exact Pe|apply b54].
    + apply Rmult_le_compat_r; [apply bpow_ge_0|exact He].
Qed.

(** ** Texts *)
(** The word [tok] reads as [v] whatever follows it. *)
Definition token_reads (tok : text) (v : f64) : Prop := forall rest, opens rest -> reads (tok ++ rest) v rest.
Lemma opens_ends : forall n rest, opens rest -> ends n rest.
Proof.
  intros n [|c r] H; [exact I|]. cbn in H |- *. split.
  - intros D. apply digit_isdigit in D. apply digit_nospace in D. apply space_white in H. congruence.
  - intros _. apply space_white in H. split; [|split; [|intros _]]; intros ->; discriminate.
Qed.
Lemma numeral_reads : forall n v, proper n -> is_finite v = true -> B2R v = nearest64 (numeral_value n) ->
  Bsign v = is_minus (nm_sign n) -> token_reads (numeral_text n) v.
Proof.
  intros n v P F V S rest O. exists [], n. split; [reflexivity|]. split; [constructor|]. split; [exact P|].
  split; [apply opens_ends, O|]. split; [exact F|]. split; [exact V|]. split; [exact S|]. rewrite <- V.
  apply abs_B2R_lt_emax.
Qed.
Lemma minus_minus : forall s, is_minus (minus_if s) = s.
Proof. intros []; reflexivity. Qed.
Lemma sci_back : forall nn p (x : f64) tok, (16 <= p)%nat -> is_finite x = true -> shows_sci nn p x tok -> token_reads tok x.
Proof.
  intros nn p x tok Hp F S.
  assert (G : exists n, tok = numeral_text n /\ proper n /\ nm_sign n = minus_if (Bsign x) /\ B2R x = nearest64 (numeral_value n)).
  { destruct x as [s|s| |s m e B]; try discriminate; cbn [shows_sci] in S;
      destruct S as (n & eneg & eds & A & P & Sg & _ & _ & _ & _ & Z0 & NZ); exists n;
      (split; [exact A|split; [exact P|split; [exact Sg|]]]).
    - destruct (Z0 eq_refl) as [-> _]. rewrite nearest0. reflexivity.
    - destruct NZ as (e' & R & ->).
      + intros X. apply (F2R_neq_0 radix2 (Float radix2 (cond_Zopp s (Zpos m)) e)); [destruct s; discriminate|exact X].
      + symmetry. apply digits17; [lia|apply R]. }
  destruct G as (n & -> & P & Sg & V). apply numeral_reads; auto. rewrite Sg, minus_minus. reflexivity.
Qed.
Lemma words_from_split : forall s cur tok toks, cur <> [] -> words_from cur s = tok :: toks ->
  exists a rest, s = a ++ rest /\ tok = cur ++ a /\ opens rest /\ words rest = toks.
Proof.
  induction s as [|c s IH]; intros cur tok toks N H; cbn [words_from] in H.
  - destruct cur; [contradiction|]. inversion H; subst. exists [], []. split; [reflexivity|]. split; [symmetry; apply app_nil_r|]. split; [exact I|reflexivity].
  - destruct (white_dec c) as [W|W].
    + destruct cur as [|k cur]; [contradiction|]. inversion H; subst. exists [], (c :: s). split; [reflexivity|]. split; [symmetry; apply app_nil_r|]. split; [exact W|].
      apply words_white, W.
    + destruct (IH (cur ++ [c]) tok toks) as (a & rest & -> & -> & O & Hw); [destruct cur; discriminate|exact H|].
      exists (c :: a), rest. rewrite <- app_assoc. repeat split; assumption.
Qed.
Lemma words_split : forall s tok toks, words s = tok :: toks ->
  exists blanks rest, s = blanks ++ tok ++ rest /\ Forall white blanks /\ opens rest /\ words rest = toks.
Proof.
  induction s as [|c s IH]; intros tok toks H; [discriminate|]. unfold words in H. cbn [words_from] in H.
  destruct (white_dec c) as [W|W].
  - destruct (IH tok toks H) as (b & r & -> & A & B & C). exists (c :: b), r. repeat split; auto.
  - destruct (words_from_split s ([] ++ [c]) tok toks) as (a & rest & -> & -> & O & Hw); [discriminate|exact H|].
    exists [], rest. repeat split; auto.
Qed.
Lemma reads_blanks : forall b s v r, Forall white b -> reads s v r -> reads (b ++ s) v r.
Proof.
  intros b s v r Hb (b0 & n & -> & H0 & H). exists (b ++ b0), n. split; [rewrite <- app_assoc; reflexivity|].
  split; [apply Forall_app; auto|exact H].
Qed.
(** A text reads as the numbers its words read as. *)
Lemma words_read : forall toks vs, Forall2 token_reads toks vs -> forall s more, words s = toks ++ more ->
  exists r, reads_all s vs r /\ words r = more.
Proof.
  intros toks vs H. induction H as [|tok v toks vs H1 H IH]; intros s more Hs.
  - exists s. split; [constructor|exact Hs].
  - destruct (words_split s tok (toks ++ more) Hs) as (b & r & -> & Hb & O & Hr). destruct (IH r more Hr) as (r' & R & W).
    exists r'. split; [|exact W]. econstructor; [|exact R]. apply reads_blanks; [exact Hb|]. apply H1, O.
Qed.
Lemma forall2_swap : forall {A B} (P : A -> B -> Prop) (Q : B -> A -> Prop) l m, (forall a b, In a l -> P a b -> Q b a) ->
  Forall2 P l m -> Forall2 Q m l.
Proof.
  intros A B P Q l m H F. induction F as [|a b l m Hab F IH]; constructor.
  - apply H; [left; reflexivity|exact Hab].
  - apply IH. intros a' b' I. apply H. right. exact I.
Qed.
Lemma valid_fin : forall x : f64, valid_number x -> is_finite x = true.
Proof. intros x [H _]. exact H. Qed.

(** ** Objects: enote *)
Lemma enote_reads : forall nn t f, enote nn t = Some f -> forall x a rest, (16 <= a < 2 ^ 31)%Z -> all_finite t x -> opens rest ->
  exists r, reads_all (f x a ++ rest) (elems t x) r /\ words r = words rest.
Proof.
  intros nn t f H x a rest Ha V O. destruct (enote_words nn t f H x a) as (p & Hp & W). specialize (Hp ltac:(lia)).
  apply words_read with (toks := words (f x a)).
  - eapply forall2_swap; [|exact W]. intros v tok I S. apply (sci_back nn p v tok); [lia| |exact S].
    unfold all_finite in V. rewrite Forall_forall in V. apply V, I.
  - apply words_opens, O.
Qed.
Lemma enote_round_trip : forall nn t f, enote nn t = Some f -> t <> TDub -> forall x a rest, (16 <= a < 2 ^ 31)%Z -> all_valid t x ->
  opens rest -> exists r, words r = words rest /\ forall x0,
    extract t (mkIs (f x a ++ rest) false false) x0 = Some (mapv Some t x, mkIs r (nilb r) false).
Proof.
  intros nn t f H Ht x a rest Ha V O. destruct (enote_reads nn t f H x a rest Ha) as (r & R & W); [|exact O|].
  { unfold all_finite. unfold all_valid in V. eapply Forall_impl; [|exact V]. intros v. apply valid_fin. }
  exists r. split; [exact W|]. destruct (extract_reads t _ _ _ Ht R V) as (y & E & _ & G); [apply total_elems|].
  assert (y = x); [|subst; exact G]. apply grades_inj. unfold grades. rewrite E. reflexivity.
Qed.

(** ** Fewer digits *)
Lemma exists_double : forall n, proper n -> Rabs (nearest64 (numeral_value n)) < bpow radix2 1024 ->
  exists v : f64, is_finite v = true /\ B2R v = nearest64 (numeral_value n) /\ token_reads (numeral_text n) v /\
    Bsign v = is_minus (nm_sign n).
Proof.
  intros n P H. pose proof (decimal_ok (is_minus (nm_sign n)) (digits_nat 0 (nm_int n ++ frac_digits n))
    (exponent n - Z.of_nat (length (frac_digits n))) (digits_nat_nonneg _ _ (Z.le_refl 0))) as D.
  rewrite <- numeral_dec in D. rewrite Rlt_bool_true in D by exact H. destruct D as (D1 & D2 & D3).
  eexists. split; [exact D1|]. split; [exact D2|]. split; [apply numeral_reads; auto|exact D3].
Qed.
Lemma twice : forall (x : f64) y, Rabs (nearest64 y - B2R x) <= 2 * Rabs (y - B2R x).
Proof.
  intros x y. rewrite nearest64_FLT.
  assert (H : Rabs (round radix2 fexp64 ZnearestE y - y) <= Rabs (B2R x - y)).
  { apply (round_N_pt radix2 fexp64 (fun x => negb (Z.even x)) y). apply format_f64. }
  replace (round radix2 fexp64 ZnearestE y - B2R x) with ((round radix2 fexp64 ZnearestE y - y) + (y - B2R x)) by ring.
  eapply Rle_trans; [apply Rabs_triang|]. rewrite (Rabs_minus_sym (B2R x)) in H. lra.
Qed.
Lemma tenth : forall a, (1 <= a)%Z -> powerRZ 10 (- a) <= / 10.
Proof.
  intros a Ha. rewrite pow10_neg by lia. apply Rinv_le; [lra|]. apply IZR_le. replace (- - a)%Z with (1 + (a - 1))%Z by lia.
  rewrite Z.pow_add_r by lia. pose proof (Z.pow_pos_nonneg 10 (a - 1)). lia.
Qed.
Lemma sci_near : forall nn p (x : f64) tok, (1 <= p)%nat -> is_finite x = true -> Rabs (B2R x) <= bpow radix2 1023 ->
  shows_sci nn p x tok -> exists v, token_reads tok v /\ is_finite v = true /\
    rounded_to (powerRZ 10 (- Z.of_nat p)) x v /\ Bsign v = Bsign x /\
    (B2R x = 0 -> B2R v = 0) /\
    (B2R x <> 0 -> exists e, powerRZ 10 e <= Rabs (B2R x) < powerRZ 10 (e + 1) /\
       B2R v = nearest64 (nearest_decimal (Z.of_nat p - e) (B2R x))).
Proof.
  intros nn p x tok Hp F L S.
  assert (Tp : 0 < powerRZ 10 (- Z.of_nat p) <= / 10).
  { split; [apply pow10_pos|]. apply tenth. lia. }
  assert (G : exists n, tok = numeral_text n /\ proper n /\ nm_sign n = minus_if (Bsign x) /\
    (B2R x = 0 -> numeral_value n = 0) /\
    (B2R x <> 0 -> exists e, powerRZ 10 e <= Rabs (B2R x) < powerRZ 10 (e + 1) /\
       numeral_value n = nearest_decimal (Z.of_nat p - e) (B2R x))).
  { destruct x as [s|s| |s m e B]; try discriminate; cbn [shows_sci] in S;
      destruct S as (n & eneg & eds & A & P & Sg & _ & _ & _ & _ & Z0 & NZ); exists n;
      (split; [exact A|split; [exact P|split; [exact Sg|split; [intros X; apply (Z0 X)|exact NZ]]]]). }
  destruct G as (n & -> & P & Sg & Z0 & NZ).
  assert (E : Rabs (numeral_value n - B2R x) <= / 2 * (powerRZ 10 (- Z.of_nat p) * Rabs (B2R x))).
  { destruct (Req_dec (B2R x) 0) as [X|X].
    - rewrite Z0, X, Rminus_0_r, Rabs_R0 by exact X. lra.
    - destruct (NZ X) as (e' & [R _] & ->). eapply Rle_trans; [apply nearest_decimal_err|]. apply Rmult_le_compat_l; [lra|].
        replace (- (Z.of_nat p - e'))%Z with (- Z.of_nat p + e')%Z by lia. rewrite pow10_add. apply Rmult_le_compat_l; [lra|exact R]. }
  pose proof (twice x (numeral_value n)) as T.
  assert (T2 : Rabs (nearest64 (numeral_value n) - B2R x) <= powerRZ 10 (- Z.of_nat p) * Rabs (B2R x)) by lra.
  destruct (exists_double n P) as (v & V1 & V2 & V3 & V4).
  - apply Rle_lt_trans with (Rabs (B2R x) + / 10 * Rabs (B2R x)).
    + replace (nearest64 (numeral_value n)) with (B2R x + (nearest64 (numeral_value n) - B2R x)) by ring.
      eapply Rle_trans; [apply Rabs_triang|]. apply Rplus_le_compat_l. eapply Rle_trans; [exact T2|].
      apply Rmult_le_compat_r; [apply Rabs_pos|lra].
    + change (bpow radix2 1024) with (bpow radix2 (1 + 1023)). rewrite bpow_plus. change (bpow radix2 1) with 2.
      pose proof (bpow_gt_0 radix2 1023). set (q := bpow radix2 1023) in *. lra.
  - exists v. split; [exact V3|]. split; [exact V1|]. unfold rounded_to. rewrite V2. split; [exact T2|].
    split; [rewrite V4, Sg; apply minus_minus|]. split; [intros X; rewrite (Z0 X); apply nearest0|].
    intros X. destruct (NZ X) as (e & A & ->). exists e. auto.
Qed.
(** Reading objects whose words read. *)
Lemma read_object : forall t toks vs s rest, t <> TDub -> Forall2 token_reads toks vs -> words s = toks -> opens rest ->
  Forall valid_number vs -> length vs = total (grade_sizes t) ->
  exists y r, elems t y = vs /\ words r = words rest /\ forall x0,
    extract t (mkIs (s ++ rest) false false) x0 = Some (mapv Some t y, mkIs r (nilb r) false).
Proof.
  intros t toks vs s rest Ht R W O V L. destruct (words_read toks vs R (s ++ rest) (words rest)) as (r & RA & Wr).
  - rewrite words_opens by exact O. rewrite W. reflexivity.
  - destruct (extract_reads t _ _ _ Ht RA V L) as (y & E & _ & G). exists y, r. auto.
Qed.
Lemma forall2_length : forall {A B} (P : A -> B -> Prop) l m, Forall2 P l m -> length l = length m.
Proof. intros A B P l m F. induction F; cbn; congruence. Qed.
Lemma forall2_impl : forall {A B} (P Q : A -> B -> Prop) l m, (forall a b, P a b -> Q a b) -> Forall2 P l m -> Forall2 Q l m.
Proof. intros A B P Q l m H F. induction F; constructor; auto. Qed.
Lemma pick : forall {A B C} (P : A -> B -> Prop) (Q : B -> C -> Prop) (T : A -> C -> Prop) l m,
  (forall a b, In a l -> P a b -> exists c, Q b c /\ T a c) -> Forall2 P l m ->
  exists k, Forall2 Q m k /\ Forall2 T l k.
Proof.
  intros A B C P Q T l m H F. induction F as [|a b l m Hab F IH].
  - exists []. split; constructor.
  - destruct (H a b (or_introl eq_refl) Hab) as (c & Hc1 & Hc2). destruct IH as (k & K1 & K2); [intros; apply H; [right|]; assumption|].
    exists (c :: k). split; constructor; assumption.
Qed.
Lemma moderate_le : forall x, moderate x -> Rabs (B2R x) <= bpow radix2 1023.
Proof. intros x [_ [-> |[_ H]]]; [rewrite Rabs_R0; apply bpow_ge_0|exact H]. Qed.
Lemma near_valid : forall x v tol, moderate x -> is_finite v = true -> tol <= / 10 -> rounded_to tol x v -> valid_number v.
Proof.
  intros x v tol [F M] Fv Ht R. split; [exact Fv|]. unfold rounded_to in R. destruct M as [Z|[M _]].
  - left. rewrite Z, Rminus_0_r, Rabs_R0, Rmult_0_r in R. apply Rabs_eq_R0. apply Rle_antisym; [exact R|apply Rabs_pos].
  - right. assert (T : tol * Rabs (B2R x) <= / 10 * Rabs (B2R x)) by (apply Rmult_le_compat_r; [apply Rabs_pos|exact Ht]).
    pose proof (Rabs_triang_inv (B2R x) (B2R x - B2R v)) as I. replace (B2R x - (B2R x - B2R v)) with (B2R v) in I by ring.
    rewrite (Rabs_minus_sym (B2R x) (B2R v)) in I.
    change (bpow radix2 (-1021)) with (bpow radix2 (1 + -1022)) in M. rewrite bpow_plus in M. change (bpow radix2 1) with 2 in M.
    pose proof (bpow_gt_0 radix2 (-1022)). set (q := bpow radix2 (-1022)) in *. lra.
Qed.
Lemma enote_approx : forall nn t f, enote nn t = Some f -> t <> TDub -> forall x a rest, (1 <= a < 2 ^ 31)%Z ->
  Forall moderate (elems t x) -> opens rest -> exists y r, words r = words rest /\
  Forall2 (rounded_to (powerRZ 10 (- a))) (elems t x) (elems t y) /\ forall x0,
    extract t (mkIs (f x a ++ rest) false false) x0 = Some (mapv Some t y, mkIs r (nilb r) false).
Proof.
  intros nn t f H Ht x a rest Ha V O. destruct (enote_words nn t f H x a) as (p & Hp & W). specialize (Hp ltac:(lia)).
  assert (Ta : powerRZ 10 (- a) <= / 10) by (apply tenth; lia).
  destruct (pick (shows_sci nn p) token_reads (fun x v => is_finite v = true /\ rounded_to (powerRZ 10 (- a)) x v) (elems t x) (words (f x a))) as (vs & V1 & V2); [|exact W|].
  { intros u tok I S. rewrite Forall_forall in V. specialize (V u I).
    destruct (sci_near nn p u tok) as (v & A & B & C & _); [lia|apply V|apply moderate_le, V|exact S|]. rewrite Hp in C. exists v. auto. }
  destruct (read_object t _ vs (f x a) rest Ht V1 eq_refl O) as (y & r & E & Wr & G).
  - clear - V V2 Ta. induction V2 as [|u v l k [A B] V2 IH]; [constructor|]. inversion V; subst. constructor; [|auto].
    eapply near_valid; eassumption.
  - rewrite <- (forall2_length _ _ _ V2). apply total_elems.
  - exists y, r. split; [exact Wr|]. split; [|exact G]. rewrite E. eapply forall2_impl; [|exact V2]. intros u v Huv. apply Huv.
Qed.

(** ** Objects: fixed and operator<< *)
Lemma below1022 : bpow radix2 (-1022) <= powerRZ 10 (-307).
Proof.
  rewrite pow10_neg by lia. change (-1022)%Z with (- (1022))%Z. rewrite bpow_opp. apply Rinv_le.
  - apply (IZR_lt 0). reflexivity.
  - rewrite <- IZR_Zpower by lia. apply IZR_le. apply Z.leb_le. vm_compute. reflexivity.
Qed.
Lemma pow10_le : forall a b, (a <= b)%Z -> powerRZ 10 a <= powerRZ 10 b.
Proof.
  intros a b H. replace b with (a + (b - a))%Z by lia. rewrite pow10_add. rewrite <- (Rmult_1_r (powerRZ 10 a)) at 1.
  apply Rmult_le_compat_l; [apply Rlt_le, pow10_pos|]. rewrite pow10_Z by lia. apply (IZR_le 1).
  pose proof (Z.pow_pos_nonneg 10 (b - a)). lia.
Qed.
Lemma nearest64_ge_min : forall y, bpow radix2 (-1022) <= Rabs y -> bpow radix2 (-1022) <= Rabs (nearest64 y).
Proof.
  intros y H. rewrite nearest64_FLT. apply abs_round_ge_generic; [apply FLT_exp_valid; reflexivity|apply valid_rnd_N| |exact H].
  apply generic_format_bpow. vm_compute. discriminate.
Qed.
Lemma fixed_near : forall nn p (x : f64) tok, (p <= 307)%nat -> is_finite x = true -> shows_fixed nn p x tok ->
  exists v, token_reads tok v /\ valid_number v /\ close_to (powerRZ 10 (- Z.of_nat p)) x v /\ Bsign v = Bsign x /\
    B2R v = nearest64 (nearest_decimal (Z.of_nat p) (B2R x)).
Proof.
  intros nn p x tok Hp F S.
  assert (G : exists n, tok = numeral_text n /\ proper n /\ nm_sign n = minus_if (Bsign x) /\
    numeral_value n = nearest_decimal (Z.of_nat p) (B2R x)).
  { destruct x as [s|s| |s m e B]; try discriminate; cbn [shows_fixed] in S; destruct S as (n & A & P & Sg & _ & _ & _ & V); exists n; auto. }
  destruct G as (n & -> & P & Sg & V).
  assert (T : Rabs (nearest64 (numeral_value n) - B2R x) <= powerRZ 10 (- Z.of_nat p)).
  { pose proof (twice x (numeral_value n)) as T. pose proof (nearest_decimal_err (Z.of_nat p) (B2R x)) as E. rewrite <- V in E. lra. }
  destruct (exists_double n P) as (v & V1 & V2 & V3 & V4).
  - apply Rle_lt_trans with (Rabs (B2R x) + 1).
    + replace (nearest64 (numeral_value n)) with (B2R x + (nearest64 (numeral_value n) - B2R x)) by ring.
      eapply Rle_trans; [apply Rabs_triang|]. apply Rplus_le_compat_l. eapply Rle_trans; [exact T|].
      change 1 with (powerRZ 10 0). apply pow10_le. lia.
    + pose proof (abs_B2R_le_emax_minus_prec 53 1024 eq_refl x) as A. change (1024 - 53)%Z with (971)%Z in A.
      assert (K : 1 < bpow radix2 971) by (change 1 with (bpow radix2 0); apply bpow_lt; lia).
      set (q := bpow radix2 971) in *. set (q' := bpow radix2 1024) in *. lra.
  - exists v. split; [exact V3|]. split.
    + split; [exact V1|]. rewrite V2. destruct (Req_dec (numeral_value n) 0) as [Z|Z]; [left; rewrite Z; apply nearest0|right].
      apply nearest64_ge_min. eapply Rle_trans; [apply below1022|]. rewrite V in *. unfold nearest_decimal in *.
      rewrite Rabs_mult, (Rabs_pos_eq (powerRZ _ _)) by apply Rlt_le, pow10_pos.
      apply Rle_trans with (1 * powerRZ 10 (- Z.of_nat p)); [rewrite Rmult_1_l; apply pow10_le; lia|].
      apply Rmult_le_compat_r; [apply Rlt_le, pow10_pos|]. rewrite <- abs_IZR. apply IZR_le.
      assert (ZnearestE (B2R x * powerRZ 10 (Z.of_nat p)) <> 0%Z) by (intros X; apply Z; rewrite X; ring). lia.
    + unfold close_to. rewrite V2. split; [exact T|]. split; [rewrite V4, Sg; apply minus_minus|]. rewrite V. reflexivity.
Qed.
Lemma fixed_text_back : forall nn t p x s rest, (p <= 307)%nat -> Forall2 (shows_fixed nn p) (elems t x) (words s) ->
  t <> TDub -> all_finite t x -> opens rest -> exists y r, words r = words rest /\
  Forall2 (close_to (powerRZ 10 (- Z.of_nat p))) (elems t x) (elems t y) /\ all_valid t y /\ forall x0,
    extract t (mkIs (s ++ rest) false false) x0 = Some (mapv Some t y, mkIs r (nilb r) false).
Proof.
  intros nn t p x s rest Hp W Ht V O.
  destruct (pick (shows_fixed nn p) token_reads (fun x v => valid_number v /\ close_to (powerRZ 10 (- Z.of_nat p)) x v) (elems t x) (words s)) as (vs & V1 & V2); [|exact W|].
  { intros u tok I S. unfold all_finite in V. rewrite Forall_forall in V. specialize (V u I).
    destruct (fixed_near nn p u tok Hp V S) as (v & A & B & C & _). exists v. auto. }
  assert (VV : Forall valid_number vs) by (clear - V2; induction V2 as [|u v l k [A B] V2 IH]; constructor; auto).
  destruct (read_object t _ vs s rest Ht V1 eq_refl O VV) as (y & r & E & Wr & G).
  - rewrite <- (forall2_length _ _ _ V2). apply total_elems.
  - exists y, r. split; [exact Wr|]. unfold all_valid. rewrite E. split; [|split; [exact VV|exact G]].
    eapply forall2_impl; [|exact V2]. intros u v Huv. apply Huv.
Qed.
Lemma fixed_approx : forall nn t f, fixed nn t = Some f -> t <> TDub -> forall x b a rest, (0 <= a <= 307)%Z ->
  all_finite t x -> opens rest -> exists y r, words r = words rest /\
  Forall2 (close_to (powerRZ 10 (- a))) (elems t x) (elems t y) /\ all_valid t y /\ forall x0,
    extract t (mkIs (f x b a ++ rest) false false) x0 = Some (mapv Some t y, mkIs r (nilb r) false).
Proof.
  intros nn t f H Ht x b a rest Ha V O. destruct (fixed_words nn t f H x b a) as (p & Hp & W). specialize (Hp ltac:(lia)).
  pose proof (fixed_text_back nn t p x (f x b a) rest ltac:(lia) W Ht V O) as G. rewrite Hp in G. exact G.
Qed.
Lemma insert_approx : forall nn t f, insert nn t = Some f -> t <> TDub -> forall x os rest, white (os_fill os) \/ (os_width os <= 0)%Z ->
  all_finite t x -> opens rest -> exists s y r, os_out (f x os) = os_out os ++ s /\ words r = words rest /\
  Forall2 (close_to (powerRZ 10 (- 6))) (elems t x) (elems t y) /\ all_valid t y /\ forall x0,
    extract t (mkIs (s ++ rest) false false) x0 = Some (mapv Some t y, mkIs r (nilb r) false).
Proof.
  intros nn t f H Ht x os rest W V O. destruct (insert_words nn t f H x os W) as (s & E & Ws).
  destruct (fixed_text_back nn t 6 x s rest ltac:(lia) Ws Ht V O) as (y & r & A). exists s, y, r. auto.
Qed.
