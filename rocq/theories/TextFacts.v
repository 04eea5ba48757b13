(** * Decimal text: proofs. *)

Require Import Reals ZArith List Bool Ascii Lra Lia.
From Flocq Require Import Core BinarySingleNaN.
Require Import Verif.B64 Verif.Stream Verif.SpecRound Verif.SpecText.
Import ListNotations.
Local Open Scope Z_scope.

(** ** Characters *)
Lemma code_inj : forall c d, code c = code d -> c = d.
Proof.
  intros c d H. unfold code in H. apply N2Z.inj in H. rewrite <- (ascii_N_embedding c), <- (ascii_N_embedding d), H. reflexivity.
Qed.
Lemma space_white : forall c, is_space c = true <-> white c.
Proof.
  intros c. split.
  - destruct c as [[] [] [] [] [] [] [] []]; intros H; try discriminate H; cbv; tauto.
  - intros H. cbn in H. decompose [or] H; subst; try reflexivity. contradiction.
Qed.
Lemma digit_isdigit : forall c, is_digit c = true <-> In c digit_chars.
Proof.
  intros c. split.
  - destruct c as [[] [] [] [] [] [] [] []]; intros H; try discriminate H; cbv; tauto.
  - intros H. cbn in H. decompose [or] H; subst; try reflexivity. contradiction.
Qed.
Lemma digit_code : forall d, 0 <= d < 10 -> code (digit d) = 48 + d.
Proof.
  intros d H. unfold code, digit. rewrite N_ascii_embedding by lia. lia.
Qed.
Lemma digit_is : forall d, 0 <= d < 10 -> is_digit (digit d) = true.
Proof. intros d H. unfold is_digit. rewrite digit_code by exact H. lia. Qed.
Lemma digit_char_eq : forall d, (d < 10)%nat -> digit_char d = digit (Z.of_nat d).
Proof. intros d H. do 10 (destruct d as [|d]; [reflexivity|]). lia. Qed.
Lemma digit_char_code : forall d, (d < 10)%nat -> code (digit_char d) = 48 + Z.of_nat d.
Proof. intros d H. rewrite digit_char_eq by exact H. apply digit_code. lia. Qed.
(** Value of a digit character. *)
Definition dval (c : ascii) : nat := Z.to_nat (code c - 48).
Lemma dval_char : forall c, is_digit c = true -> digit_char (dval c) = c /\ (dval c < 10)%nat.
Proof.
  intros c H. unfold is_digit in H. assert (B : 48 <= code c <= 57) by lia.
  assert (D : (dval c < 10)%nat) by (unfold dval; lia). split; [|exact D].
  apply code_inj. rewrite digit_char_code by exact D. unfold dval. lia.
Qed.
Lemma char_dval : forall d, (d < 10)%nat -> dval (digit_char d) = d.
Proof. intros d H. unfold dval. rewrite digit_char_code by exact H. lia. Qed.

(** ** Digit strings *)
Lemma digits_length : forall k n, length (digits k n) = k.
Proof. induction k; intros n; cbn [digits]; [reflexivity|]. rewrite app_length, IHk. cbn. lia. Qed.
Lemma digits_all : forall k n, Forall (fun c => is_digit c = true) (digits k n).
Proof.
  induction k; intros n; cbn [digits]; [constructor|]. apply Forall_app. split; [apply IHk|].
  constructor; [|constructor]. apply digit_is, Z.mod_pos_bound. lia.
Qed.
Lemma dv_acc : forall b a, fold_left (fun n c => 10 * n + (code c - 48)) b a = a * 10 ^ Z.of_nat (length b) + digits_value b.
Proof.
  unfold digits_value. induction b as [|c b IH]; intros a; cbn [fold_left length].
  - cbn. lia.
  - rewrite IH, (IH (10 * 0 + _)). rewrite Nat2Z.inj_succ, Z.pow_succ_r by lia. ring.
Qed.
Lemma dv_app : forall a b, digits_value (a ++ b) = digits_value a * 10 ^ Z.of_nat (length b) + digits_value b.
Proof. intros a b. unfold digits_value at 1. rewrite fold_left_app. apply dv_acc. Qed.
Lemma digits_val : forall k n, 0 <= n -> digits_value (digits k n) = n mod 10 ^ Z.of_nat k.
Proof.
  induction k; intros n Hn; cbn [digits].
  - change (digits_value []) with 0. rewrite Z.mod_1_r. reflexivity.
  - rewrite dv_app, IHk by (apply Z.div_pos; lia). cbn [length]. change (10 ^ Z.of_nat 1) with 10. unfold digits_value. cbn [fold_left].
    rewrite digit_code by (apply Z.mod_pos_bound; lia). rewrite Nat2Z.inj_succ, Z.pow_succ_r by lia.
    rewrite Z.rem_mul_r by lia. lia.
Qed.
Lemma dv_nat : forall d, Forall (fun c => is_digit c = true) d -> digits_value d = digits_nat 0 (map dval d).
Proof.
  intros d H. unfold digits_value. generalize 0. induction H as [|c d Hc H IH]; intros a; cbn [fold_left map digits_nat]; [reflexivity|].
  rewrite IH. f_equal. unfold dval. unfold is_digit in Hc. lia.
Qed.
Lemma text_dval : forall d, Forall (fun c => is_digit c = true) d -> digits_text (map dval d) = d.
Proof.
  intros d H. unfold digits_text. induction H as [|c d Hc H IH]; cbn [map]; [reflexivity|]. rewrite IH. f_equal. apply dval_char, Hc.
Qed.
Lemma dval_small : forall d, Forall (fun c => is_digit c = true) d -> Forall (fun d => (d < 10)%nat) (map dval d).
Proof. intros d H. induction H; cbn [map]; constructor; auto. apply dval_char, H. Qed.
Lemma dv_text : forall ds, Forall (fun d => (d < 10)%nat) ds -> digits_value (digits_text ds) = digits_nat 0 ds.
Proof.
  intros ds H. unfold digits_value. generalize 0. induction H as [|c d Hc H IH]; intros a; cbn [fold_left map digits_nat digits_text]; [reflexivity|].
  fold (digits_text d). rewrite IH. f_equal. rewrite digit_char_code by exact Hc. lia.
Qed.
Lemma text_isdigit : forall ds, Forall (fun d => (d < 10)%nat) ds -> Forall (fun c => is_digit c = true) (digits_text ds).
Proof.
  intros ds H. unfold digits_text. induction H; cbn [map]; constructor; auto.
  unfold is_digit. rewrite digit_char_code by exact H. lia.
Qed.

(** Number of digits. *)
Lemma ndigits_ok : forall f n, 0 <= n < 2 ^ (Z.of_nat f + 1) ->
  n < 10 ^ Z.of_nat (ndigits f n) /\ (0 < n -> 10 ^ (Z.of_nat (ndigits f n) - 1) <= n) /\ (1 <= ndigits f n)%nat.
Proof.
  induction f; intros n Hn; cbn [ndigits].
  - change (2 ^ (Z.of_nat 0 + 1)) with 2 in Hn. cbn. lia.
  - destruct (Z.ltb_spec n 10).
    + cbn. lia.
    + rewrite Nat2Z.inj_succ in Hn. replace (Z.succ (Z.of_nat f) + 1) with (Z.succ (Z.of_nat f + 1)) in Hn by lia.
      rewrite Z.pow_succ_r in Hn by lia.
      assert (D : 0 <= n / 10 < 2 ^ (Z.of_nat f + 1)).
      { split; [apply Z.div_pos; lia|]. apply Z.div_lt_upper_bound; lia. }
      destruct (IHf _ D) as (A & B & C). set (k := ndigits f (n / 10)) in *.
      assert (P : 0 < n / 10) by (apply Z.div_str_pos; lia). specialize (B P).
      pose proof (Z.div_mod n 10 ltac:(lia)). pose proof (Z.mod_pos_bound n 10 ltac:(lia)).
      rewrite Nat2Z.inj_succ. split; [|split; [intros _|lia]].
      * rewrite Z.pow_succ_r by lia. lia.
      * replace (Z.succ (Z.of_nat k) - 1) with (Z.succ (Z.of_nat k - 1)) by lia. rewrite Z.pow_succ_r by lia. lia.
Qed.
Lemma dlen_ok : forall n, 0 <= n ->
  n < 10 ^ Z.of_nat (dlen n) /\ (0 < n -> 10 ^ (Z.of_nat (dlen n) - 1) <= n) /\ (1 <= dlen n)%nat.
Proof.
  intros n Hn. apply ndigits_ok. rewrite Z2Nat.id by apply Z.log2_nonneg. split; [exact Hn|].
  destruct (Z.eq_dec n 0) as [->|]; [reflexivity|]. apply Z.log2_spec. lia.
Qed.
Lemma dec_val : forall n, 0 <= n -> digits_value (dec n) = n.
Proof.
  intros n Hn. unfold dec. rewrite digits_val by exact Hn. apply Z.mod_small. split; [exact Hn|]. apply (dlen_ok n Hn).
Qed.
Lemma dec_nonempty : forall n, 0 <= n -> dec n <> [].
Proof.
  intros n Hn E. pose proof (dlen_ok n Hn) as (_ & _ & L). assert (X : length (dec n) = dlen n) by apply digits_length.
  rewrite E in X. cbn in X. lia.
Qed.
