(** * Numbers in general notation: proofs. *)

Require Import Reals ZArith List Bool Ascii Lra Lia.
From Flocq Require Import Core BinarySingleNaN.
Require Import Verif.B64 Verif.B64Facts Verif.Stream Verif.SpecRound Verif.SpecText Verif.SpecIo Verif.TextFacts Verif.ParseFacts Verif.NumText Verif.SpecDemo.
Import ListNotations.
Local Open Scope Z_scope.

Lemma strip_ok : forall s, exists k, s = strip_zeros s ++ repeat "0"%char k.
Proof.
  induction s as [|c s [k IH]]; [exists 0%nat; reflexivity|]. cbn [strip_zeros]. destruct (strip_zeros s) as [|d r] eqn:E.
  - destruct (ascii_dec c "0"%char) as [->|N].
    + exists (S k). cbn [repeat app]. cbn [app] in IH. rewrite <- IH. reflexivity.
    + exists k. cbn [app] in *. rewrite <- IH. reflexivity.
  - exists k. cbn [app] in *. rewrite <- IH. reflexivity.
Qed.
Lemma strip_last : forall s, strip_zeros s <> [] -> last (strip_zeros s) "0"%char <> "0"%char.
Proof.
  induction s as [|c s IH]; intros H; [contradiction|]. cbn [strip_zeros] in *. destruct (strip_zeros s) as [|d r] eqn:E.
  - destruct (ascii_dec c "0"%char) as [->|N]; [contradiction|]. exact N.
  - change (last (c :: d :: r) "0"%char) with (last (d :: r) "0"%char). apply IH. discriminate.
Qed.
Definition short_of (p : nat) (r : Z) : option (list nat) :=
  match strip_zeros (digits p r) with [] => None | d => Some (map dval d) end.
Definition short_numeral (s : bool) (p : nat) (n : Z) (ex : option (bool * option bool * list nat)) : numeral :=
  mkNumeral (minus_if s) (map dval (dec (n / 10 ^ Z.of_nat p))) (short_of p (n mod 10 ^ Z.of_nat p)) ex.
Lemma strip_digits : forall p r, Forall (fun c => is_digit c = true) (strip_zeros (digits p r)).
Proof.
  intros p r. pose proof (digits_all p r) as D. destruct (strip_ok (digits p r)) as [k E]. rewrite E in D. apply Forall_app in D. apply D.
Qed.
Lemma short_digits : forall s p n ex, frac_digits (short_numeral s p n ex) = map dval (strip_zeros (digits p (n mod 10 ^ Z.of_nat p))).
Proof. intros s p n ex. unfold frac_digits, short_numeral, short_of. cbn [nm_frac]. destruct (strip_zeros _); reflexivity. Qed.
Lemma short_text : forall s p n ex, numeral_text (short_numeral s p n ex) =
  sign_text s ++ dec (n / 10 ^ Z.of_nat p) ++ short_point p (n mod 10 ^ Z.of_nat p) ++
  match ex with
  | None => []
  | Some (upper, s, ds) => (if upper then "E"%char else "e"%char) :: sign_chars s ++ digits_text ds
  end.
Proof.
  intros s p n ex. unfold numeral_text, short_numeral. cbn [nm_sign nm_int nm_frac nm_exp]. rewrite sign_chars_text, text_dval by apply dec_all.
  do 2 f_equal. f_equal. unfold short_of, short_point. pose proof (strip_digits p (n mod 10 ^ Z.of_nat p)) as D.
  destruct (strip_zeros _); [reflexivity|]. rewrite text_dval by exact D. reflexivity.
Qed.
Lemma short_proper : forall s p n ex, 0 <= n -> match ex with None => True | Some (_, _, ds) => ds <> [] /\ Forall (fun d => (d < 10)%nat) ds end ->
  proper (short_numeral s p n ex).
Proof.
  intros s p n ex Hn H. unfold proper. rewrite short_digits. cbn [short_numeral nm_int nm_exp].
  split; [apply dval_small, dec_all|]. split; [apply dval_small, strip_digits|]. split; [|exact H].
  rewrite <- map_app. intros X. apply map_eq_nil, app_eq_nil in X. destruct X as [X _].
  revert X. apply dec_nonempty. apply Z.div_pos; [exact Hn|apply p10].
Qed.
Lemma zeros_value : forall k, digits_value (repeat "0"%char k) = 0.
Proof.
  induction k as [|k IH]; [reflexivity|]. cbn [repeat]. change ("0"%char :: ?l) with (["0"%char] ++ l). rewrite dv_app, IH. reflexivity.
Qed.
Lemma strip_snoc : forall s, strip_zeros (s ++ ["0"%char]) = strip_zeros s.
Proof. induction s as [|c s IH]; [reflexivity|]. cbn [app strip_zeros]. rewrite IH. reflexivity. Qed.
Lemma strip_none : forall q, strip_zeros (digits q 0) = [].
Proof. induction q as [|q IH]; [reflexivity|]. cbn [digits]. change (digit (0 mod 10)) with "0"%char. rewrite strip_snoc. exact IH. Qed.
Lemma short_value : forall s p n ex, 0 <= n -> numeral_value (short_numeral s p n ex) =
  ((if s then -1 else 1) * IZR n * powerRZ 10 (exponent (short_numeral s p n ex) - Z.of_nat p))%R.
Proof.
  intros s p n ex Hn. unfold numeral_value. rewrite short_digits. change (exponent (short_numeral s p n ex)) with (exponent (fixed_numeral s p n ex)).
  cbn [short_numeral nm_int nm_sign]. rewrite map_length, <- map_app, <- dv_nat.
  2:{ apply Forall_app. split; [apply dec_all|apply strip_digits]. }
  pose proof (digits_int s p n ex Hn) as D. rewrite frac_digits_of in D. cbn [fixed_numeral nm_int] in D.
  rewrite <- map_app, <- dv_nat in D. 2:{ apply Forall_app. split; [apply dec_all|apply digits_all]. }
  pose proof (digits_length p (n mod 10 ^ Z.of_nat p)) as Len.
  set (d := digits p _) in *. destruct (strip_ok d) as [k E]. rewrite E in D at 1. rewrite app_assoc, dv_app, zeros_value, repeat_length, Z.add_0_r in D.
  assert (Lp : p = (length (strip_zeros d) + k)%nat) by (rewrite <- Len, E at 1; rewrite app_length, repeat_length; reflexivity).
  generalize (exponent (fixed_numeral s p n ex)). intros x. set (v := digits_value _) in *. rewrite <- D. rewrite mult_IZR, <- pow10_Z by lia.
  replace (is_minus (minus_if s)) with s by (destruct s; reflexivity).
  replace (x - Z.of_nat (length (strip_zeros d))) with (Z.of_nat k + (x - Z.of_nat p)) by lia.
  rewrite pow10_add. ring.
Qed.
Lemma short_frac : forall s p n ex, no_end_zero (nm_frac (short_numeral s p n ex)).
Proof.
  intros s p n ex. cbn [short_numeral nm_frac]. unfold short_of. set (d := digits _ _).
  pose proof (strip_last d) as H. pose proof (strip_digits p (n mod 10 ^ Z.of_nat p)) as D. fold d in D.
  destruct (strip_zeros d) as [|c r]; [exact I|]. cbn [no_end_zero]. split; [discriminate|]. specialize (H ltac:(discriminate)).
  revert H. generalize (c :: r) D. clear. intros l. induction l as [|a l IH]; intros D H; [cbn in H; congruence|].
  destruct l as [|b l].
  - cbn [map last] in *. apply Forall_inv in D. intros X. apply H. destruct (dval_char a D) as [<- _]. rewrite X. reflexivity.
  - cbn [map last] in *. apply IH; [apply Forall_inv_tail in D; exact D|exact H].
Qed.

(** Style f with the digits that are left shows the same rounded value. *)
Lemma fixed_part : forall P num den, 0 < num -> 0 < den -> let '(n, x) := sci_parts P num den in x <= Z.of_nat P ->
  div_even (num * 10 ^ Z.of_nat (Z.to_nat (Z.of_nat P - x))) den = n.
Proof.
  intros P num den Hn Hd. unfold sci_parts. destruct (Z.eqb_spec num 0) as [|_]; [lia|].
  pose proof (exp10_ok num den Hn Hd) as E. set (e := exp10 num den) in *. set (k := Z.of_nat P - e).
  assert (Hd' : (0 < IZR den)%R) by (apply IZR_lt, Hd).
  set (n := div_even _ _).
  assert (Dn : n = ZnearestE (IZR num / IZR den * powerRZ 10 k)).
  { unfold n. rewrite div_even_ok.
    - f_equal. rewrite !mult_IZR, pow10_split. field. split; apply not_0_IZR; try lia; apply Z.pow_nonzero; lia.
    - apply Z.mul_pos_pos; [exact Hd|]. apply Z.pow_pos_nonneg; lia. }
  assert (Dx : forall x, x <= Z.of_nat P -> div_even (num * 10 ^ Z.of_nat (Z.to_nat (Z.of_nat P - x))) den = ZnearestE (IZR num / IZR den * powerRZ 10 (Z.of_nat P - x))).
  { intros x Hx. rewrite div_even_ok by exact Hd. f_equal. rewrite Z2Nat.id by lia. rewrite pow10_Z, mult_IZR by lia. field. lra. }
  destruct (Z.eqb_spec n (10 ^ (Z.of_nat P + 1))) as [Q|Q]; intros Hx.
  - rewrite Dx by exact Hx. rewrite Q in Dn. symmetry in Dn.
    pose proof (Znearest_half (fun x => negb (Z.even x)) (IZR num / IZR den * powerRZ 10 k)) as Hh. rewrite Dn in Hh.
    replace (Z.of_nat P - (e + 1)) with (k + -1) by (unfold k; lia). rewrite pow10_add. set (y := (IZR num / IZR den * powerRZ 10 k)%R) in *.
    rewrite <- Rmult_assoc. fold y. apply Znearest_imp.
    rewrite Z.pow_add_r, mult_IZR in Hh by lia. change (10 ^ 1) with 10 in Hh.
    replace (y * powerRZ 10 (-1))%R with (y / 10)%R by (change (powerRZ 10 (-1)) with (/ 10 ^ 1)%R; field). set (t := IZR (10 ^ Z.of_nat P)) in *.
    apply Rabs_le_inv in Hh. apply Rabs_lt. lra.
  - rewrite Dx by exact Hx. rewrite Dn. reflexivity.
Qed.
Lemma shows_general_ok : forall nn prec x, shows_general nn (Nat.max (Z.to_nat (if prec <? 0 then 6 else prec)) 1) x (num_text nn general prec x).
Proof.
  intros nn prec x. unfold num_text. set (p := Z.to_nat _). set (P := Nat.max p 1). assert (HP : (1 <= P)%nat) by (unfold P; lia).
  destruct x as [s|s| |s m e H]; unfold shows_general; cbn [magnitude_text].
  - rewrite sign_chars_text. f_equal. unfold general_text. fold P. unfold sci_parts. cbn [Z.eqb]. change (-4 <=? 0) with true. cbn [andb].
    assert (T : (0 <? Z.of_nat P) = true) by (apply Z.ltb_lt; lia). rewrite T.
    set (q := Z.to_nat _). rewrite Z.mul_0_l. change (div_even 0 1) with 0. rewrite Z.div_0_l, Z.mod_0_l by (pose proof (p10 q); lia).
    unfold short_point. rewrite strip_none. reflexivity.
  - rewrite sign_chars_text. reflexivity.
  - rewrite sign_chars_text. reflexivity.
  - pose proof (sci_ok (P - 1) (frac_num m e) (frac_den e) (frac_num_pos m e) (frac_den_pos e)) as S.
    pose proof (fixed_part (P - 1) (frac_num m e) (frac_den e) (frac_num_pos m e) (frac_den_pos e)) as T.
    unfold general_text. fold P. destruct (sci_parts (P - 1) (frac_num m e) (frac_den e)) as [n x]. destruct S as ((S1 & S2) & e' & S3 & S4).
    assert (Q := p10 (P - 1)). assert (N0 : 0 <= n) by lia.
    assert (V : (0 < IZR (frac_num m e) / IZR (frac_den e))%R).
    { apply Rlt_le_trans with (2 := proj1 S3). apply pow10_pos. }
    rewrite frac_value. set (v := (IZR (frac_num m e) / IZR (frac_den e))%R) in *.
    assert (Abs : Rabs ((if s then -1 else 1) * v) = v) by (destruct s; [rewrite Rabs_left|rewrite Rabs_pos_eq]; lra).
    assert (Bx : (powerRZ 10 x <= IZR n * powerRZ 10 (x - Z.of_nat (P - 1)) < powerRZ 10 (x + 1))%R).
    { pose proof (pow10_pos (x - Z.of_nat (P - 1))) as Pp. split.
      - replace x with (Z.of_nat (P - 1) + (x - Z.of_nat (P - 1))) at 1 by lia. rewrite pow10_add. apply Rmult_le_compat_r; [lra|].
        rewrite pow10_Z by lia. apply IZR_le, S1.
      - replace (x + 1) with (Z.of_nat (P - 1) + 1 + (x - Z.of_nat (P - 1))) by lia. rewrite (pow10_add (Z.of_nat (P - 1) + 1)). apply Rmult_lt_compat_r; [lra|].
        rewrite pow10_Z by lia. apply IZR_lt, S2. }
    assert (Main : forall nu, nm_sign nu = minus_if s -> proper nu -> normal_int (nm_int nu) -> no_end_zero (nm_frac nu) ->
      numeral_value nu = ((if s then -1 else 1) * IZR n * powerRZ 10 (x - Z.of_nat (P - 1)))%R ->
      ((-4 <= x < Z.of_nat P)%Z -> nm_exp nu = None) -> (~ (-4 <= x < Z.of_nat P)%Z -> with_exponent x nu) ->
      exists n0 e0 k, numeral_text nu = numeral_text n0 /\ proper n0 /\ nm_sign n0 = minus_if (Bsign (B754_finite s m e H : f64)) /\
        normal_int (nm_int n0) /\ no_end_zero (nm_frac n0) /\
        (powerRZ 10 e0 <= Rabs ((if s then -1 else 1) * v) < powerRZ 10 (e0 + 1))%R /\
        numeral_value n0 = nearest_decimal (Z.of_nat P - 1 - e0) ((if s then -1 else 1) * v) /\
        (powerRZ 10 k <= Rabs (numeral_value n0) < powerRZ 10 (k + 1))%R /\
        ((-4 <= k < Z.of_nat P)%Z -> nm_exp n0 = None) /\ (~ (-4 <= k < Z.of_nat P)%Z -> with_exponent k n0)).
    { intros nu A1 A2 A3 A4 A5 A6 A7. exists nu, e', x. split; [reflexivity|]. split; [exact A2|]. split; [exact A1|]. split; [exact A3|]. split; [exact A4|].
      split; [rewrite Abs; exact S3|]. split; [|split; [|split; [exact A6|exact A7]]].
      - rewrite A5, Rmult_assoc, S4. replace (Z.of_nat P - 1 - e') with (Z.of_nat (P - 1) - e') by lia. destruct s.
        + replace (-1 * v)%R with (- v)%R by ring. rewrite nearest_decimal_opp. ring.
        + rewrite !Rmult_1_l. reflexivity.
      - rewrite A5, Rmult_assoc, Rabs_mult. replace (Rabs (if s then -1 else 1)) with 1%R by (destruct s; [rewrite Rabs_left|rewrite Rabs_pos_eq]; lra).
        rewrite Rmult_1_l, Rabs_pos_eq; [exact Bx|]. eapply Rle_trans; [|apply Bx]. apply Rlt_le, pow10_pos. }
    destruct ((-4 <=? x) && (x <? Z.of_nat P)) eqn:C.
    + apply andb_true_iff in C. destruct C as [C1 C2]. apply Z.leb_le in C1. apply Z.ltb_lt in C2.
      replace (Z.of_nat P - 1 - x) with (Z.of_nat (P - 1) - x) by lia. rewrite T by lia. set (q := Z.to_nat _).
      replace (sign_text s ++ _) with (numeral_text (short_numeral s q n None)) by (rewrite short_text, app_nil_r; reflexivity).
      apply Main; try reflexivity; try tauto; [apply short_proper; auto|apply dec_normal, Z.div_pos; [exact N0|apply p10]|apply short_frac|].
      rewrite short_value by exact N0. do 2 f_equal. unfold exponent, short_numeral, q. cbn [nm_exp]. lia.
    + assert (D : 1 <= n / 10 ^ Z.of_nat (P - 1) < 10).
      { split; [apply Z.div_le_lower_bound; lia|]. apply Z.div_lt_upper_bound; [exact Q|]. rewrite Z.pow_add_r in S2 by lia. lia. }
      destruct (exp_digits_ok x) as (X1 & X2 & X3 & X4). set (ex := Some (false, Some (x <? 0), exp_digits x)).
      replace (sign_text s ++ _) with (numeral_text (short_numeral s (P - 1) n ex)) by (rewrite short_text, X1; reflexivity).
      assert (Ex : exponent (short_numeral s (P - 1) n ex) = x).
      { unfold exponent, short_numeral, ex. cbn [nm_exp is_minus]. rewrite X3. destruct (Z.ltb_spec x 0); lia. }
      apply Main; try reflexivity.
      * apply short_proper; [exact N0|]. split; [|exact X2]. intros Y. rewrite Y in X4. cbn in X4. lia.
      * apply dec_normal, Z.div_pos; [exact N0|apply p10].
      * apply short_frac.
      * rewrite short_value by exact N0. rewrite Ex. reflexivity.
      * intros Y. exfalso. apply andb_false_iff in C. destruct C as [C|C]; [apply Z.leb_gt in C|apply Z.ltb_ge in C]; lia.
      * intros _. split; [exists (Z.to_nat (n / 10 ^ Z.of_nat (P - 1))); split; [apply one_digit; lia|lia]|].
        exists (x <? 0), (exp_digits x). split; [reflexivity|]. split; [exact Ex|]. split; [intros ->; reflexivity|exact X4].
Qed.
