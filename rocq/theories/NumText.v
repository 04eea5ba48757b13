(** * Texts of numbers: proofs. *)

Require Import Reals ZArith List Bool Ascii Lra Lia.
From Flocq Require Import Core BinarySingleNaN.
Require Import Verif.B64 Verif.B64Facts Verif.Stream Verif.SpecRound Verif.SpecText Verif.SpecIo Verif.TextFacts Verif.ParseFacts.
Import ListNotations.
Local Open Scope Z_scope.

Lemma div_even_ok : forall num den, 0 < den -> div_even num den = ZnearestE (IZR num / IZR den).
Proof.
  intros num den Hd. unfold div_even, Znearest.
  assert (Hd' : (0 < IZR den)%R) by (apply IZR_lt; exact Hd).
  rewrite Zfloor_div by lia. set (q := num / den). set (r := num mod den).
  assert (E : num = den * q + r) by (apply Z_div_mod_eq_full).
  assert (Br : 0 <= r < den) by (apply Z.mod_pos_bound, Hd).
  assert (F : (IZR num / IZR den - IZR q = IZR r / IZR den)%R).
  { rewrite E, plus_IZR, mult_IZR. field. lra. }
  rewrite F.
  assert (Ceil : r <> 0 -> Zceil (IZR num / IZR den) = q + 1).
  { intros Hr. rewrite Zceil_floor_neq; rewrite Zfloor_div by lia; [reflexivity|]. fold q. intros X. rewrite X in F.
    assert (Y : (IZR r / IZR den = 0)%R) by lra. apply Hr, eq_IZR. apply (Rmult_eq_reg_r (/ IZR den)); [|apply Rinv_neq_0_compat; lra].
    unfold Rdiv in Y. lra. }
  destruct (Z.compare_spec (2 * r) den) as [C|C|C].
  - rewrite Rcompare_Eq.
    + destruct (Z.even q); cbn [negb]; [reflexivity|]. symmetry. apply Ceil. lia.
    + apply (f_equal IZR) in C. rewrite mult_IZR in C. apply (Rmult_eq_reg_r (IZR den)); [|lra].
      replace (IZR r / IZR den * IZR den)%R with (IZR r) by (field; lra). lra.
  - rewrite Rcompare_Lt; [reflexivity|]. apply IZR_lt in C. rewrite mult_IZR in C.
    apply (Rmult_lt_reg_r (IZR den)); [lra|]. replace (IZR r / IZR den * IZR den)%R with (IZR r) by (field; lra). lra.
  - rewrite Rcompare_Gt; [symmetry; apply Ceil; lia|]. apply IZR_lt in C. rewrite mult_IZR in C.
    apply (Rmult_lt_reg_r (IZR den)); [lra|]. replace (IZR r / IZR den * IZR den)%R with (IZR r) by (field; lra). lra.
Qed.
Lemma nearestE_opp : forall x, ZnearestE (- x) = - ZnearestE x.
Proof.
  intros x. rewrite Znearest_opp. f_equal. unfold Znearest. destruct (Rcompare _ _); auto.
  rewrite Z.even_opp, Z.add_1_r, Z.even_succ, <- Z.negb_even. destruct (Z.even _); reflexivity.
Qed.
Lemma nearest_decimal_opp : forall k r, nearest_decimal k (- r) = (- nearest_decimal k r)%R.
Proof.
  intros k r. unfold nearest_decimal. rewrite Ropp_mult_distr_l_reverse, nearestE_opp, opp_IZR. ring.
Qed.

(** ** Numerals written by the library *)
Definition frac_of (p : nat) (r : Z) : option (list nat) :=
  match p with O => None | S _ => Some (map dval (digits p r)) end.
Definition fixed_numeral (s : bool) (p : nat) (n : Z) (ex : option (bool * option bool * list nat)) : numeral :=
  mkNumeral (minus_if s) (map dval (dec (n / 10 ^ Z.of_nat p))) (frac_of p (n mod 10 ^ Z.of_nat p)) ex.
Lemma p10 : forall p, 0 < 10 ^ Z.of_nat p.
Proof. intros p. apply Z.pow_pos_nonneg; lia. Qed.
Lemma dec_all : forall n, Forall (fun c => is_digit c = true) (dec n).
Proof. intros n. apply digits_all. Qed.
Lemma frac_digits_of : forall s p n ex, frac_digits (fixed_numeral s p n ex) = map dval (digits p (n mod 10 ^ Z.of_nat p)).
Proof. intros s [|p] n ex; reflexivity. Qed.
Lemma sign_chars_text : forall s, sign_chars (minus_if s) = sign_text s.
Proof. intros []; reflexivity. Qed.
Lemma fixed_numeral_text : forall s p n, numeral_text (fixed_numeral s p n None) =
  sign_text s ++ dec (n / 10 ^ Z.of_nat p) ++ point p (n mod 10 ^ Z.of_nat p).
Proof.
  intros s p n. unfold numeral_text, fixed_numeral. cbn [nm_sign nm_int nm_frac nm_exp]. rewrite sign_chars_text, text_dval by apply dec_all.
  rewrite app_nil_r. do 2 f_equal. unfold frac_of, point. destruct p as [|p]; [reflexivity|]. rewrite text_dval by apply digits_all. reflexivity.
Qed.
Lemma fixed_numeral_proper : forall s p n, 0 <= n -> proper (fixed_numeral s p n None).
Proof.
  intros s p n Hn. unfold proper. rewrite frac_digits_of. cbn [fixed_numeral nm_int nm_exp].
  split; [apply dval_small, dec_all|]. split; [apply dval_small, digits_all|]. split; [|constructor].
  rewrite <- map_app. intros X. apply map_eq_nil, app_eq_nil in X. destruct X as [X _].
  revert X. apply dec_nonempty. apply Z.div_pos; [exact Hn|apply p10].
Qed.
Lemma digits_int : forall s p n ex, 0 <= n ->
  digits_nat 0 (nm_int (fixed_numeral s p n ex) ++ frac_digits (fixed_numeral s p n ex)) = n.
Proof.
  intros s p n ex Hn. rewrite frac_digits_of. cbn [fixed_numeral nm_int]. rewrite <- map_app, <- dv_nat.
  2:{ apply Forall_app. split; [apply dec_all|apply digits_all]. }
  assert (P := p10 p). rewrite dv_app, dec_val by (apply Z.div_pos; [exact Hn|exact P]).
  rewrite digits_length, digits_val by (apply Z.mod_pos_bound, P). rewrite Z.mod_mod by lia.
  rewrite Z.mul_comm. symmetry. apply Z_div_mod_eq_full.
Qed.
Lemma frac_len : forall s p n ex, length (frac_digits (fixed_numeral s p n ex)) = p.
Proof. intros s p n ex. rewrite frac_digits_of, map_length. apply digits_length. Qed.
Lemma fixed_numeral_value : forall s p n, 0 <= n ->
  numeral_value (fixed_numeral s p n None) = ((if s then -1 else 1) * IZR n * powerRZ 10 (- Z.of_nat p))%R.
Proof.
  intros s p n Hn. unfold numeral_value. rewrite digits_int, frac_len by exact Hn. unfold exponent. cbn [fixed_numeral nm_exp nm_sign].
  f_equal. f_equal. destruct s; reflexivity.
Qed.
Lemma dec_normal : forall n, 0 <= n -> normal_int (map dval (dec n)).
Proof.
  intros n Hn. unfold normal_int. rewrite map_length. unfold dec at 1 2. rewrite digits_length.
  destruct (dlen_ok n Hn) as (A & B & C). destruct (Nat.eq_dec (dlen n) 1) as [E|E]; [left; exact E|right; split; [lia|]].
  destruct (dec n) as [|c d] eqn:X; [exfalso; exact (dec_nonempty n Hn X)|]. cbn [map hd]. intros Z0.
  pose proof (dec_val n Hn) as V. pose proof (dec_all n) as D. rewrite X in V, D. pose proof (Forall_inv D) as D1. pose proof (Forall_inv_tail D) as D2. cbn beta in D1.
  change (c :: d) with ([c] ++ d) in V. rewrite dv_app in V.
  assert (c0 : digits_value [c] = 0).
  { unfold digits_value. cbn [fold_left]. unfold dval in Z0. unfold is_digit in D1. lia. }
  rewrite c0, Z.mul_0_l, Z.add_0_l in V.
  assert (L : length d = (dlen n - 1)%nat).
  { assert (L : length (dec n) = dlen n) by apply digits_length. rewrite X in L. cbn in L. lia. }
  assert (Hp : 0 < n).
  { destruct (Z.eq_dec n 0) as [->|]; [|lia]. exfalso. apply E. reflexivity. }
  specialize (B Hp).
  assert (Up : digits_value d < 10 ^ Z.of_nat (length d)).
  { clear - D2. induction D2 as [|c d H D2 IH]; [reflexivity|]. change (c :: d) with ([c] ++ d). rewrite dv_app.
    assert (K : digits_value [c] <= 9) by (unfold digits_value; cbn [fold_left]; unfold is_digit in H; lia).
    rewrite app_length, Nat2Z.inj_add, Z.pow_add_r by lia. change (10 ^ Z.of_nat (length [c])) with 10. pose proof (p10 (length d)). nia. }
  rewrite L in Up. replace (Z.of_nat (dlen n - 1)) with (Z.of_nat (dlen n) - 1) in Up by lia. lia.
Qed.
Lemma point_of : forall p r, point_digits p (frac_of p r).
Proof. intros [|p] r; [reflexivity|]. cbn [point_digits frac_of]. eexists. split; [reflexivity|]. rewrite map_length. apply digits_length. Qed.

(** The value of a double as a fraction. *)
Lemma frac_den_pos : forall e, 0 < frac_den e.
Proof. intros e. apply Z.pow_pos_nonneg; lia. Qed.
Lemma frac_num_pos : forall m e, 0 < frac_num m e.
Proof. intros m e. apply Z.mul_pos_pos; [lia|]. apply Z.pow_pos_nonneg; lia. Qed.
Lemma frac_value : forall s m e H, B2R (B754_finite s m e H : f64) =
  ((if s then -1 else 1) * (IZR (frac_num m e) / IZR (frac_den e)))%R.
Proof.
  intros s m e H. unfold B2R, F2R, frac_num, frac_den. cbn [Fnum Fexp].
  assert (X : forall z, 0 <= z -> IZR (2 ^ z) = bpow radix2 z) by (intros z Hz; apply (IZR_Zpower radix2 z Hz)).
  rewrite mult_IZR, !X by lia. unfold Rdiv. rewrite <- bpow_opp, Rmult_assoc, <- bpow_plus.
  replace (Z.max e 0 + - Z.max (- e) 0) with e by lia. destruct s; cbn [cond_Zopp]; [rewrite opp_IZR|]; ring.
Qed.
Lemma shows_fixed_ok : forall nn prec x, shows_fixed nn (Z.to_nat (if prec <? 0 then 6 else prec)) x (num_text nn fixed_nt prec x).
Proof.
  intros nn prec x. unfold num_text. set (p := Z.to_nat _). 
  assert (Main : forall s num den, 0 <= num -> 0 < den ->
    exists n, sign_text s ++ fixed_text p num den = numeral_text n /\ proper n /\ nm_sign n = minus_if s /\
      normal_int (nm_int n) /\ point_digits p (nm_frac n) /\ nm_exp n = None /\
      numeral_value n = nearest_decimal (Z.of_nat p) ((if s then -1 else 1) * (IZR num / IZR den))).
  { intros s num den Hn Hd. unfold fixed_text. set (n := div_even _ _).
    assert (Dn : IZR n = IZR (ZnearestE (IZR num / IZR den * powerRZ 10 (Z.of_nat p)))).
    { unfold n. rewrite div_even_ok by exact Hd. do 2 f_equal. rewrite pow10_Z, mult_IZR by lia. field. apply not_0_IZR. lia. }
    assert (N0 : 0 <= n).
    { apply le_IZR. rewrite Dn. apply IZR_le. rewrite <- (@Zrnd_IZR ZnearestE (valid_rnd_N _) 0).
      apply (@Zrnd_le ZnearestE (valid_rnd_N _)). apply Rmult_le_pos; [|apply Rlt_le, pow10_pos].
      apply Rmult_le_pos; [apply IZR_le; exact Hn|]. apply Rlt_le, Rinv_0_lt_compat, IZR_lt, Hd. }
    exists (fixed_numeral s p n None). split; [symmetry; apply fixed_numeral_text|]. split; [apply fixed_numeral_proper, N0|].
    split; [reflexivity|]. split; [apply dec_normal, Z.div_pos; [exact N0|apply p10]|]. split; [apply point_of|]. split; [reflexivity|].
    rewrite fixed_numeral_value by exact N0. rewrite Dn. destruct s.
    - replace (-1 * (IZR num / IZR den))%R with (- (IZR num / IZR den))%R by ring. rewrite nearest_decimal_opp. unfold nearest_decimal. ring.
    - rewrite Rmult_1_l. unfold nearest_decimal. rewrite Rmult_1_l. reflexivity. }
  destruct x as [s|s| |s m e H]; unfold shows_fixed; cbn [magnitude_text].
  - destruct (Main s 0 1) as (n & A & B); [lia|lia|]. exists n. split; [exact A|]. cbn [Bsign B2R].
    replace ((if s then -1 else 1) * (0 / 1))%R with 0%R in B by (field). exact B.
  - rewrite sign_chars_text. reflexivity.
  - rewrite sign_chars_text. reflexivity.
  - destruct (Main s (frac_num m e) (frac_den e)) as (n & A & B); [apply Z.lt_le_incl, frac_num_pos|apply frac_den_pos|].
    exists n. split; [exact A|]. rewrite frac_value. exact B.
Qed.

(** ** Scientific notation *)
Lemma pow10_add : forall a b, powerRZ 10 (a + b) = (powerRZ 10 a * powerRZ 10 b)%R.
Proof. intros a b. apply powerRZ_add. lra. Qed.
Lemma pow10_opp : forall a, powerRZ 10 (- a) = (/ powerRZ 10 a)%R.
Proof. intros a. apply powerRZ_neg'. Qed.
Lemma pow10_split : forall k, powerRZ 10 k = (IZR (10 ^ (Z.max k 0)) / IZR (10 ^ (Z.max (- k) 0)))%R.
Proof.
  intros k. rewrite <- !pow10_Z by lia. unfold Rdiv. rewrite <- pow10_opp, <- pow10_add. f_equal. lia.
Qed.
Lemma dlen_real : forall n, 0 < n -> (powerRZ 10 (Z.of_nat (dlen n) - 1) <= IZR n < powerRZ 10 (Z.of_nat (dlen n)))%R.
Proof.
  intros n Hn. destruct (dlen_ok n) as (A & B & C); [lia|]. rewrite !pow10_Z by lia. split; [apply IZR_le; auto|apply IZR_lt, A].
Qed.
Lemma exp10_ok : forall num den, 0 < num -> 0 < den ->
  (powerRZ 10 (exp10 num den) <= IZR num / IZR den < powerRZ 10 (exp10 num den + 1))%R.
Proof.
  intros num den Hn Hd. unfold exp10. set (e := Z.of_nat (dlen num) - Z.of_nat (dlen den)).
  destruct (dlen_real num Hn) as [A1 A2]. destruct (dlen_real den Hd) as [B1 B2].
  assert (Hd' : (0 < IZR den)%R) by (apply IZR_lt, Hd). assert (Hn' : (0 < IZR num)%R) by (apply IZR_lt, Hn).
  assert (Up : (IZR num / IZR den < powerRZ 10 (e + 1))%R).
  { apply (Rmult_lt_reg_r (IZR den)); [exact Hd'|]. unfold Rdiv. rewrite Rmult_assoc, Rinv_l, Rmult_1_r by lra.
    apply Rlt_le_trans with (1 := A2). replace (Z.of_nat (dlen num)) with (e + 1 + (Z.of_nat (dlen den) - 1)) by (unfold e; lia).
    rewrite pow10_add. apply Rmult_le_compat_l; [apply Rlt_le, pow10_pos|exact B1]. }
  assert (Lo : (powerRZ 10 (e - 1) <= IZR num / IZR den)%R).
  { apply Rlt_le. apply (Rmult_lt_reg_r (IZR den)); [exact Hd'|]. unfold Rdiv. rewrite Rmult_assoc, Rinv_l, Rmult_1_r by lra.
    apply Rlt_le_trans with (2 := A1). replace (Z.of_nat (dlen num) - 1) with (e - 1 + Z.of_nat (dlen den)) by (unfold e; lia).
    rewrite pow10_add. apply Rmult_lt_compat_l; [apply pow10_pos|exact B2]. }
  assert (T : (powerRZ 10 e <= IZR num / IZR den)%R <-> den * 10 ^ (Z.max e 0) <= num * 10 ^ (Z.max (- e) 0)).
  { rewrite pow10_split. assert (P1 : (0 < IZR (10 ^ Z.max e 0))%R) by (apply IZR_lt, Z.pow_pos_nonneg; lia).
    assert (P2 : (0 < IZR (10 ^ Z.max (- e) 0))%R) by (apply IZR_lt, Z.pow_pos_nonneg; lia).
    assert (X : (IZR (10 ^ Z.max e 0) / IZR (10 ^ Z.max (- e) 0) * (IZR den * IZR (10 ^ Z.max (- e) 0)) = IZR den * IZR (10 ^ Z.max e 0))%R) by (field; lra).
    assert (Y : (IZR num / IZR den * (IZR den * IZR (10 ^ Z.max (- e) 0)) = IZR num * IZR (10 ^ Z.max (- e) 0))%R) by (field; lra).
    assert (P3 : (0 < IZR den * IZR (10 ^ Z.max (- e) 0))%R) by (apply Rmult_lt_0_compat; lra).
    split; intros H.
    - apply le_IZR. rewrite !mult_IZR. rewrite <- X, <- Y. apply Rmult_le_compat_r; lra.
    - apply IZR_le in H. rewrite !mult_IZR in H. rewrite <- X, <- Y in H. apply (Rmult_le_reg_r _ _ _ P3 H). }
  destruct (Z.leb_spec (den * 10 ^ (Z.max e 0)) (num * 10 ^ (Z.max (- e) 0))) as [H|H].
  - split; [apply T, H|exact Up].
  - split; [exact Lo|]. replace (e - 1 + 1) with e by lia. apply Rnot_le_lt. intros Q. apply T in Q. lia.
Qed.
Lemma sci_ok : forall p num den, 0 < num -> 0 < den ->
  let '(n, e) := sci_parts p num den in
  10 ^ Z.of_nat p <= n < 10 ^ (Z.of_nat p + 1) /\
  exists e', (powerRZ 10 e' <= IZR num / IZR den < powerRZ 10 (e' + 1))%R /\
    (IZR n * powerRZ 10 (e - Z.of_nat p) = nearest_decimal (Z.of_nat p - e') (IZR num / IZR den))%R.
Proof.
  intros p num den Hn Hd. unfold sci_parts. destruct (Z.eqb_spec num 0) as [|_]; [lia|].
  pose proof (exp10_ok num den Hn Hd) as E. set (e := exp10 num den) in *. set (k := Z.of_nat p - e).
  assert (Hd' : (0 < IZR den)%R) by (apply IZR_lt, Hd).
  set (n := div_even _ _).
  assert (Dn : n = ZnearestE (IZR num / IZR den * powerRZ 10 k)).
  { unfold n. rewrite div_even_ok.
    - f_equal. rewrite !mult_IZR, pow10_split. field. split; apply not_0_IZR; try lia; apply Z.pow_nonzero; lia.
    - apply Z.mul_pos_pos; [exact Hd|]. apply Z.pow_pos_nonneg; lia. }
  assert (Sh : forall j, (powerRZ 10 (e + j) * powerRZ 10 k = powerRZ 10 (Z.of_nat p + j))%R).
  { intros j. rewrite <- pow10_add. f_equal. unfold k. lia. }
  assert (Lo : 10 ^ Z.of_nat p <= n).
  { rewrite Dn. rewrite <- (@Zrnd_IZR ZnearestE (valid_rnd_N _) (10 ^ Z.of_nat p)). apply (@Zrnd_le ZnearestE (valid_rnd_N _)).
    rewrite <- pow10_Z by lia. replace (Z.of_nat p) with (Z.of_nat p + 0) by lia. rewrite <- (Sh 0). rewrite Z.add_0_r.
    apply Rmult_le_compat_r; [apply Rlt_le, pow10_pos|apply E]. }
  assert (Up : n <= 10 ^ (Z.of_nat p + 1)).
  { rewrite Dn. rewrite <- (@Zrnd_IZR ZnearestE (valid_rnd_N _) (10 ^ (Z.of_nat p + 1))). apply (@Zrnd_le ZnearestE (valid_rnd_N _)).
    rewrite <- pow10_Z by lia. rewrite <- (Sh 1). apply Rlt_le, Rmult_lt_compat_r; [apply pow10_pos|apply E]. }
  destruct (Z.eqb_spec n (10 ^ (Z.of_nat p + 1))) as [Q|Q].
  - split; [split; [lia|]|].
    + apply Z.pow_lt_mono_r; lia.
    + exists e. split; [exact E|]. unfold nearest_decimal. fold k. rewrite <- Dn, Q. rewrite <- !pow10_Z by lia.
      rewrite <- !pow10_add. f_equal. unfold k. lia.
  - split; [lia|]. exists e. split; [exact E|]. unfold nearest_decimal. fold k. rewrite <- Dn. do 2 f_equal. unfold k. lia.
Qed.
Definition exp_digits (e : Z) : list nat := map dval (if Z.abs e <? 10 then "0"%char :: dec (Z.abs e) else dec (Z.abs e)).
Lemma exp_all : forall e, Forall (fun c => is_digit c = true) (if Z.abs e <? 10 then "0"%char :: dec (Z.abs e) else dec (Z.abs e)).
Proof. intros e. destruct (_ <? _); [constructor; [reflexivity|]|]; apply dec_all. Qed.
Lemma exp_digits_ok : forall e, exp_text e = "e"%char :: sign_chars (Some (e <? 0)) ++ digits_text (exp_digits e) /\
  Forall (fun d => (d < 10)%nat) (exp_digits e) /\ digits_nat 0 (exp_digits e) = Z.abs e /\
  (length (exp_digits e) = 2 \/ (2 < length (exp_digits e) /\ hd 0 (exp_digits e) <> 0))%nat.
Proof.
  intros e. unfold exp_digits. rewrite text_dval by apply exp_all. split; [|split; [|split]].
  - unfold exp_text. destruct (e <? 0); reflexivity.
  - apply dval_small, exp_all.
  - rewrite <- dv_nat by apply exp_all. destruct (Z.abs e <? 10); [|apply dec_val; lia].
    change ("0"%char :: dec (Z.abs e)) with (["0"%char] ++ dec (Z.abs e)). rewrite dv_app, dec_val by lia. reflexivity.
  - destruct (Z.ltb_spec (Z.abs e) 10) as [H|H].
    + left. rewrite map_length. cbn [length]. unfold dec. rewrite digits_length. unfold dlen.
      destruct (Z.to_nat (Z.log2 (Z.abs e))) as [|f]; [reflexivity|]. cbn [ndigits]. destruct (Z.ltb_spec (Z.abs e) 10); [reflexivity|lia].
    + pose proof (dec_normal (Z.abs e) ltac:(lia)) as N. unfold normal_int in N.
      destruct (dlen_ok (Z.abs e)) as (A & _ & _); [lia|].
      assert (L : length (map dval (dec (Z.abs e))) = dlen (Z.abs e)) by (rewrite map_length; apply digits_length).
      destruct (Nat.eq_dec (dlen (Z.abs e)) 1) as [E1|E1]; [rewrite E1 in A; change (10 ^ Z.of_nat 1) with 10 in A; lia|].
      destruct N as [N|N]; [congruence|]. destruct (Nat.eq_dec (dlen (Z.abs e)) 2); [left; congruence|right; lia].
Qed.
Lemma one_digit : forall d, 0 <= d < 10 -> map dval (dec d) = [Z.to_nat d].
Proof.
  intros d H. unfold dec, dlen. replace (ndigits _ d) with 1%nat.
  2:{ destruct (Z.to_nat (Z.log2 d)); [reflexivity|]. cbn [ndigits]. destruct (Z.ltb_spec d 10); [reflexivity|lia]. }
  cbn [digits app map]. rewrite Z.mod_small by exact H. unfold dval. rewrite digit_code by exact H. do 2 f_equal. lia.
Qed.
Definition sci_numeral (s : bool) (p : nat) (n e : Z) : numeral :=
  fixed_numeral s p n (Some (false, Some (e <? 0), exp_digits e)).
Lemma sci_numeral_text : forall s p n e, numeral_text (sci_numeral s p n e) =
  sign_text s ++ dec (n / 10 ^ Z.of_nat p) ++ point p (n mod 10 ^ Z.of_nat p) ++ exp_text e.
Proof.
  intros s p n e. destruct (exp_digits_ok e) as (-> & _). unfold numeral_text, sci_numeral, fixed_numeral.
  cbn [nm_sign nm_int nm_frac nm_exp]. rewrite sign_chars_text, text_dval by apply dec_all.
  do 2 f_equal. unfold frac_of, point. destruct p as [|p]; [reflexivity|]. rewrite text_dval by apply digits_all. reflexivity.
Qed.
Lemma sci_numeral_proper : forall s p n e, 0 <= n -> proper (sci_numeral s p n e).
Proof.
  intros s p n e Hn. destruct (fixed_numeral_proper s p n Hn) as (A & B & C & _). split; [exact A|].
  unfold frac_digits in *. split; [exact B|]. split; [exact C|]. cbn [sci_numeral fixed_numeral nm_exp].
  destruct (exp_digits_ok e) as (_ & D & _ & E). split; [|exact D]. intros X. rewrite X in E. cbn in E. lia.
Qed.
Lemma sci_numeral_value : forall s p n e, 0 <= n ->
  numeral_value (sci_numeral s p n e) = ((if s then -1 else 1) * IZR n * powerRZ 10 (e - Z.of_nat p))%R.
Proof.
  intros s p n e Hn. unfold numeral_value, sci_numeral. rewrite digits_int, frac_len by exact Hn. unfold exponent.
  cbn [fixed_numeral nm_exp nm_sign is_minus]. destruct (exp_digits_ok e) as (_ & _ & -> & _).
  f_equal; [destruct s; reflexivity|]. f_equal. destruct (Z.ltb_spec e 0); lia.
Qed.
Lemma shows_sci_ok : forall nn prec x, shows_sci nn (Z.to_nat (if prec <? 0 then 6 else prec)) x (num_text nn scientific prec x).
Proof.
  intros nn prec x. unfold num_text. set (p := Z.to_nat _).
  destruct x as [s|s| |s m e H]; unfold shows_sci; cbn [magnitude_text].
  - exists (sci_numeral s p 0 0), false, (exp_digits 0). cbn [B2R Bsign].
    split; [symmetry; apply sci_numeral_text|]. split; [apply sci_numeral_proper; lia|]. split; [reflexivity|].
    split; [exists 0%nat; split; [cbn [sci_numeral fixed_numeral nm_int]; rewrite Z.div_0_l by (pose proof (p10 p); lia); reflexivity|lra]|].
    split; [apply point_of|]. split; [reflexivity|]. split; [left; reflexivity|]. split; [|lra]. intros _.
    split; [rewrite sci_numeral_value by lia; ring|]. split; reflexivity.
  - rewrite sign_chars_text. reflexivity.
  - rewrite sign_chars_text. reflexivity.
  - pose proof (sci_ok p (frac_num m e) (frac_den e) (frac_num_pos m e) (frac_den_pos e)) as S.
    unfold sci_text. destruct (sci_parts p (frac_num m e) (frac_den e)) as [n x]. destruct S as ((S1 & S2) & e' & S3 & S4).
    assert (P := p10 p). assert (N0 : 0 <= n) by lia.
    assert (V : (0 < IZR (frac_num m e) / IZR (frac_den e))%R).
    { apply Rlt_le_trans with (2 := proj1 S3). apply pow10_pos. }
    assert (D : 1 <= n / 10 ^ Z.of_nat p < 10).
    { split; [apply Z.div_le_lower_bound; lia|]. apply Z.div_lt_upper_bound; [exact P|]. rewrite Z.pow_add_r in S2 by lia. lia. }
    exists (sci_numeral s p n x), (x <? 0), (exp_digits x).
    split; [symmetry; apply sci_numeral_text|]. split; [apply sci_numeral_proper, N0|]. split; [reflexivity|].
    split; [exists (Z.to_nat (n / 10 ^ Z.of_nat p)); split; [cbn [sci_numeral fixed_numeral nm_int]; apply one_digit; lia|lia]|].
    split; [apply point_of|]. split; [reflexivity|]. split; [apply exp_digits_ok|].
    rewrite frac_value. set (v := (IZR (frac_num m e) / IZR (frac_den e))%R) in *. split; [intros X; exfalso; destruct s; lra|].
    intros _. exists e'. split; [destruct s; [rewrite Rabs_left|rewrite Rabs_pos_eq]; lra|].
    rewrite sci_numeral_value, Rmult_assoc, S4 by exact N0. destruct s.
    + replace (-1 * v)%R with (- v)%R by ring. rewrite nearest_decimal_opp. ring.
    + rewrite !Rmult_1_l. reflexivity.
Qed.
