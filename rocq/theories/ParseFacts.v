(** * Reading numbers: proofs. *)

Require Import Reals ZArith List Bool Ascii Lra Lia.
From Flocq Require Import Core BinarySingleNaN.
Require Import Verif.B64 Verif.B64Facts Verif.Stream Verif.SpecRound Verif.SpecText Verif.TextFacts.
Import ListNotations.
Local Open Scope Z_scope.

(** The text does not begin with a character of the kind [p]. *)
Definition nohead (p : ascii -> bool) (s : text) : Prop :=
  match s with [] => True | c :: _ => p c = false end.

(** ** Scanning *)
Lemma span_app : forall d r, Forall (fun c => is_digit c = true) d -> nohead is_digit r ->
  span_digits (d ++ r) = (d, r).
Proof.
  intros d r H N. induction H as [|c d Hc H IH]; cbn [app span_digits].
  - destruct r as [|c r]; [reflexivity|]. cbn in N |- *. rewrite N. reflexivity.
  - rewrite Hc, IH. reflexivity.
Qed.
Lemma span_spec : forall s d r, span_digits s = (d, r) ->
  s = d ++ r /\ Forall (fun c => is_digit c = true) d /\ nohead is_digit r.
Proof.
  induction s as [|c s IH]; intros d r H; cbn [span_digits] in H.
  - inversion H; subst. repeat split; constructor.
  - destruct (is_digit c) eqn:E.
    + destruct (span_digits s) as [d' r'] eqn:S. inversion H; subst. destruct (IH _ _ eq_refl) as (A & B & C).
      subst s. repeat split; auto.
    + inversion H; subst. repeat split; auto.
Qed.
Lemma take_sign_app : forall s r, nohead is_sign r -> take_sign (sign_chars s ++ r) = (is_minus s, r).
Proof.
  intros [[|]|] r H; try reflexivity. cbn. destruct r as [|c r]; [reflexivity|]. cbn in H |- *. rewrite H. reflexivity.
Qed.
Lemma take_sign_spec : forall s b r, take_sign s = (b, r) ->
  exists sg, s = sign_chars sg ++ r /\ b = is_minus sg.
Proof.
  intros [|c s] b r H; cbn in H.
  - inversion H; subst. exists None. split; reflexivity.
  - unfold is_sign in H. destruct (code c =? 43) eqn:P; cbn [orb] in H.
    + inversion H; subst. exists (Some false). apply Z.eqb_eq in P. rewrite P. split; [|reflexivity].
      cbn. f_equal. apply code_inj. rewrite P. reflexivity.
    + destruct (code c =? 45) eqn:M; inversion H; subst.
      * exists (Some true). apply Z.eqb_eq in M. split; [|reflexivity]. cbn. f_equal. apply code_inj. rewrite M. reflexivity.
      * exists None. split; reflexivity.
Qed.
Lemma digit_nosign : forall c, is_digit c = true -> is_sign c = false.
Proof. intros c H. unfold is_digit, is_sign in *. lia. Qed.
Definition scan_exp (n : numeral) : option (bool * text) :=
  match nm_exp n with Some (_, s, ds) => Some (is_minus s, digits_text ds) | None => None end.
Lemma length_nil : forall (l : text), Nat.eqb (length l) 0 = nilb l.
Proof. intros []; reflexivity. Qed.
Lemma digits_nohead : forall ds r (p : ascii -> bool), Forall (fun d => (d < 10)%nat) ds ->
  (forall c, is_digit c = true -> p c = false) -> (ds = [] -> nohead p r) -> nohead p (digits_text ds ++ r).
Proof.
  intros ds r p H Hp Hr. destruct H as [|d ds Hd H]; cbn [digits_text map app nohead]; [apply Hr; reflexivity|]. apply Hp.
  unfold is_digit. rewrite digit_char_code by exact Hd. lia.
Qed.
Lemma scan_numeral : forall n rest, proper n -> ends n rest ->
  scan (numeral_text n ++ rest) =
  (is_minus (nm_sign n), digits_text (nm_int n), digits_text (frac_digits n), scan_exp n, rest).
Proof.
  intros [sg ip fp ex] rest (P1 & P2 & P3 & P4) E. unfold numeral_text, frac_digits, scan_exp in *. cbn [nm_sign nm_int nm_frac nm_exp] in *.
  unfold scan. rewrite <- !app_assoc.
  (* what follows the digits *)
  set (t2 := match ex with
      | Some (u, s, ds) => (if u then "E"%char else "e"%char) :: sign_chars s ++ digits_text ds
      | None => [] end ++ rest).
  assert (T2 : nohead is_digit t2 /\ (fp = None -> nohead (fun c => code c =? 46) t2)).
  { unfold t2. destruct ex as [[[u s] ds]|].
    - cbn [app]. destruct u; split; try reflexivity; intros; reflexivity.
    - cbn [app]. unfold ends in E. cbn [nm_exp nm_frac] in E. destruct rest as [|c r]; [split; intros; exact I|].
      destruct E as [E1 E2]. destruct (E2 eq_refl) as (E3 & E4 & E5). cbn. split.
      + destruct (is_digit c) eqn:D; [|reflexivity]. exfalso. apply E1, digit_isdigit, D.
      + intros ->. specialize (E5 eq_refl). apply Z.eqb_neq. intros X. apply E5, code_inj. exact X. }
  destruct T2 as [T2a T2b].
  assert (Tail : forall ip', Nat.eqb (length (digits_text ip ++ ip')) 0 = false ->
    match t2 with
    | [] => (is_minus sg, digits_text ip, ip', None, [])
    | c :: r => if is_exp c && negb (Nat.eqb (length (digits_text ip ++ ip')) 0)
        then let '(eneg, r0) := take_sign r in let '(ed, r1) := span_digits r0 in (is_minus sg, digits_text ip, ip', Some (eneg, ed), r1)
        else (is_minus sg, digits_text ip, ip', None, t2)
    end = (is_minus sg, digits_text ip, ip',
      match ex with Some (_, s, ds) => Some (is_minus s, digits_text ds) | None => None end, rest)).
  { intros ip' L. rewrite L. unfold t2. destruct ex as [[[u s] ds]|]; cbn [app].
    - destruct P4 as [P4 P5].
      assert (X : is_exp (if u then "E"%char else "e"%char) = true) by (destruct u; reflexivity). rewrite X. cbn [negb andb].
      rewrite <- app_assoc, take_sign_app.
      + rewrite span_app; [reflexivity|apply text_isdigit, P5|].
        unfold ends in E. destruct rest as [|c r]; [exact I|]. destruct E as [E1 _]. cbn.
        destruct (is_digit c) eqn:D; [|reflexivity]. exfalso. apply E1, digit_isdigit, D.
      + apply digits_nohead; [exact P5|exact digit_nosign|intros; contradiction].
    - unfold ends in E. cbn [nm_exp] in E. destruct rest as [|c r]; [reflexivity|].
      destruct E as [E1 E2]. destruct (E2 eq_refl) as (E3 & E4 & _).
      assert (X : is_exp c = false).
      { unfold is_exp. apply orb_false_iff. split; apply Z.eqb_neq; intros X; [apply E3|apply E4]; apply code_inj; exact X. }
      rewrite X. reflexivity. }
  rewrite take_sign_app.
  2:{ apply digits_nohead; [exact P1|exact digit_nosign|]. intros ->. destruct fp as [f|]; [reflexivity|]. exfalso. apply P3. reflexivity. }
  rewrite span_app; [|apply text_isdigit, P1|].
  2:{ destruct fp as [f|]; [reflexivity|exact T2a]. }
  destruct fp as [f|].
  - cbn [app]. change (code "." =? 46) with true. cbv iota.
    rewrite span_app; [|apply text_isdigit, P2|exact T2a]. apply Tail.
    rewrite length_nil. unfold digits_text. rewrite <- map_app. destruct (ip ++ f); [exfalso; apply P3; reflexivity|reflexivity].
  - cbn [app]. specialize (T2b eq_refl).
    assert (S0 : match t2 with [] => ([], []) | c :: r => if code c =? 46 then span_digits r else ([], t2) end = ([] : text, t2)).
    { destruct t2 as [|c r]; [reflexivity|]. cbn in T2b. rewrite T2b. reflexivity. }
    match goal with |- context [match ?m with pair _ _ => _ end] => replace m with ([] : text, t2) by (symmetry; exact S0) end.
    cbn [digits_text map]. apply Tail.
    rewrite length_nil, app_nil_r. rewrite app_nil_r in P3. destruct ip; [exfalso; apply P3; reflexivity|reflexivity].
Qed.

Lemma nohead_ends : forall n rest, nohead is_digit rest ->
  (nm_exp n = None -> nohead is_exp rest) -> (nm_exp n = None -> nm_frac n = None -> nohead (fun c => code c =? 46) rest) ->
  ends n rest.
Proof.
  intros n [|c r] H1 H2 H3; [exact I|]. cbn in *. split.
  - intros X. apply digit_isdigit in X. congruence.
  - intros Hn. specialize (H2 Hn). specialize (H3 Hn). unfold is_exp in H2. apply orb_false_iff in H2. destruct H2 as [A B].
    repeat split; [| |intros F; specialize (H3 F)]; intros ->; discriminate.
Qed.
Lemma scan_sound : forall s neg ip fp ex rest, scan s = (neg, ip, fp, ex, rest) ->
  ip ++ fp <> [] -> (forall e, ex <> Some (e, [])) ->
  exists n, s = numeral_text n ++ rest /\ proper n /\ ends n rest /\ is_minus (nm_sign n) = neg /\
    nm_int n = map dval ip /\ frac_digits n = map dval fp /\
    Forall (fun c => is_digit c = true) ip /\ Forall (fun c => is_digit c = true) fp /\
    match ex with
    | None => nm_exp n = None
    | Some (b, ed) => Forall (fun c => is_digit c = true) ed /\ exists u sg, nm_exp n = Some (u, sg, map dval ed) /\ is_minus sg = b
    end.
Proof.
  intros s neg ip fp ex rest H Hne Hex. unfold scan in H.
  destruct (take_sign s) as [neg0 s1] eqn:T. destruct (take_sign_spec _ _ _ T) as (sg & -> & ->).
  destruct (span_digits s1) as [ip0 s2] eqn:I. destruct (span_spec _ _ _ I) as (-> & Di & N2).
  destruct (match s2 with [] => ([], []) | c :: r => if code c =? 46 then span_digits r else ([], s2) end) as [fp0 s3] eqn:M.
  assert (Hm : exists f, s2 = match f with Some d => "."%char :: digits_text d | None => [] end ++ s3 /\
     fp0 = digits_text (match f with Some d => d | None => [] end) /\
     match f with Some d => d = map dval fp0 | None => fp0 = [] end /\ Forall (fun c => is_digit c = true) fp0 /\ nohead is_digit s3 /\
     (f = None -> nohead (fun c => code c =? 46) s3)).
  { clear H. destruct s2 as [|c r]; [inversion M; subst; exists None; cbn; repeat split; auto|].
    destruct (code c =? 46) eqn:Pt.
    - destruct (span_spec _ _ _ M) as (-> & Df & N3). exists (Some (map dval fp0)). rewrite text_dval by exact Df.
      apply Z.eqb_eq in Pt. replace c with "."%char by (apply code_inj; rewrite Pt; reflexivity).
      repeat split; auto. discriminate.
    - inversion M; subst. exists None. cbn. repeat split; auto. }
  destruct Hm as (f & -> & Hf & Hf2 & Df & N3 & N3b). clear M.
  (* the two outcomes *)
  assert (Hout : exists e0, fp0 = fp /\ ip0 = ip /\ is_minus sg = neg /\
    s3 = match e0 with Some (u, s, ds) => (if (u : bool) then "E"%char else "e"%char) :: sign_chars s ++ digits_text ds | None => [] end ++ rest /\
    nohead is_digit rest /\ (e0 = None -> nohead is_exp rest /\ s3 = rest) /\
    match ex with
    | None => e0 = None
    | Some (b, ed) => Forall (fun c => is_digit c = true) ed /\ exists u sg, e0 = Some (u, sg, map dval ed) /\ is_minus sg = b
    end).
  { destruct s3 as [|c r].
    - inversion H; subst. exists None. cbn. repeat split; auto.
    - destruct (is_exp c && negb (Nat.eqb (length (ip0 ++ fp0)) 0)) eqn:X.
      + destruct (take_sign r) as [eneg r1] eqn:T2. destruct (take_sign_spec _ _ _ T2) as (sg2 & -> & ->).
        destruct (span_digits r1) as [ed r2] eqn:I2. destruct (span_spec _ _ _ I2) as (-> & De & N4). inversion H; subst.
        apply andb_true_iff in X. destruct X as [X _]. unfold is_exp in X.
        exists (Some (code c =? 69, sg2, map dval ed)). rewrite text_dval by exact De.
        repeat split; auto; try discriminate.
        * cbn. rewrite <- app_assoc. f_equal. apply code_inj. destruct (Z.eqb_spec (code c) 69) as [E|E]; [rewrite E; reflexivity|].
          destruct (Z.eqb_spec (code c) 101) as [E'|E']; [rewrite E'; reflexivity|discriminate].
        * exists (code c =? 69), sg2. auto.
      + inversion H; subst. exists None. cbn [app]. repeat split; auto.
        cbn. apply andb_false_iff in X. destruct X as [X|X]; [exact X|]. rewrite length_nil in X.
        match type of X with negb (negb (nilb ?l)) = _ => idtac | negb (nilb ?l) = _ => destruct l; [contradiction|discriminate] end. }
  destruct Hout as (e0 & -> & -> & <- & Hs3 & N5 & He0 & Hexx).
  exists (mkNumeral sg (map dval ip) f e0). unfold numeral_text, proper, frac_digits. cbn [nm_sign nm_int nm_frac nm_exp].
  assert (Ff : match f with Some d => d | None => [] end = map dval fp) by (destruct f; subst; auto).
  rewrite Ff. rewrite text_dval by exact Di.
  split; [rewrite Hs3; rewrite <- !app_assoc; reflexivity|].
  split; [|split; [|split; [reflexivity|split; [reflexivity|split; [reflexivity|split; [exact Di|split; [exact Df|exact Hexx]]]]]]].
  - split; [apply dval_small, Di|]. split; [apply dval_small, Df|]. split.
    + rewrite <- map_app. intros X. apply map_eq_nil in X. contradiction.
    + destruct ex as [[b ed]|].
      * destruct Hexx as (De & u & sg' & -> & _). split; [|apply dval_small, De]. intros X. apply map_eq_nil in X. subst. apply (Hex b). reflexivity.
      * subst e0. constructor.
  - apply nohead_ends; cbn [nm_exp nm_frac]; [exact N5| |].
    + intros X. apply He0, X.
    + intros X Y. destruct (He0 X) as [_ <-]. auto.
Qed.

(** ** Conversion *)
Lemma nearest_frac_ok : forall (neg : bool) (num den : positive),
  let v := ((if neg then -1 else 1) * IZR (Zpos num) / IZR (Zpos den))%R in
  if Rlt_bool (Rabs (nearest64 v)) (bpow radix2 1024)
  then is_finite (nearest_frac neg num den) = true /\ B2R (nearest_frac neg num den) = nearest64 v /\
       Bsign (nearest_frac neg num den) = neg
  else nearest_frac neg num den = B754_infinity neg.
Proof.
  intros neg num den v. unfold nearest_frac.
  generalize (proj1 (Bdiv_correct_aux 53 1024 _ _ mode_NE neg num 0 false den 0)).
  pose proof (proj2 (Bdiv_correct_aux 53 1024 prec53 emax1024 mode_NE neg num 0 false den 0)) as C. intros V.
  assert (E : (F2R (Float radix2 (cond_Zopp neg (Zpos num)) 0) / F2R (Float radix2 (cond_Zopp false (Zpos den)) 0))%R = v).
  { unfold v, F2R. cbn [Fnum Fexp cond_Zopp bpow]. unfold Rdiv. destruct neg; cbn [cond_Zopp]; rewrite ?opp_IZR, !Rmult_1_r; ring. }
  cbn zeta in C. rewrite E in C. revert V C. rewrite xorb_false_r. intros V C.
  change (round radix2 (SpecFloat.fexp 53 1024) (round_mode mode_NE) v) with (nearest64 v) in C.
  destruct (Rlt_bool (Rabs (nearest64 v)) (bpow radix2 1024)).
  - destruct C as (C1 & C2 & C3). rewrite is_finite_SF2B, B2R_SF2B, Bsign_SF2B. split; [exact C2|]. split; [exact C1|exact C3].
  - apply B2SF_inj. rewrite B2SF_SF2B. exact C.
Qed.
Lemma pow10_pos : forall k, (0 < powerRZ 10 k)%R.
Proof. intros k. apply powerRZ_lt. lra. Qed.
Lemma pow10_Z : forall k, 0 <= k -> powerRZ 10 k = IZR (10 ^ k).
Proof.
  intros k Hk. rewrite <- (Z2Nat.id k) by exact Hk. rewrite <- pow_powerRZ, pow_IZR. reflexivity.
Qed.
Lemma pow10_neg : forall k, k <= 0 -> powerRZ 10 k = (/ IZR (10 ^ (- k)))%R.
Proof.
  intros k Hk. replace k with (- (- k)) at 1 by lia. rewrite powerRZ_neg' by lra. rewrite pow10_Z by lia. reflexivity.
Qed.
Definition dec_value (neg : bool) (n k : Z) : R := ((if neg then -1 else 1) * IZR n * powerRZ 10 k)%R.
Lemma nearest0 : nearest64 0 = 0%R.
Proof. apply round_0, valid_rnd_N. Qed.
Lemma decimal_ok : forall neg n k, 0 <= n ->
  if Rlt_bool (Rabs (nearest64 (dec_value neg n k))) (bpow radix2 1024)
  then is_finite (decimal neg n k) = true /\ B2R (decimal neg n k) = nearest64 (dec_value neg n k) /\
       Bsign (decimal neg n k) = neg
  else decimal neg n k = B754_infinity neg.
Proof.
  intros neg n k Hn. unfold decimal. destruct n as [|m|m]; [|clear Hn|lia].
  - assert (V : dec_value neg 0 k = 0%R) by (unfold dec_value; ring). rewrite V, nearest0, Rabs_R0.
    rewrite Rlt_bool_true by apply bpow_gt_0. repeat split.
  - destruct (Z.leb_spec 0 k) as [Hk|Hk].
    + assert (P : 0 < Zpos m * 10 ^ k) by (apply Z.mul_pos_pos; [lia|apply Z.pow_pos_nonneg; lia]).
      pose proof (nearest_frac_ok neg (Z.to_pos (Zpos m * 10 ^ k)) 1) as N. cbn zeta in N.
      rewrite Z2Pos.id in N by exact P.
      replace ((if neg then -1 else 1) * IZR (Zpos m * 10 ^ k) / 1)%R with (dec_value neg (Zpos m) k) in N; [exact N|].
      unfold dec_value. rewrite pow10_Z by exact Hk. rewrite mult_IZR. field.
    + pose proof (nearest_frac_ok neg m (Z.to_pos (10 ^ (- k)))) as N. cbn zeta in N.
      rewrite Z2Pos.id in N by (apply Z.pow_pos_nonneg; lia).
      replace ((if neg then -1 else 1) * IZR (Zpos m) / IZR (10 ^ (- k)))%R with (dec_value neg (Zpos m) k) in N; [exact N|].
      unfold dec_value. rewrite pow10_neg by lia. reflexivity.
Qed.
Lemma digits_nat_nonneg : forall ds a, 0 <= a -> 0 <= digits_nat a ds.
Proof. induction ds as [|d ds IHds]; intros a H; cbn [digits_nat]; [exact H|]. apply IHds. lia. Qed.
Lemma numeral_dec : forall n, numeral_value n =
  dec_value (is_minus (nm_sign n)) (digits_nat 0 (nm_int n ++ frac_digits n)) (exponent n - Z.of_nat (length (frac_digits n))).
Proof. reflexivity. Qed.
(** The conversion of the scanned parts of a numeral. *)
Definition conv_result (n : numeral) : f64 :=
  decimal (is_minus (nm_sign n)) (digits_nat 0 (nm_int n ++ frac_digits n)) (exponent n - Z.of_nat (length (frac_digits n))).
Lemma convert_numeral : forall n, proper n ->
  convert (is_minus (nm_sign n)) (digits_text (nm_int n)) (digits_text (frac_digits n)) (scan_exp n) =
  match conv_result n with B754_infinity s => (f64_max s, false) | v => (v, true) end.
Proof.
  intros n (P1 & P2 & P3 & P4). unfold convert, conv_result, scan_exp, exponent.
  cbv zeta.
  assert (A : digits_text (nm_int n) ++ digits_text (frac_digits n) = digits_text (nm_int n ++ frac_digits n))
    by (unfold digits_text; rewrite <- map_app; reflexivity).
  rewrite A, length_nil, dv_text by (apply Forall_app; split; assumption).
  assert (L : nilb (digits_text (nm_int n ++ frac_digits n)) = false).
  { destruct (nm_int n ++ frac_digits n); [contradiction|reflexivity]. }
  rewrite L. cbn [orb].
  replace (length (digits_text (frac_digits n))) with (length (frac_digits n)) by (unfold digits_text; rewrite map_length; reflexivity).
  destruct (nm_exp n) as [[[u s] ds]|].
  - destruct P4 as [P4 P5]. rewrite dv_text by exact P5. destruct ds as [|d ds]; [contradiction|]. cbn [digits_text map].
    destruct (is_minus s); reflexivity.
  - reflexivity.
Qed.

(** ** One number from a stream *)
Lemma skip_app : forall b s, Forall white b -> nohead is_space s -> skip_space (b ++ s) = s.
Proof.
  intros b s H N. induction H as [|c b Hc H IH]; cbn [app skip_space].
  - destruct s as [|c s]; [reflexivity|]. cbn in N |- *. rewrite N. reflexivity.
  - apply space_white in Hc. rewrite Hc. exact IH.
Qed.
Lemma skip_spec : forall s, exists b, s = b ++ skip_space s /\ Forall white b /\ nohead is_space (skip_space s).
Proof.
  induction s as [|c s (b & A & B & C)]; cbn [skip_space].
  - exists []. repeat split; constructor.
  - destruct (is_space c) eqn:E.
    + exists (c :: b). cbn. rewrite <- A. repeat split; auto. constructor; auto. apply space_white, E.
    + exists []. repeat split; auto.
Qed.
Lemma digit_nospace : forall c, is_digit c = true -> is_space c = false.
Proof. intros c H. unfold is_digit, is_space in *. lia. Qed.
Lemma numeral_head : forall n rest, proper n -> nohead is_space (numeral_text n ++ rest) /\ numeral_text n <> [].
Proof.
  intros [sg ip fp ex] rest (P1 & P2 & P3 & P4). unfold numeral_text, frac_digits in *. cbn [nm_sign nm_int nm_frac nm_exp] in *.
  destruct sg as [[|]|]; cbn [sign_chars app]; try (split; [reflexivity|discriminate]).
  split.
  - rewrite <- app_assoc. apply digits_nohead; [exact P1|exact digit_nospace|]. intros ->.
    destruct fp; [reflexivity|exfalso; apply P3; reflexivity].
  - destruct ip; [|discriminate]. destruct fp; [discriminate|exfalso; apply P3; reflexivity].
Qed.
Lemma convert_reads : forall n, proper n -> forall x,
  (is_finite x = true /\ B2R x = nearest64 (numeral_value n) /\ Bsign x = is_minus (nm_sign n) /\
   (Rabs (nearest64 (numeral_value n)) < bpow radix2 1024)%R) <->
  convert (is_minus (nm_sign n)) (digits_text (nm_int n)) (digits_text (frac_digits n)) (scan_exp n) = (x, true).
Proof.
  intros n P x. rewrite convert_numeral by exact P. rewrite numeral_dec.
  pose proof (decimal_ok (is_minus (nm_sign n)) (digits_nat 0 (nm_int n ++ frac_digits n))
    (exponent n - Z.of_nat (length (frac_digits n))) (digits_nat_nonneg _ _ (Z.le_refl 0))) as D.
  fold (conv_result n) in D. set (w := nearest64 _) in *.
  destruct (Rlt_bool_spec (Rabs w) (bpow radix2 1024)) as [L|L].
  - destruct D as (D1 & D2 & D3). split.
    + intros (X1 & X2 & X3 & _). assert (E : x = conv_result n).
      { apply B2R_Bsign_inj; auto; congruence. }
      subst x. destruct (conv_result n); try discriminate; reflexivity.
    + intros X. assert (E : x = conv_result n) by (destruct (conv_result n); inversion X; reflexivity).
      subst x. auto.
  - rewrite D. split; [intros (_ & _ & _ & X); exfalso; lra|discriminate].
Qed.
Lemma get_reads : forall s x rest c, reads s x rest ->
  get_num (mkIs s false false) c = (Some x, mkIs rest (nilb rest) false).
Proof.
  intros s x rest c (b & n & -> & Hb & P & E & H). unfold get_num. cbn [is_eof is_fail is_text orb].
  destruct (numeral_head n rest P) as [Nh Nn]. rewrite skip_app by auto.
  destruct (numeral_text n ++ rest) as [|a t] eqn:X; [exfalso; apply Nn; destruct (numeral_text n); [reflexivity|discriminate]|].
  rewrite <- X, scan_numeral by auto. apply (convert_reads n P) in H. rewrite H. destruct rest; reflexivity.
Qed.
Lemma get_sound : forall s c c' i', get_num (mkIs s false false) c = (c', i') -> is_fail i' = false ->
  exists x, c' = Some x /\ reads s x (is_text i') /\ is_eof i' = nilb (is_text i').
Proof.
  intros s c c' i' H F. unfold get_num in H. cbn [is_eof is_fail is_text orb] in H.
  destruct (skip_spec s) as (b & Hs & Hb & Nh). destruct (skip_space s) as [|a t] eqn:K; [inversion H; subst; discriminate|].
  rewrite <- K in H, Hs. destruct (scan (skip_space s)) as [[[[neg ip] fp] ex] rest] eqn:S.
  destruct (convert neg ip fp ex) as [v ok] eqn:C. inversion H; subst c' i'. clear H. cbn [is_fail is_text is_eof] in *.
  destruct ok; [|discriminate]. clear F.
  assert (Pre : ip ++ fp <> [] /\ forall e, ex <> Some (e, [])).
  { unfold convert in C. rewrite length_nil in C. split.
    - intros X. rewrite X in C. discriminate.
    - intros e X. rewrite X, orb_true_r in C. discriminate. }
  destruct Pre as [Pre1 Pre2].
  destruct (scan_sound _ _ _ _ _ _ S Pre1 Pre2) as (n & Hn & P & E & Sg & In & Fr & Di & Df & Ex).
  exists v. split; [reflexivity|]. split; [|destruct rest; reflexivity].
  exists b, n. split; [rewrite <- Hn; exact Hs|]. split; [exact Hb|]. split; [exact P|]. split; [exact E|].
  apply (convert_reads n P). rewrite Sg, In, Fr. rewrite !text_dval by assumption.
  replace (scan_exp n) with ex; [exact C|]. unfold scan_exp. destruct ex as [[b0 ed]|]; [|rewrite Ex; reflexivity].
  destruct Ex as (De & u & sg & -> & Hsg). rewrite text_dval by exact De. rewrite Hsg. reflexivity.
Qed.
