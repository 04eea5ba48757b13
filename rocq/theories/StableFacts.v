(** * Writing what was read back: proofs. *)

Require Import Reals ZArith List Bool Ascii Lra Lia.
From Flocq Require Import Core BinarySingleNaN Relative.
Require Import Verif.Num Verif.Types Verif.B64 Verif.B64Facts Verif.Validity Verif.SpecValid Verif.ValidFacts Verif.Stream Verif.Io
  Verif.SpecCompare Verif.SpecRound Verif.SpecText Verif.SpecIo Verif.TextFacts Verif.ParseFacts Verif.NumText Verif.InFacts Verif.OutFacts
  Verif.RoundTrip Verif.IntFacts Verif.SpecStable.
Import ListNotations.
Local Open Scope R_scope.

Local Instance prec53gt' : Prec_gt_0 53.
Proof. reflexivity. Qed.

(** ** Decimals *)
Lemma even_half : forall u, Rabs (u - IZR (ZnearestE u)) = / 2 -> Z.even (ZnearestE u) = true.
Proof.
  intros u H. unfold Znearest in *. destruct (Rcompare_spec (u - IZR (Zfloor u)) (/ 2)) as [C|C|C].
  - rewrite Rabs_pos_eq in H by (pose proof (Zfloor_lb u); lra). lra.
  - destruct (Z.even (Zfloor u)) eqn:E; cbn [negb] in *; [exact E|]. rewrite Zceil_floor_neq.
    + rewrite Z.add_1_r, Z.even_succ, <- Z.negb_even, E. reflexivity.
    + intros X. rewrite X in C. replace (u - u) with 0 in C by ring. lra.
  - assert (N : IZR (Zfloor u) <> u) by (intros X; rewrite X in C; replace (u - u) with 0 in C by ring; lra).
    rewrite Zceil_floor_neq in * by exact N. rewrite plus_IZR in H. pose proof (Zfloor_ub u).
    rewrite Rabs_left in H by lra. lra.
Qed.
Lemma half_even : forall w N, Z.even N = true -> Rabs (w - IZR N) = / 2 -> ZnearestE w = N.
Proof.
  intros w N E H. unfold Rabs in H. destruct (Rcase_abs (w - IZR N)) as [C|C].
  - assert (F : Zfloor w = (N - 1)%Z) by (apply Zfloor_imp; rewrite plus_IZR, !minus_IZR; lra).
    unfold Znearest. rewrite F, minus_IZR. rewrite Rcompare_Eq by lra.
    replace (Z.even (N - 1)) with false by (rewrite Z.sub_1_r, Z.even_pred, <- Z.negb_even, E; reflexivity). cbn [negb].
    apply Zceil_imp. rewrite minus_IZR. lra.
  - assert (F : Zfloor w = N) by (apply Zfloor_imp; rewrite plus_IZR; lra).
    unfold Znearest. rewrite F. rewrite Rcompare_Eq by lra. rewrite E. reflexivity.
Qed.
(** What is no further from the rounded value rounds to the same. *)
Lemma round_again : forall u w, Rabs (w - IZR (ZnearestE u)) <= Rabs (u - IZR (ZnearestE u)) -> ZnearestE w = ZnearestE u.
Proof.
  intros u w H. pose proof (Znearest_half (fun x => negb (Z.even x)) u) as Hu.
  destruct (Rle_lt_or_eq_dec _ _ Hu) as [L|L].
  - apply Znearest_imp. lra.
  - destruct (Rle_lt_or_eq_dec _ _ H) as [K|K]; [apply Znearest_imp; lra|].
    apply half_even; [apply even_half, L|]. rewrite K. exact L.
Qed.
Lemma decimal_again : forall k r w, Rabs (w - nearest_decimal k r) <= Rabs (r - nearest_decimal k r) ->
  nearest_decimal k w = nearest_decimal k r.
Proof.
  intros k r w H. unfold nearest_decimal in *. f_equal. f_equal. apply round_again. pose proof (pow10_pos k) as P.
  rewrite pow10_opp in H. set (q := powerRZ 10 k) in *. set (N := IZR (ZnearestE (r * q))) in *.
  replace (w * q - N) with ((w - N * / q) * q) by (field; lra). replace (r * q - N) with ((r - N * / q) * q) by (field; lra).
  rewrite !Rabs_mult. apply Rmult_le_compat_r; [apply Rabs_pos|exact H].
Qed.
Lemma nearest_closest : forall (x : f64) d, Rabs (nearest64 d - d) <= Rabs (B2R x - d).
Proof.
  intros x d. rewrite nearest64_FLT. apply (round_N_pt radix2 fexp64 (fun x => negb (Z.even x)) d). apply format_f64.
Qed.
Lemma fixed_again : forall (x : f64) k, nearest_decimal k (nearest64 (nearest_decimal k (B2R x))) = nearest_decimal k (B2R x).
Proof. intros x k. apply decimal_again, nearest_closest. Qed.

Definition u53 : R := bpow radix2 (-53).
Lemma u53_val : u53 = / 9007199254740992.
Proof. unfold u53. cbn. lra. Qed.
Lemma nearest_rel : forall d, bpow radix2 (-1022) <= Rabs d -> Rabs (nearest64 d - d) <= u53 * Rabs d.
Proof.
  intros d H. rewrite nearest64_FLT.
  eapply Rle_trans; [apply (relative_error_N_FLT radix2 (-1074) 53 ltac:(reflexivity) (fun x => negb (Z.even x)) d); exact H|].
  apply Rmult_le_compat_r; [apply Rabs_pos|]. unfold u53. rewrite <- (Rmult_1_l (bpow radix2 (-53))) at 1.
  cbn. lra.
Qed.
(** A decimal close to an integer multiple of the unit. *)
Lemma decimal_close : forall k d w M, d * powerRZ 10 k = IZR M -> IZR M * u53 < / 2 -> 0 < d -> Rabs (w - d) <= u53 * d ->
  nearest_decimal k w = d.
Proof.
  intros k d w M E B Hd H. unfold nearest_decimal. pose proof (pow10_pos k) as P. replace (ZnearestE (w * powerRZ 10 k)) with M.
  - rewrite <- E, pow10_opp. field. lra.
  - symmetry. apply Znearest_imp. rewrite <- E. rewrite <- Rmult_minus_distr_r, Rabs_mult, (Rabs_pos_eq (powerRZ 10 k)) by lra.
    eapply Rle_lt_trans; [apply Rmult_le_compat_r; [lra|exact H]|]. rewrite Rmult_assoc, E. lra.
Qed.
Lemma pow10_lt_inv : forall a b, powerRZ 10 a < powerRZ 10 b -> (a < b)%Z.
Proof.
  intros a b H. destruct (Z_lt_le_dec a b) as [L|L]; [exact L|]. pose proof (pow10_le b a L). lra.
Qed.
Lemma pow10_1 : powerRZ 10 1 = 10.
Proof. apply powerRZ_1. Qed.
Lemma pow10_m1 : powerRZ 10 (-1) = / 10.
Proof. rewrite pow10_neg by lia. reflexivity. Qed.
Lemma sci_again : forall p e e2 x v, (0 <= p <= 14)%Z -> powerRZ 10 e <= x < powerRZ 10 (e + 1) ->
  powerRZ 10 e2 <= v < powerRZ 10 (e2 + 1) ->
  Rabs (v - nearest_decimal (p - e) x) <= u53 * nearest_decimal (p - e) x ->
  nearest_decimal (p - e2) v = nearest_decimal (p - e) x.
Proof.
  intros p e e2 x v Hp Hx Hv H. pose proof u53_val as U.
  assert (Pe := pow10_pos e). assert (Pp : 1 <= powerRZ 10 p <= 100000000000000).
  { split; [change 1 with (powerRZ 10 0); apply pow10_le; lia|]. replace 100000000000000 with (powerRZ 10 14) by (rewrite pow10_Z by lia; reflexivity). apply pow10_le. lia. }
  assert (Pk := pow10_pos (p - e)). assert (Ek : powerRZ 10 (p - e) = powerRZ 10 p * / powerRZ 10 e) by (unfold Zminus; rewrite pow10_add, pow10_opp; reflexivity).
  remember (nearest_decimal (p - e) x) as d eqn:D. unfold nearest_decimal in D. set (N := ZnearestE (x * powerRZ 10 (p - e))) in *.
  assert (DN : d * powerRZ 10 (p - e) = IZR N) by (rewrite D, pow10_opp; field; lra).
  assert (Bx : powerRZ 10 p <= x * powerRZ 10 (p - e) < 10 * powerRZ 10 p).
  { rewrite Ek. rewrite pow10_add, pow10_1 in Hx. replace (x * (powerRZ 10 p * / powerRZ 10 e)) with (powerRZ 10 p * (x * / powerRZ 10 e)) by ring.
    assert (1 <= x * / powerRZ 10 e < 10).
    { split; [apply Rmult_le_reg_r with (powerRZ 10 e)|apply Rmult_lt_reg_r with (powerRZ 10 e)]; try lra;
      replace (x * / powerRZ 10 e * powerRZ 10 e) with x by (field; lra); lra. }
    split; nra. }
  assert (BN : (10 ^ p <= N <= 10 ^ (p + 1))%Z).
  { assert (I1 : powerRZ 10 p = IZR (10 ^ p)) by (apply pow10_Z; lia).
    assert (I2 : 10 * powerRZ 10 p = IZR (10 ^ (p + 1))) by (rewrite Z.pow_add_r, mult_IZR, I1 by lia; change (10 ^ 1)%Z with 10%Z; ring).
    rewrite I1 in Bx. rewrite <- I1 in Bx at 2. rewrite I2 in Bx. split.
    - replace (10 ^ p)%Z with (ZnearestE (IZR (10 ^ p))) by (apply Znearest_imp; rewrite Rminus_diag_eq, Rabs_R0; [lra|reflexivity]).
      apply (@Zrnd_le ZnearestE (valid_rnd_N _)). apply Bx.
    - replace (10 ^ (p + 1))%Z with (ZnearestE (IZR (10 ^ (p + 1)))) by (apply Znearest_imp; rewrite Rminus_diag_eq, Rabs_R0; [lra|reflexivity]).
      apply (@Zrnd_le ZnearestE (valid_rnd_N _)). lra. }
  assert (RN : powerRZ 10 p <= IZR N <= 10 * powerRZ 10 p).
  { rewrite (pow10_Z p) by lia. rewrite <- mult_IZR. split; apply IZR_le; [lia|]. rewrite Z.pow_add_r in BN by lia. lia. }
  assert (Hd : 0 < d) by (rewrite D, pow10_opp; apply Rmult_lt_0_compat; [lra|apply Rinv_0_lt_compat, Pk]).
  (* values relative to 10^e *)
  assert (Vd : IZR N = powerRZ 10 p * (d * / powerRZ 10 e)) by (rewrite <- DN, Ek; ring).
  apply Rabs_le_inv in H.
  assert (d1 : powerRZ 10 e <= d <= 10 * powerRZ 10 e).
  { assert (1 <= d * / powerRZ 10 e <= 10) by (split; nra).
    replace d with (d * / powerRZ 10 e * powerRZ 10 e) by (field; lra). split; nra. }
  assert (C : e2 = e \/ e2 = (e - 1)%Z \/ e2 = (e + 1)%Z).
  { assert (e2 < e + 2)%Z.
    { apply pow10_lt_inv. rewrite pow10_add. replace (powerRZ 10 2) with 100 by (rewrite pow10_Z by lia; reflexivity). nra. }
    assert (e - 1 < e2 + 1)%Z.
    { apply pow10_lt_inv. replace (e - 1)%Z with (e + -1)%Z by lia. rewrite pow10_add, pow10_m1. 
      apply Rle_lt_trans with v; [|lra]. rewrite U in H. nra. }
    lia. }
  assert (Hv2 : Rabs (v - d) <= u53 * d) by (apply Rabs_le; lra).
  destruct C as [->|[->| ->]].
  - apply (decimal_close _ _ _ N); auto. rewrite U. lra.
  - apply (decimal_close _ _ _ (10 * N)); auto.
    + rewrite mult_IZR, <- DN. replace (p - (e - 1))%Z with (1 + (p - e))%Z by lia. rewrite pow10_add, pow10_1. ring.
    + replace (e - 1 + 1)%Z with e in Hv by lia. rewrite mult_IZR, Vd, U. rewrite U in H.
      assert (d * / powerRZ 10 e <= 2).
      { apply Rmult_le_reg_r with (powerRZ 10 e); [lra|]. replace (d * / powerRZ 10 e * powerRZ 10 e) with d by (field; lra). lra. }
      nra.
  - assert (EN : N = (10 * 10 ^ p)%Z).
    { rewrite Z.pow_add_r in BN by lia. destruct (Z.eq_dec N (10 * 10 ^ p)) as [E|E]; [exact E|exfalso].
      assert (X : IZR N <= 10 * powerRZ 10 p - 1) by (rewrite pow10_Z, <- mult_IZR, <- minus_IZR by lia; apply IZR_le; lia).
      rewrite pow10_add, pow10_1 in Hv. rewrite U in H.
      assert (10 <= d * / powerRZ 10 e * (1 + / 9007199254740992)).
      { apply Rmult_le_reg_r with (powerRZ 10 e); [lra|].
        replace (d * / powerRZ 10 e * (1 + / 9007199254740992) * powerRZ 10 e) with (d * (1 + / 9007199254740992)) by (field; lra). lra. }
      nra. }
    apply (decimal_close _ _ _ (10 ^ p)); auto.
    + replace (p - (e + 1))%Z with (-1 + (p - e))%Z by lia. rewrite pow10_add. rewrite pow10_m1.
      rewrite Rmult_comm, Rmult_assoc, (Rmult_comm (powerRZ 10 (p - e))), DN, EN, mult_IZR. field.
    + rewrite <- pow10_Z by lia. rewrite U. lra.
Qed.

(** ** Texts of numbers *)
Definition prec_nat (prec : Z) : nat := Z.to_nat (if (prec <? 0)%Z then 6 else prec).
Definition fcore (p : nat) (n : Z) : text := dec (n / 10 ^ Z.of_nat p) ++ point p (n mod 10 ^ Z.of_nat p).
Definition score (p : nat) (n e : Z) : text := dec (n / 10 ^ Z.of_nat p) ++ point p (n mod 10 ^ Z.of_nat p) ++ exp_text e.
Lemma abs_frac : forall s m e H, Rabs (B2R (B754_finite s m e H : f64)) = IZR (frac_num m e) / IZR (frac_den e).
Proof.
  intros s m e H. rewrite frac_value. assert (0 < IZR (frac_num m e) / IZR (frac_den e)).
  { apply Rdiv_lt_0_compat; apply IZR_lt; [apply frac_num_pos|apply frac_den_pos]. }
  destruct s; [rewrite Rabs_left|rewrite Rabs_pos_eq]; lra.
Qed.
Lemma fixed_shape : forall nn prec (x : f64), is_finite x = true ->
  num_text nn fixed_nt prec x = sign_text (Bsign x) ++ fcore (prec_nat prec) (ZnearestE (Rabs (B2R x) * powerRZ 10 (Z.of_nat (prec_nat prec)))).
Proof.
  intros nn prec x F. destruct x as [s|s| |s m e H]; try discriminate; unfold num_text; fold (prec_nat prec); cbn [Bsign magnitude_text];
    unfold fixed_text; fold (fcore (prec_nat prec)); set (p := prec_nat prec); f_equal; unfold fcore.
  - cbn [B2R]. rewrite Rabs_R0, Rmult_0_l. rewrite div_even_ok by lia.
    replace (IZR (0 * 10 ^ Z.of_nat p) / IZR 1) with 0 by (rewrite Z.mul_0_l; lra). reflexivity.
  - rewrite div_even_ok by apply frac_den_pos. rewrite abs_frac.
    assert (0 < IZR (frac_den e)) by (apply IZR_lt, frac_den_pos).
    replace (IZR (frac_num m e * 10 ^ Z.of_nat p) / IZR (frac_den e)) with (IZR (frac_num m e) / IZR (frac_den e) * powerRZ 10 (Z.of_nat p)); [reflexivity|].
    rewrite mult_IZR, pow10_Z by lia. field. lra.
Qed.
Lemma signed : forall x : f64, is_finite x = true -> B2R x = (if Bsign x then -1 else 1) * Rabs (B2R x).
Proof.
  intros x F. destruct x as [s|s| |s m e H]; try discriminate.
  - cbn. rewrite Rabs_R0. ring.
  - rewrite abs_frac, frac_value. reflexivity.
Qed.
Lemma decimal_abs : forall k (x : f64), is_finite x = true ->
  nearest_decimal k (Rabs (B2R x)) = (if Bsign x then -1 else 1) * nearest_decimal k (B2R x).
Proof.
  intros k x F. rewrite (signed x F) at 2. destruct (Bsign x).
  - replace (-1 * Rabs (B2R x)) with (- Rabs (B2R x)) by ring. rewrite nearest_decimal_opp. ring.
  - rewrite !Rmult_1_l. reflexivity.
Qed.
Lemma decimal_int : forall k r r', nearest_decimal k r = nearest_decimal k r' -> ZnearestE (r * powerRZ 10 k) = ZnearestE (r' * powerRZ 10 k).
Proof.
  intros k r r' H. unfold nearest_decimal in H. apply eq_IZR. apply Rmult_eq_reg_r in H; [exact H|].
  pose proof (pow10_pos (- k)). lra.
Qed.
Lemma fixed_same : forall nn prec (x v : f64), is_finite x = true -> is_finite v = true -> Bsign v = Bsign x ->
  B2R v = nearest64 (nearest_decimal (Z.of_nat (prec_nat prec)) (B2R x)) ->
  num_text nn fixed_nt prec v = num_text nn fixed_nt prec x.
Proof.
  intros nn prec x v Fx Fv S V. rewrite !fixed_shape, S by assumption. do 2 f_equal. apply decimal_int.
  rewrite !decimal_abs, S by assumption. f_equal. rewrite V. apply fixed_again.
Qed.

Lemma pow10_range : forall a b r, powerRZ 10 a <= r < powerRZ 10 (a + 1) -> powerRZ 10 b <= r < powerRZ 10 (b + 1) -> a = b.
Proof.
  intros a b r A B. assert (a < b + 1)%Z by (apply pow10_lt_inv; lra). assert (b < a + 1)%Z by (apply pow10_lt_inv; lra). lia.
Qed.
Lemma sci_shape : forall nn prec (x : f64), is_finite x = true -> B2R x <> 0 -> exists n e,
  num_text nn scientific prec x = sign_text (Bsign x) ++ score (prec_nat prec) n e /\
  (10 ^ Z.of_nat (prec_nat prec) <= n < 10 ^ (Z.of_nat (prec_nat prec) + 1))%Z /\
  exists e', powerRZ 10 e' <= Rabs (B2R x) < powerRZ 10 (e' + 1) /\
    IZR n * powerRZ 10 (e - Z.of_nat (prec_nat prec)) = nearest_decimal (Z.of_nat (prec_nat prec) - e') (Rabs (B2R x)).
Proof.
  intros nn prec x F Z. destruct x as [s|s| |s m e H]; try discriminate; [contradiction Z; reflexivity|].
  unfold num_text; fold (prec_nat prec); cbn [Bsign magnitude_text]. rewrite abs_frac. unfold sci_text. set (p := prec_nat prec).
  pose proof (sci_ok p (frac_num m e) (frac_den e) (frac_num_pos m e) (frac_den_pos e)) as K.
  destruct (sci_parts p (frac_num m e) (frac_den e)) as [n ex]. exists n, ex. split; [reflexivity|]. exact K.
Qed.
Lemma sci_decade : forall p n e, (0 <= p)%Z -> (10 ^ p <= n < 10 ^ (p + 1))%Z ->
  powerRZ 10 e <= IZR n * powerRZ 10 (e - p) < powerRZ 10 (e + 1).
Proof.
  intros p n e Hp [A B]. apply IZR_le in A. apply IZR_lt in B. rewrite <- pow10_Z in A, B by lia.
  pose proof (pow10_pos (e - p)) as P. split.
  - replace e with (p + (e - p))%Z at 1 by lia. rewrite pow10_add. apply Rmult_le_compat_r; lra.
  - replace (e + 1)%Z with ((p + 1) + (e - p))%Z by lia. rewrite pow10_add. apply Rmult_lt_compat_r; lra.
Qed.
Lemma sci_unique : forall p n e n2 e2, (0 <= p)%Z -> (10 ^ p <= n < 10 ^ (p + 1))%Z -> (10 ^ p <= n2 < 10 ^ (p + 1))%Z ->
  IZR n * powerRZ 10 (e - p) = IZR n2 * powerRZ 10 (e2 - p) -> n = n2 /\ e = e2.
Proof.
  intros p n e n2 e2 Hp A B E. pose proof (sci_decade p n e Hp A) as X. pose proof (sci_decade p n2 e2 Hp B) as Y. rewrite <- E in Y.
  assert (e = e2) by (eapply pow10_range; eassumption). subst e2. split; [|reflexivity]. apply eq_IZR.
  apply Rmult_eq_reg_r in E; [exact E|]. pose proof (pow10_pos (e - p)). lra.
Qed.
Lemma sci_same : forall nn prec (x v : f64), (prec_nat prec <= 14)%nat -> moderate x -> is_finite v = true -> Bsign v = Bsign x ->
  (B2R x = 0 -> B2R v = 0) ->
  (B2R x <> 0 -> exists e, powerRZ 10 e <= Rabs (B2R x) < powerRZ 10 (e + 1) /\
     B2R v = nearest64 (nearest_decimal (Z.of_nat (prec_nat prec) - e) (B2R x))) ->
  num_text nn scientific prec v = num_text nn scientific prec x.
Proof.
  intros nn prec x v Hp M Fv S Z0 NZ. destruct (Req_dec (B2R x) 0) as [X|X].
  - destruct M as [Fx _]. specialize (Z0 X). assert (Q : forall y : f64, is_finite y = true -> B2R y = 0 -> exists s, y = B754_zero s).
    { intros [s|s| |s m e H] F R; try discriminate; [exists s; reflexivity|]. exfalso.
      apply (F2R_neq_0 radix2 (Float radix2 (cond_Zopp s (Zpos m)) e)); [destruct s; discriminate|exact R]. }
    destruct (Q x Fx X) as [s ->]. destruct (Q v Fv Z0) as [s' ->]. cbn [Bsign] in S. subst s'. reflexivity.
  - destruct (NZ X) as (e & E & V). destruct M as [Fx [M|[M _]]]; [contradiction|]. set (p := prec_nat prec) in *.
    assert (PX : 0 < Rabs (B2R x)) by (apply Rabs_pos_lt, X).
    set (d := nearest_decimal (Z.of_nat p - e) (Rabs (B2R x))).
    assert (Dd : Rabs (d - Rabs (B2R x)) <= / 2 * Rabs (B2R x)).
    { eapply Rle_trans; [apply nearest_decimal_err|]. apply Rmult_le_compat_l; [lra|]. eapply Rle_trans; [|apply E]. apply pow10_le. lia. }
    apply Rabs_le_inv in Dd.
    assert (Md : bpow radix2 (-1022) <= Rabs d).
    { rewrite Rabs_pos_eq by lra. change (bpow radix2 (-1021)) with (bpow radix2 (1 + -1022)) in M. rewrite bpow_plus in M. change (bpow radix2 1) with 2 in M. lra. }
    assert (VA : Rabs (B2R v) = nearest64 d).
    { assert (Vv : nearest64 d = (if Bsign x then -1 else 1) * B2R v).
      { unfold d. rewrite decimal_abs by exact Fx. rewrite V. destruct (Bsign x).
        - replace (-1 * nearest_decimal (Z.of_nat p - e) (B2R x)) with (- nearest_decimal (Z.of_nat p - e) (B2R x)) by ring.
          rewrite nearest64_opp. ring.
        - rewrite !Rmult_1_l. reflexivity. }
      rewrite Vv. rewrite (signed v Fv) at 2. rewrite S. destruct (Bsign x); ring. }
    assert (RV : Rabs (Rabs (B2R v) - d) <= u53 * d).
    { rewrite VA. eapply Rle_trans; [apply nearest_rel, Md|]. rewrite Rabs_pos_eq by lra. lra. }
    assert (PV : B2R v <> 0).
    { intros Y. rewrite Y, Rabs_R0 in RV. rewrite u53_val in RV. replace (0 - d) with (- d) in RV by ring. rewrite Rabs_Ropp, Rabs_pos_eq in RV by lra. lra. }
    destruct (sci_shape nn prec x Fx X) as (n & ex & -> & Bn & e1 & R1 & N1). destruct (sci_shape nn prec v Fv PV) as (n2 & ex2 & -> & Bn2 & e2 & R2 & N2).
    fold p in Bn, N1, Bn2, N2 |- *. assert (e1 = e) by (eapply pow10_range; eassumption). subst e1.
    rewrite (sci_again (Z.of_nat p) e e2 (Rabs (B2R x)) (Rabs (B2R v))) in N2; [|lia|exact E|exact R2|exact RV].
    destruct (sci_unique (Z.of_nat p) n ex n2 ex2) as [-> ->]; [lia|exact Bn|exact Bn2| |].
    + rewrite N1, N2. reflexivity.
    + rewrite S. reflexivity.
Qed.

(** ** Objects *)
Lemma map_same : forall {A B C} (P : A -> B -> Prop) (f : A -> C) (g : B -> C) l m, (forall a b, P a b -> g b = f a) -> Forall2 P l m ->
  map g m = map f l.
Proof. intros A B C P f g l m H F. induction F; cbn; [reflexivity|]. f_equal; auto. Qed.
Lemma fixed_words_back : forall nn t p prec x s rest, (p <= 307)%nat -> p = prec_nat prec -> words s = map (num_text nn fixed_nt prec) (elems t x) ->
  t <> TDub -> all_finite t x -> opens rest -> exists y r, words r = words rest /\
  Forall2 (fun u v => num_text nn fixed_nt prec v = num_text nn fixed_nt prec u) (elems t x) (elems t y) /\ all_valid t y /\ forall x0,
    extract t (mkIs (s ++ rest) false false) x0 = Some (mapv Some t y, mkIs r (nilb r) false).
Proof.
  intros nn t p prec x s rest Hp Ep W Ht V O.
  destruct (pick (fun u tok => tok = num_text nn fixed_nt prec u) token_reads
    (fun u v => valid_number v /\ num_text nn fixed_nt prec v = num_text nn fixed_nt prec u) (elems t x) (words s)) as (vs & V1 & V2).
  { intros u tok I ->. unfold all_finite in V. rewrite Forall_forall in V. specialize (V u I).
    destruct (fixed_near nn p u (num_text nn fixed_nt prec u) Hp V) as (v & A & B & C & D & E).
    - rewrite Ep. apply shows_fixed_ok.
    - exists v. split; [exact A|]. split; [exact B|]. apply fixed_same; auto; [apply B|]. rewrite <- Ep. exact E. }
  { rewrite W. clear. induction (elems t x); constructor; auto. }
  assert (VV : Forall valid_number vs) by (clear - V2; induction V2 as [|u v l k [A B] V2 IH]; constructor; auto).
  destruct (read_object t _ vs s rest Ht V1 eq_refl O VV) as (y & r & E & Wr & G).
  - rewrite <- (forall2_length _ _ _ V2). apply total_elems.
  - exists y, r. split; [exact Wr|]. unfold all_valid. rewrite E. split; [|split; [exact VV|exact G]].
    eapply forall2_impl; [|exact V2]. intros u v Huv. apply Huv.
Qed.
Lemma fixed_stable : forall nn t f, fixed nn t = Some f -> t <> TDub -> forall x b a rest, (0 <= a <= 307)%Z ->
  all_finite t x -> opens rest -> exists y r, words r = words rest /\ all_valid t y /\ f y b a = f x b a /\ forall x0,
    extract t (mkIs (f x b a ++ rest) false false) x0 = Some (mapv Some t y, mkIs r (nilb r) false).
Proof.
  intros nn t f H Ht x b a rest Ha V O.
  assert (P : Z.of_nat (prec_nat (to_int a)) = a) by (apply prec_small; lia).
  destruct (fixed_words_back nn t (prec_nat (to_int a)) (to_int a) x (f x b a) rest ltac:(lia) eq_refl) as (y & r & W & S & G1 & G2); auto.
  - rewrite (fixed_layout nn t f H). unfold gap.
    rewrite (words_layout0 _ _ t _ (ftok nn a)); [reflexivity|apply sp_white|repeat constructor|apply ffield_words].
  - exists y, r. split; [exact W|]. split; [exact G1|]. split; [|exact G2]. rewrite !(fixed_layout nn t f H). f_equal.
    apply (map_same (fun u v => num_text nn fixed_nt (to_int a) v = num_text nn fixed_nt (to_int a) u)); [|exact S].
    intros u v E. unfold ffield, ftok. rewrite E. reflexivity.
Qed.
Lemma insert_stable : forall nn t f, insert nn t = Some f -> t <> TDub -> forall x os rest, white (os_fill os) \/ (os_width os <= 0)%Z ->
  all_finite t x -> opens rest -> exists s y r, os_out (f x os) = os_out os ++ s /\ os_out (f y os) = os_out os ++ s /\
  words r = words rest /\ all_valid t y /\ forall x0,
    extract t (mkIs (s ++ rest) false false) x0 = Some (mapv Some t y, mkIs r (nilb r) false).
Proof.
  intros nn t f H Ht x os rest W V O. destruct (insert_toks nn t f H x os W) as (s & E & Ws).
  destruct (fixed_words_back nn t 6 6 x s rest ltac:(lia) eq_refl) as (y & r & Wr & S & G1 & G2); auto.
  exists s, y, r. split; [exact E|]. split; [|auto]. rewrite <- E, !(insert_layout nn t f H).
  replace (map (ffield nn 3 6) (elems t y)) with (map (ffield nn 3 6) (elems t x)); [reflexivity|].
  symmetry. apply (map_same (fun u v => num_text nn fixed_nt 6 v = num_text nn fixed_nt 6 u)); [|exact S].
  intros u v K. unfold ffield, ftok. change (to_int 6) with 6%Z. rewrite K. reflexivity.
Qed.
Lemma enote_stable : forall nn t f, enote nn t = Some f -> t <> TDub -> forall x a rest, (1 <= a < 2 ^ 31)%Z -> a <> 15%Z ->
  Forall moderate (elems t x) -> opens rest -> exists y r, words r = words rest /\ all_valid t y /\ f y a = f x a /\ forall x0,
    extract t (mkIs (f x a ++ rest) false false) x0 = Some (mapv Some t y, mkIs r (nilb r) false).
Proof.
  intros nn t f H Ht x a rest Ha N V O. destruct (Z_lt_le_dec a 15) as [L|L].
  - assert (P : Z.of_nat (prec_nat (to_int a)) = a) by (apply prec_small; lia).
    destruct (pick (fun u tok => tok = num_text nn scientific (to_int a) u) token_reads
      (fun u v => valid_number v /\ num_text nn scientific (to_int a) v = num_text nn scientific (to_int a) u) (elems t x) (words (f x a))) as (vs & V1 & V2).
    { intros u tok I ->. rewrite Forall_forall in V. specialize (V u I).
      destruct (sci_near nn (prec_nat (to_int a)) u (num_text nn scientific (to_int a) u)) as (v & A & B & C & D & E & F).
      - lia.
      - apply V.
      - apply moderate_le, V.
      - apply shows_sci_ok.
      - exists v. split; [exact A|]. split.
        + eapply near_valid; [exact V|exact B| |exact C]. apply tenth. lia.
        + apply sci_same; auto. lia. }
    { rewrite (enote_layout nn t f H). unfold gap.
      rewrite (words_layout1 _ _ _ _ t _ (stok nn a)); [|apply sp_white|constructor|apply sp_white|repeat constructor|apply sfield_words].
      apply forall2_map. reflexivity. }
    assert (VV : Forall valid_number vs) by (clear - V2; induction V2 as [|u v l k [A B] V2 IH]; constructor; auto).
    destruct (read_object t _ vs (f x a) rest Ht V1 eq_refl O VV) as (y & r & E & Wr & G).
    + rewrite <- (forall2_length _ _ _ V2). apply total_elems.
    + exists y, r. split; [exact Wr|]. split; [unfold all_valid; rewrite E; exact VV|]. split; [|exact G].
      rewrite !(enote_layout nn t f H), E. f_equal.
      apply (map_same (fun u v => valid_number v /\ num_text nn scientific (to_int a) v = num_text nn scientific (to_int a) u)); [|exact V2].
      intros u v [_ K]. unfold sfield, stok. rewrite K. reflexivity.
  - assert (AV : all_valid t x).
    { unfold all_valid. eapply Forall_impl; [|exact V]. intros v [F [Z|[M _]]]; split; auto. right. eapply Rle_trans; [|exact M].
      apply bpow_le. lia. }
    destruct (enote_round_trip nn t f H Ht x a rest ltac:(lia) AV O) as (r & W & G). exists x, r. auto.
Qed.

(** Any number of times. *)
Lemma written_inj : forall t (x y : val f64 t), mapv Some t x = mapv Some t y -> x = y.
Proof.
  intros t x y E. apply grades_inj. unfold grades. apply (f_equal (elems t)) in E.
  enough (K : elems t x = elems t y) by (rewrite K; reflexivity).
  rewrite !elems_mapv in E. revert E. generalize (elems t x) (elems t y).
  induction l as [|u l IH]; intros [|v l'] E; cbn in E; try discriminate; [reflexivity|]. injection E as E1 E2. f_equal; auto.
Qed.
Lemma copied_same : forall t (write : val f64 t -> text) y i s,
  (forall x0, extract t (mkIs s false false) x0 = Some (mapv Some t y, i)) -> write y = s -> forall s', copied t write s s' -> s' = s.
Proof.
  intros t write y i s E W s' C. induction C as [s|s x0 z j s' X C IH]; [reflexivity|].
  rewrite E in X. injection X as X _. apply written_inj in X. subst z. rewrite W in IH. apply IH; auto.
Qed.
Lemma fixed_copies : forall nn t f, fixed nn t = Some f -> t <> TDub -> forall x b a s, (0 <= a <= 307)%Z ->
  all_finite t x -> copied t (fun y => f y b a) (f x b a) s -> s = f x b a.
Proof.
  intros nn t f H Ht x b a s Ha V C. destruct (fixed_stable nn t f H Ht x b a [] Ha V I) as (y & r & _ & _ & E & G).
  rewrite app_nil_r in G. apply (copied_same t (fun y => f y b a) y _ _ G E _ C).
Qed.
Lemma enote_copies : forall nn t f, enote nn t = Some f -> t <> TDub -> forall x a s, (1 <= a < 2 ^ 31)%Z -> a <> 15%Z ->
  Forall moderate (elems t x) -> copied t (fun y => f y a) (f x a) s -> s = f x a.
Proof.
  intros nn t f H Ht x a s Ha N V C. destruct (enote_stable nn t f H Ht x a [] Ha N V I) as (y & r & _ & _ & E & G).
  rewrite app_nil_r in G. apply (copied_same t (fun y => f y a) y _ _ G E _ C).
Qed.

(** ** Sixteen digits *)
(** The double next above 10^23; the one below. *)
Definition above23 : f64 := f64_lit 5960464477539063 24.
Definition below23 : f64 := f64_lit 5960464477539062 24.
Definition text23 : text := ["1"; "."; "0"; "0"; "0"; "0"; "0"; "0"; "0"; "0"; "0"; "0"; "0"; "0"; "0"; "0"; "0"; "e"; "+"; "2"; "3"]%char.
Definition text22 : text := ["9"; "."; "9"; "9"; "9"; "9"; "9"; "9"; "9"; "9"; "9"; "9"; "9"; "9"; "9"; "9"; "9"; "e"; "+"; "2"; "2"]%char.
Lemma above_valid : valid_number above23.
Proof. apply isValid_number. vm_compute. reflexivity. Qed.
Lemma above_moderate : moderate above23.
Proof.
  split; [vm_compute; reflexivity|right]. rewrite <- (SF2R_B2SF 53 1024). replace (B2SF above23) with (SpecFloat.S754_finite false 5960464477539063 24) by (vm_compute; reflexivity).
  unfold SF2R, F2R. cbn [Fnum Fexp SpecFloat.cond_Zopp cond_Zopp]. rewrite Rabs_pos_eq by (apply Rmult_le_pos; [apply IZR_le; lia|apply bpow_ge_0]). split.
  - apply Rle_trans with (1 * bpow radix2 24); [rewrite Rmult_1_l; apply bpow_le; lia|]. apply Rmult_le_compat_r; [apply bpow_ge_0|]. apply IZR_le. lia.
  - apply Rle_trans with (bpow radix2 53 * bpow radix2 24); [|rewrite <- bpow_plus; apply bpow_le; lia].
    apply Rmult_le_compat_r; [apply bpow_ge_0|]. change (bpow radix2 53) with (IZR 9007199254740992). apply IZR_le. lia.
Qed.
Lemma above_text : forall nn f, enote nn TSca = Some f -> f (Sca above23) 15%Z = " "%char :: text23.
Proof. intros nn f H. injection H as <-. vm_compute. reflexivity. Qed.
Lemma below_text : forall nn f, enote nn TSca = Some f -> f (Sca below23) 15%Z = " "%char :: text22.
Proof. intros nn f H. injection H as <-. vm_compute. reflexivity. Qed.
Lemma read_below : forall nn f, enote nn TSca = Some f -> forall x0, exists i,
  extract TSca (mkIs (f (Sca above23) 15%Z) false false) x0 = Some (mapv Some TSca (Sca below23), i).
Proof.
  intros nn f H x0. destruct (enote_approx nn TSca f H ltac:(discriminate) (Sca above23) 15 []) as (y & r & _ & _ & G).
  - lia.
  - constructor; [apply above_moderate|constructor].
  - exact I.
  - rewrite app_nil_r in G. exists (mkIs r (nilb r) false). rewrite G. destruct y as [[v]]. enough (K : v = below23) by (subst v; reflexivity).
    specialize (G (Sca None)). rewrite (above_text nn f H) in G.
    apply (f_equal (option_map (fun p => option_map B2SF (Types.at0 (scaData (fst p)))))) in G. vm_compute in G. injection G as G.
    apply B2SF_inj. etransitivity; [symmetry; exact G|vm_compute; reflexivity].
Qed.
Lemma default_changes : forall nn f, enote nn TSca = Some f ->
  ~ (forall x s, Forall moderate (elems TSca x) -> copied TSca (fun y => f y 15%Z) (f x 15%Z) s -> s = f x 15%Z).
Proof.
  intros nn f H C. destruct (read_below nn f H (Sca None)) as [i R]. specialize (C (Sca above23) (f (Sca below23) 15%Z)).
  rewrite (above_text nn f H), (below_text nn f H) in C. rewrite (above_text nn f H) in R.
  assert (E : " "%char :: text22 = " "%char :: text23); [|discriminate E].
  apply C; [constructor; [apply above_moderate|constructor]|]. eapply once_more; [exact R|]. rewrite (below_text nn f H). constructor.
Qed.

(** 0.1 + 0.2 and 0.3, three digits. *)
Definition sum12 : f64 := f64_lit 5404319552844596 (-54).
Definition three10 : f64 := f64_lit 5404319552844595 (-54).
Lemma other_number : forall nn f, fixed nn TSca = Some f -> forall x0, exists i,
  extract TSca (mkIs (f (Sca sum12) 2%Z 3%Z) false false) x0 = Some (mapv Some TSca (Sca three10), i) /\
  three10 <> sum12 /\ f (Sca three10) 2%Z 3%Z = f (Sca sum12) 2%Z 3%Z.
Proof.
  intros nn f H x0. destruct (fixed_approx nn TSca f H ltac:(discriminate) (Sca sum12) 2 3 []) as (y & r & _ & _ & _ & G).
  - lia.
  - repeat constructor.
  - exact I.
  - rewrite app_nil_r in G. exists (mkIs r (nilb r) false). rewrite G. split; [|split].
    + destruct y as [[v]]. enough (K : v = three10) by (subst v; reflexivity). specialize (G (Sca None)). injection H as <-.
      apply (f_equal (option_map (fun p => option_map B2SF (Types.at0 (scaData (fst p)))))) in G. vm_compute in G. injection G as G.
      apply B2SF_inj. etransitivity; [symmetry; exact G|vm_compute; reflexivity].
    + intros E. apply (f_equal B2SF) in E. vm_compute in E. discriminate.
    + injection H as <-. vm_compute. reflexivity.
Qed.
