(** * Comparisons: final forms (proofs only). *)

Require Import Reals ZArith List Bool Lra Lia.
From Flocq Require Import Core BinarySingleNaN.
Require Import Verif.Num Verif.Types Verif.Priv Verif.Const Verif.Validity Verif.Compare
  Verif.Rel Verif.B64 Verif.B64Facts Verif.SpecCl Verif.SpecValid Verif.SpecCompare
  Verif.ValidFacts Verif.NullFacts Verif.CompareFacts Verif.ArrFacts Verif.ArrErr.
Import ListNotations.
Local Open Scope R_scope.

(** ** Rounding around half the smallest number *)
Lemma rnd_eta : rnd64 eta = 0.
Proof.
  unfold round, F2R, scaled_mantissa, cexp, eta. rewrite mag_bpow.
  change (fexp64 (-1075 + 1)) with (-1074)%Z. cbn [Fnum Fexp].
  rewrite <- bpow_plus. change (-1075 + - (-1074))%Z with (-1)%Z.
  replace (Znearest (fun x => negb (Z.even x)) (bpow radix2 (-1))) with 0%Z; [ring|].
  unfold Znearest. replace (Zfloor (bpow radix2 (-1))) with 0%Z.
  - rewrite Rcompare_Eq by (cbn; lra). reflexivity.
  - symmetry. apply Zfloor_imp. cbn. lra.
Qed.
Lemma rnd_tiny : forall x, 0 <= x <= eta -> rnd64 x = 0.
Proof. intros x [H1 H2]. apply rnd_mono in H2. rewrite rnd_eta in H2. pose proof (rnd_pos x H1). lra. Qed.
Lemma rnd_not_tiny : forall x, eta < x -> 0 < rnd64 x.
Proof.
  intros x H. destruct (Rlt_le_dec x (bpow radix2 (-1074))) as [L|L].
  - pose proof (error_le_half_ulp radix2 fexp64 (fun x => negb (Z.even x)) x) as E.
    assert (U : ulp radix2 fexp64 x = bpow radix2 (-1074)).
    { change fexp64 with (FLT_exp (-1074) 53). apply ulp_FLT_small; [reflexivity|].
      pose proof eta_pos. rewrite Rabs_pos_eq by lra.
      eapply Rlt_trans; [exact L|]. apply bpow_lt. lia. }
    rewrite U in E. replace (/ 2 * bpow radix2 (-1074)) with eta in E.
    + apply Rabs_le_inv in E. lra.
    + unfold eta. change (/2) with (bpow radix2 (-1)). rewrite <- bpow_plus. reflexivity.
  - apply rnd_mono in L. rewrite (round_generic radix2 fexp64 _ (bpow radix2 (-1074))) in L.
    + pose proof (bpow_gt_0 radix2 (-1074)). lra.
    + apply generic_format_bpow. unfold SpecFloat.fexp, SpecFloat.emin. lia.
Qed.
Lemma pos_min : forall x : f64, fin x = true -> 0 < b2r x -> bpow radix2 (-1074) <= b2r x.
Proof.
  intros x F H. rewrite <- (Rabs_pos_eq (b2r x)) by lra. apply (abs_B2R_ge_emin 53 1024).
  destruct x as [s|s| |s m e B]; try discriminate; cbn in H; try lra; reflexivity.
Qed.

(** ** When the computed squared length of the reference is zero *)
Lemma plus_zero : forall x y : f64, fin (Bplus mode_NE x y) = true -> 0 <= b2r x -> 0 <= b2r y ->
  b2r (Bplus mode_NE x y) = 0 -> b2r x = 0 /\ b2r y = 0.
Proof.
  intros x y F Hx Hy E. apply bplus_fin in F. destruct F as (_ & _ & R). rewrite R in E.
  pose proof (plus_lo x y ltac:(lra)) as L. rewrite E in L. pose proof u53_pos. pose proof u53_le.
  assert (b2r x + b2r y <= 0); [|lra]. apply Rmult_le_reg_l with (1 - u53); lra.
Qed.
Lemma inner_zero : forall (l : list f64) acc, 0 <= b2r acc -> fin (inner_product l l acc) = true ->
  (b2r (inner_product l l acc) = 0 <-> b2r acc = 0 /\ Forall (fun v => b2r v * b2r v <= eta) l).
Proof.
  induction l as [|x l IH]; intros acc Ha H.
  - cbn [inner_product]. split; [auto|tauto].
  - rewrite inner_cons in *. pose proof (inner_fin _ _ H) as H1.
    pose proof (bplus_fin _ _ H1) as (A1 & A2 & A3). pose proof (bmult_fin _ _ A2) as (_ & _ & A4).
    pose proof (rnd_pos _ (sq_pos (b2r x))) as E2. rewrite <- A4 in E2.
    assert (E4 : 0 <= b2r (Bplus mode_NE acc (Bmult mode_NE x x))) by (rewrite A3; apply rnd_pos; lra).
    rewrite (IH _ E4 H). split.
    + intros [Z Hl]. apply plus_zero in Z; auto. destruct Z as [Z1 Z2]. split; auto. constructor; auto.
      rewrite A4 in Z2. destruct (Rle_lt_dec (b2r x * b2r x) eta) as [L|L]; auto.
      apply rnd_not_tiny in L. lra.
    + intros [Z Hl]. inversion Hl; subst. split; auto. rewrite A3, A4, Z, (rnd_tiny (b2r x * b2r x)) by (split; [apply sq_pos|assumption]).
      rewrite Rplus_0_r. apply round_0, valid_rnd_N.
Qed.
Lemma inner_self_pos : forall (l : list f64), fin (inner_product l l (B754_zero false : f64)) = true ->
  0 <= b2r (inner_product l l (B754_zero false : f64)).
Proof.
  intros l H. apply nonneg_b2r, inner_nonneg; [|reflexivity]. revert H. generalize (B754_zero false : f64).
  induction l as [|x l IH]; intros acc H; constructor.
  - rewrite inner_cons in H. apply inner_fin, bplus_fin in H. destruct H as (_ & H & _). apply bmult_fin in H. tauto.
  - rewrite inner_cons in H. eapply IH; eauto.
Qed.

(** ** sqrt *)
Lemma sqrt_fin : forall x : f64, fin x = true -> 0 <= b2r x ->
  fin (Bsqrt mode_NE x) = true /\ b2r (Bsqrt mode_NE x) = rnd64 (sqrt (b2r x)).
Proof.
  intros x F H. pose proof (Bsqrt_correct 53 1024 _ _ mode_NE x) as (A & B & _). split; [|exact A].
  rewrite B. destruct x as [s|s| |[] m e Hb]; try discriminate; try reflexivity.
  exfalso. cbn in H. assert (F2R (Float radix2 (Z.neg m) e) < 0) by (apply F2R_lt_0; cbn; lia). lra.
Qed.
Lemma sqrt_finite_arg : forall x : f64, fin (Bsqrt mode_NE x) = true -> fin x = true /\ 0 <= b2r x.
Proof.
  intros x F. pose proof (Bsqrt_correct 53 1024 _ _ mode_NE x) as (_ & B & _). rewrite B in F.
  destruct x as [s|s| |[] m e Hb]; try discriminate; split; try reflexivity; cbn; try lra.
  apply F2R_ge_0. cbn. lia.
Qed.
(** The small-reference branch is taken exactly when the computed square vanishes. *)
Lemma branch : forall r : f64, fin r = true -> 0 <= b2r r ->
  nltb (nsqrt r) (lim_min : f64) = true <-> b2r r = 0.
Proof.
  intros r F H. destruct (sqrt_fin r F H) as [F1 R1].
  change (nltb (nsqrt r) (lim_min : f64)) with (Bltb (Bsqrt mode_NE r) (lim_min : f64)).
  rewrite Bltb_correct by (auto; apply min_lit). rewrite R1, (proj2 min_lit).
  destruct (Rlt_bool_spec (rnd64 (sqrt (b2r r))) (bpow radix2 (-1022))) as [L|L]; split; intros E; auto; try discriminate.
  - destruct (Req_dec (b2r r) 0) as [Z|Z]; auto. exfalso.
    assert (K : bpow radix2 (-1074) <= b2r r) by (apply pos_min; auto; lra).
    apply sqrt_le_1_alt in K. replace (sqrt (bpow radix2 (-1074))) with (bpow radix2 (-537)) in K.
    + apply rnd_mono in K. rewrite (round_generic radix2 fexp64 _ (bpow radix2 (-537))) in K.
      * assert (bpow radix2 (-1022) < bpow radix2 (-537)) by (apply bpow_lt; lia). lra.
      * apply generic_format_bpow. unfold SpecFloat.fexp, SpecFloat.emin. lia.
    + symmetry. apply sqrt_lem_1; try apply bpow_ge_0. rewrite <- bpow_plus. reflexivity.
  - rewrite E, sqrt_0, round_0 in L by apply valid_rnd_N. pose proof (bpow_gt_0 radix2 (-1022)). lra.
Qed.

(** ** Validity of the arrays *)
Lemma arr_valid : forall l : list f64, l <> [] -> (isValid_arr l = true <-> Forall valid_number l).
Proof.
  intros l Hn. split; intros H.
  - destruct (Forall_Exists_dec (fun v : f64 => isValid_Dub v = true) (fun v => bool_dec (isValid_Dub v) true) l) as [D|D].
    + eapply Forall_impl; [|exact D]. intros v. apply isValid_number.
    + exfalso. rewrite isValid_arr_false in H; [discriminate|]. eapply Exists_impl; [|exact D].
      intros v K. apply not_true_is_false, K.
  - apply isValid_arr_true; auto. eapply Forall_impl; [|exact H]. intros v. apply isValid_number.
Qed.
Lemma all_small : forall (g r : list f64) tol b, length g = length r ->
  (allSmallDiff g r tol b = true <-> b = true /\ Forall2 (fun x y => isSmallAbsDiff x y tol = true) g r).
Proof.
  induction g as [|x g IH]; intros [|y r] tol b HL; try discriminate HL; cbn [allSmallDiff].
  - split; [auto|tauto].
  - destruct b; [|split; [discriminate|intros [? _]; discriminate]].
    rewrite IH by (cbn in HL; lia). split.
    + intros [A B]. auto.
    + intros [_ B]. inversion B; auto.
Qed.
Lemma all_fin : forall l : list f64, Forall valid_number l -> Forall (fun v => fin v = true) l.
Proof. intros l H. eapply Forall_impl; [|exact H]. apply valid_fin. Qed.

(** What is computed, branch by branch. *)
Lemma arr_unfold : forall (g r : list f64) tol, g <> [] -> length g = length r ->
  fin (inner_product r r (B754_zero false : f64)) = true ->
  nearlyEquals_arr g r tol = true <->
  Forall valid_number g /\ Forall valid_number r /\
  ((Forall (fun v => b2r v * b2r v <= eta) r /\ Forall2 (fun x y => isSmallAbsDiff x y tol = true) g r) \/
   (~ Forall (fun v => b2r v * b2r v <= eta) r /\
    isSmallAbs (F:=f64) (Bsqrt mode_NE (Bdiv mode_NE (sumSqDif g r (B754_zero false : f64))
       (inner_product r r (B754_zero false : f64)))) tol = true)).
Proof.
  intros g r tol Hn HL HF. assert (Hr : r <> []) by (intros ->; destruct g; [congruence|discriminate]).
  pose proof (inner_self_pos r HF) as HP.
  pose proof (inner_zero r (B754_zero false) (Rle_refl 0) HF) as HZ.
  pose proof (branch _ HF HP) as HB.
  unfold nearlyEquals_arr. cbv zeta. change (nzero : f64) with (B754_zero false : f64).
  destruct (isValid_arr g && isValid_arr r) eqn:V.
  - apply andb_prop in V. destruct V as [V1 V2]. apply arr_valid in V1, V2; auto.
    destruct (nltb (nsqrt (inner_product r r (B754_zero false : f64))) lim_min) eqn:E.
    + assert (Z : Forall (fun v => b2r v * b2r v <= eta) r) by (apply HZ, HB; reflexivity).
      destruct g as [|x g]; [congruence|]. destruct r as [|y r]; [congruence|].
      rewrite all_small by (cbn in HL; lia). inversion V1; inversion V2; subst.
      split.
      * intros [A B]. split; [auto|split; [auto|left; split; [auto|constructor; auto]]].
        apply abs_unfold in A. tauto.
      * intros (_ & _ & [[_ B]|[N _]]); [|contradiction]. inversion B; subst. split; auto. apply abs_unfold. tauto.
    + assert (N : ~ Forall (fun v => b2r v * b2r v <= eta) r).
      { intros K. assert (false = true); [|discriminate]. apply HB, HZ. split; [reflexivity|exact K]. }
      split; [tauto|]. intros (_ & _ & [[K _]|[_ B]]); [contradiction|exact B].
  - split; [discriminate|]. intros (V1 & V2 & _). apply arr_valid in V1, V2; auto. rewrite V1, V2 in V. discriminate V.
Qed.

Lemma forall2_sound : forall (g r : list f64) tol, fin tol = true ->
  Forall2 (fun x y => isSmallAbsDiff x y tol = true) g r ->
  Forall2 (fun x y => Rabs (b2r x - b2r y) < b2r tol) g r.
Proof. intros g r tol Ht H. induction H; constructor; auto. eapply diff_sound; eauto. Qed.

(** Soundness, any length. *)
Lemma arr_sound : forall (g r : list f64) tol, g <> [] -> length g = length r -> fin tol = true ->
  let n := length g in
  (1 + u53) ^ (n + 1) * norm2 r + INR n * (1 + u53) ^ n * eta <= bpow radix2 1023 ->
  nearlyEquals_arr g r tol = true ->
  Forall valid_number g /\ Forall valid_number r /\
  (Forall (fun v => b2r v * b2r v <= eta) r ->
     Forall2 (fun x y => Rabs (b2r x - b2r y) < b2r tol) g r) /\
  (~ Forall (fun v => b2r v * b2r v <= eta) r ->
     (1 - u53) ^ (n + 4) * dist2 g r <=
     (b2r tol * b2r tol + eta) * ((1 + u53) ^ (n + 1) * norm2 r + INR n * (1 + u53) ^ n * eta)
     + INR n * eta).
Proof.
  intros g r tol Hn HL Ht n HB E.
  assert (Hr : r <> []) by (intros ->; destruct g; [congruence|discriminate]).
  assert (V : Forall valid_number g /\ Forall valid_number r).
  { revert E. unfold nearlyEquals_arr. destruct (isValid_arr g && isValid_arr r) eqn:V; [|discriminate].
    intros _. apply andb_prop in V. destruct V as [V1 V2]. apply arr_valid in V1, V2; auto. }
  destruct V as [V1 V2]. unfold n in *. clear n.
  assert (HF : fin (inner_product r r (B754_zero false : f64)) = true).
  { apply inner_ok; [apply all_fin, V2|reflexivity|apply Rle_refl|]. rewrite <- HL. cbn [B2R]. rewrite Rmult_0_r, Rplus_0_l. exact HB. }
  rewrite arr_unfold in E by auto. destruct E as (_ & _ & E).
  split; [exact V1|split; [exact V2|split]]; intros D.
  - destruct E as [[_ E]|[N _]]; [|contradiction]. apply forall2_sound; auto.
  - destruct E as [[E _]|[_ E]]; [contradiction|].
    pose proof (inner_self_pos r HF) as HP.
    assert (NZ : b2r (inner_product r r (B754_zero false : f64)) <> 0).
    { intros Z. apply inner_zero in Z; auto; [tauto|apply Rle_refl]. }
    pose proof (inner_hi r (B754_zero false) (Rle_refl 0) HF) as HI. cbv zeta in HI. rewrite <- HL in HI.
    change (b2r (B754_zero false)) with 0 in HI. rewrite Rmult_0_r, Rplus_0_l in HI.
    set (rr := inner_product r r (B754_zero false : f64)) in *. set (dd := sumSqDif g r (B754_zero false : f64)) in *.
    apply small_real in E; auto. destruct E as [F1 L1].
    destruct (sqrt_finite_arg _ F1) as [F2 P2]. rewrite (proj2 (sqrt_fin _ F2 P2)) in L1.
    set (q := Bdiv mode_NE dd rr) in *.
    assert (L2 : sqrt (b2r q) < b2r tol).
    { destruct (Rlt_le_dec (sqrt (b2r q)) (b2r tol)) as [L|L]; auto. exfalso. apply rnd_mono in L. rewrite rnd_id in L.
      rewrite Rabs_pos_eq in L1 by (apply rnd_pos, sqrt_pos). lra. }
    assert (L3 : b2r q <= b2r tol * b2r tol).
    { rewrite <- (sqrt_sqrt (b2r q)) by exact P2. pose proof (sqrt_pos (b2r q)). apply Rmult_le_compat; lra. }
    assert (F3 : fin dd = true).
    { pose proof (Bdiv_correct 53 1024 _ _ mode_NE dd rr NZ) as C. destruct (Rlt_bool _ _).
      - destruct C as (_ & C & _). rewrite <- C. exact F2.
      - apply sf_overflow_fin in C. fold q in C. congruence. }
    pose proof (div_fin dd rr NZ F2) as R2. fold q in R2.
    pose proof (dif_lo g r (B754_zero false) (Rle_refl 0) F3 HL) as DL. cbv zeta in DL.
    pose proof (dif_pos g r (B754_zero false) (Rle_refl 0) F3) as DP. fold dd in DL, DP.
    change (b2r (B754_zero false)) with 0 in DL. rewrite Rmult_0_r, Rplus_0_l in DL.
    assert (RP : 0 < b2r rr) by lra.
    assert (QP : 0 <= b2r dd / b2r rr) by (apply Rmult_le_pos; [lra|left; apply Rinv_0_lt_compat; lra]).
    pose proof (any_lo _ QP) as Q1. rewrite <- R2 in Q1.
    pose proof u53_pos as U. pose proof u53_le as U'. pose proof eta_pos as He.
    assert (Q2 : (1 - u53) * b2r dd <= (b2r tol * b2r tol + eta) * b2r rr).
    { replace ((1 - u53) * b2r dd) with ((1 - u53) * (b2r dd / b2r rr) * b2r rr) by (field; lra).
      apply Rmult_le_compat_r; lra. }
    assert (Q3 : (b2r tol * b2r tol + eta) * b2r rr <= (b2r tol * b2r tol + eta) *
       ((1 + u53) ^ (length g + 1) * norm2 r + INR (length g) * (1 + u53) ^ length g * eta)).
    { apply Rmult_le_compat_l; [pose proof (sq_pos (b2r tol)); lra|exact HI]. }
    replace (length g + 4)%nat with (S (length g + 3)) by lia. cbn [pow].
    pose proof (Rmult_le_compat_l (1 - u53) _ _ ltac:(lra) DL) as Q4.
    pose proof (pos_INR (length g)) as Hi.
    assert (Q5 : (1 - u53) * (INR (length g) * eta) <= INR (length g) * eta).
    { rewrite <- (Rmult_1_l (INR (length g) * eta)) at 2. apply Rmult_le_compat_r; [apply Rmult_le_pos; lra|lra]. }
    lra.
Qed.

(** The differences do not overflow when the exact value stays in range. *)
Lemma dif_ok : forall (g r : list f64) acc, Forall (fun v => fin v = true) g -> Forall (fun v => fin v = true) r ->
  length g = length r -> fin acc = true -> 0 <= b2r acc ->
  let n := length g in
  (1 + u53) ^ n * b2r acc + (1 + u53) ^ (n + 3) * dist2 g r + INR n * (1 + u53) ^ n * eta <= bpow radix2 1023 ->
  fin (sumSqDif g r acc) = true.
Proof.
  pose proof u53_pos as U. pose proof eta_pos as He.
  induction g as [|x g IH]; intros [|y r] acc Hg Hr HL Fa Ha; try discriminate HL; cbv zeta; intros B; [exact Fa|].
  inversion Hg as [|? ? Fx Hg']; inversion Hr as [|? ? Fy Hr']; subst. rewrite dif_cons. rewrite dist2_cons in B. cbn [length] in B.
  set (n := length g) in *. rewrite S_INR in B. cbn [Nat.add pow] in B. rewrite pow_add in B.
  pose proof (pow2 n) as Hn. pose proof (dist2_pos g r) as Nm. pose proof (sq_pos (b2r x - b2r y)) as Sp.
  pose proof (pos_INR n) as Hi. pose proof (minus_sq_hi x y) as E0. cbv zeta in E0.
  set (q := (1 + u53) ^ n) in *. set (w := 1 + u53) in *. assert (W : 1 <= w) by (unfold w; lra).
  replace (w ^ 3) with (w * w * w) in B by ring.
  set (s := (b2r x - b2r y) * (b2r x - b2r y)) in *. set (m := dist2 g r) in *.
  assert (Q1 : 1 <= w * q) by nra.
  assert (W2 : 1 <= w * w) by nra. assert (W3 : 1 <= w * w * w) by nra.
  assert (B1 : b2r acc <= w * q * b2r acc) by nra.
  assert (B2 : w * w * w * (s + m) <= w * (q * (w * w * w)) * (s + m)).
  { apply Rmult_le_compat_r; [lra|]. replace (w * (q * (w * w * w))) with ((w * q) * (w * w * w)) by ring. nra. }
  assert (B3 : eta <= w * q * eta) by nra.
  assert (B4 : 0 <= INR n * (w * q) * eta) by (repeat apply Rmult_le_pos; lra).
  assert (B5 : w * w * w * m >= 0) by (apply Rle_ge; repeat apply Rmult_le_pos; lra).
  assert (B6 : (INR n + 1) * (w * q) * eta = INR n * (w * q) * eta + w * q * eta) by ring.
  assert (B0 : b2r acc + w * w * w * s + eta <= bpow radix2 1023) by (rewrite B6 in B; lra).
  assert (B7 : w * w * s <= w * (w * w * s)).
  { rewrite <- (Rmult_1_l (w * w * s)) at 1. apply Rmult_le_compat_r; [apply Rmult_le_pos; lra|lra]. }
  assert (B8 : s <= w * w * s) by nra.
  replace (w * w * w * s) with (w * (w * w * s)) in B0 by ring.
  assert (S1 : s <= bpow radix2 1023) by lra.
  assert (D1 : Rabs (rnd64 (b2r x - b2r y)) < bpow radix2 1024).
  { apply Rsqr_incrst_0; [|apply Rabs_pos|apply bpow_ge_0]. rewrite <- Rsqr_abs. unfold Rsqr.
    eapply Rle_lt_trans; [exact E0|]. eapply Rle_lt_trans with (bpow radix2 1023); [lra|].
    rewrite <- bpow_plus. apply bpow_lt. lia. }
  destruct (bminus_ok x y Fx Fy D1) as [F0 R0]. rewrite <- R0 in E0.
  pose proof (sq_pos (b2r (Bminus mode_NE x y))) as Sp2. set (d := Bminus mode_NE x y) in *.
  assert (T : 0 <= b2r d * b2r d <= bpow radix2 1023) by lra.
  destruct (bmult_ok d d F0 F0 (rnd_1023 _ T)) as [F1 R1].
  pose proof (any_hi _ Sp2) as E1. rewrite <- R1 in E1. pose proof (rnd_pos _ Sp2) as E2. rewrite <- R1 in E2.
  assert (E1' : b2r (Bmult mode_NE d d) <= w * (w * w * s) + eta).
  { eapply Rle_trans; [exact E1|]. apply Rplus_le_compat_r, Rmult_le_compat_l; [lra|exact E0]. }
  set (p := Bmult mode_NE d d) in *.
  assert (T2 : 0 <= b2r acc + b2r p <= bpow radix2 1023) by lra.
  destruct (bplus_ok acc p Fa F1 (rnd_1023 _ T2)) as [F2 R2].
  assert (E3' : 0 <= b2r acc + b2r p) by lra. pose proof (plus_hi acc p E3') as E3. rewrite <- R2 in E3.
  assert (E4 : 0 <= b2r (Bplus mode_NE acc p)) by (rewrite R2; apply rnd_pos; lra).
  apply IH; auto. cbv zeta. fold n. rewrite pow_add. fold w. fold q. fold m. replace (w ^ 3) with (w * w * w) by ring.
  assert (E5 : b2r (Bplus mode_NE acc p) <= w * (b2r acc + (w * (w * w * s) + eta))).
  { eapply Rle_trans; [exact E3|]. apply Rmult_le_compat_l; lra. }
  pose proof (Rmult_le_compat_l q _ _ ltac:(lra) E5) as E6.
  assert (T1 : q * (w * w * w) * m <= w * (q * (w * w * w)) * m).
  { replace (w * (q * (w * w * w)) * m) with (w * (q * (w * w * w) * m)) by ring.
    assert (0 <= q * (w * w * w) * m) by (repeat apply Rmult_le_pos; lra). nra. }
  assert (T3 : INR n * q * eta <= INR n * (w * q) * eta).
  { apply Rmult_le_compat_r; [lra|]. apply Rmult_le_compat_l; [lra|]. nra. }
  replace (q * (w * (b2r acc + (w * (w * w * s) + eta)))) with (w * q * b2r acc + w * (q * (w * w * w)) * s + w * q * eta) in E6 by ring.
  replace (w * (q * (w * w * w)) * (s + m)) with (w * (q * (w * w * w)) * s + w * (q * (w * w * w)) * m) in B by ring.
  rewrite B6 in B. lra.
Qed.

(** Completeness, any length. *)
Lemma arr_complete : forall (g r : list f64) tol t', g <> [] -> length g = length r -> fin tol = true ->
  Forall valid_number g -> Forall valid_number r ->
  ~ Forall (fun v => b2r v * b2r v <= eta) r ->
  let n := length g in
  let hiD := (1 + u53) ^ (n + 3) * dist2 g r + INR n * (1 + u53) ^ n * eta in
  let hiR := (1 + u53) ^ (n + 1) * norm2 r + INR n * (1 + u53) ^ n * eta in
  hiD <= bpow radix2 1023 -> hiR <= bpow radix2 1023 ->
  let loR := (1 - u53) ^ (n + 1) * norm2 r - INR n * eta in
  0 < loR -> 0 <= b2r t' <= bpow radix2 511 -> (1 + u53) * hiD + eta * loR <= b2r t' * b2r t' * loR -> b2r t' < b2r tol ->
  nearlyEquals_arr g r tol = true.
Proof.
  intros g r tol t' Hn HL Ht V1 V2 D n hiD hiR B1 B2 loR PR [Pt Pt'] HB Lt.
  assert (HF : fin (inner_product r r (B754_zero false : f64)) = true).
  { apply inner_ok; [apply all_fin, V2|reflexivity|apply Rle_refl|]. rewrite <- HL. cbn [B2R]. rewrite Rmult_0_r, Rplus_0_l. exact B2. }
  assert (F3 : fin (sumSqDif g r (B754_zero false : f64)) = true).
  { apply dif_ok; [apply all_fin, V1|apply all_fin, V2|exact HL|reflexivity|apply Rle_refl|]. cbn [B2R]. rewrite Rmult_0_r, Rplus_0_l. exact B1. }
  apply arr_unfold; auto. split; [exact V1|split; [exact V2|right; split; [exact D|]]].
  pose proof (inner_self_pos r HF) as HP.
  assert (NZ : b2r (inner_product r r (B754_zero false : f64)) <> 0).
  { intros Z. apply inner_zero in Z; auto; [tauto|apply Rle_refl]. }
  pose proof (inner_lo r (B754_zero false) (Rle_refl 0) HF) as HI. cbv zeta in HI. rewrite <- HL in HI.
  change (b2r (B754_zero false)) with 0 in HI. rewrite Rmult_0_r, Rplus_0_l in HI. fold n loR in HI.
  pose proof (dif_hi g r (B754_zero false) (Rle_refl 0) F3 HL) as DL. cbv zeta in DL.
  pose proof (dif_pos g r (B754_zero false) (Rle_refl 0) F3) as DP.
  change (b2r (B754_zero false)) with 0 in DL. rewrite Rmult_0_r, Rplus_0_l in DL. fold n hiD in DL.
  set (rr := inner_product r r (B754_zero false : f64)) in *. set (dd := sumSqDif g r (B754_zero false : f64)) in *.
  assert (RP : 0 < b2r rr) by lra.
  assert (IP : 0 < / b2r rr) by (apply Rinv_0_lt_compat; lra).
  assert (QP : 0 <= b2r dd / b2r rr) by (apply Rmult_le_pos; lra).
  pose proof u53_pos as U. pose proof eta_pos as He.
  assert (Q1 : (1 + u53) * (b2r dd / b2r rr) + eta <= b2r t' * b2r t').
  { assert (K1 : b2r dd / b2r rr <= hiD / loR).
    { apply Rmult_le_compat; try lra. apply Rinv_le; lra. }
    pose proof (Rmult_le_compat_l (1 + u53) _ _ ltac:(lra) K1) as K2.
    assert (K3 : (1 + u53) * (hiD / loR) + eta <= b2r t' * b2r t'); [|lra].
    apply Rmult_le_reg_r with loR; [lra|]. replace (((1 + u53) * (hiD / loR) + eta) * loR) with ((1 + u53) * hiD + eta * loR) by (field; lra). exact HB. }
  pose proof (any_hi _ QP) as Q2.
  assert (T2 : 0 <= rnd64 (b2r dd / b2r rr)) by (apply rnd_pos; exact QP).
  destruct (fin (Bdiv mode_NE dd rr)) eqn:F2.
  - pose proof (div_fin dd rr NZ F2) as R2.
    assert (P2 : 0 <= b2r (Bdiv mode_NE dd rr)) by (rewrite R2; exact T2).
    destruct (sqrt_fin _ F2 P2) as [F1 R1]. apply small_real; auto. split; auto.
    rewrite R1, Rabs_pos_eq by (apply rnd_pos, sqrt_pos).
    apply Rle_lt_trans with (b2r t'); [|exact Lt]. rewrite <- (rnd_id t'). apply rnd_mono.
    rewrite <- (sqrt_square (b2r t')) by exact Pt. apply sqrt_le_1_alt. rewrite R2. lra.
  - exfalso. pose proof (Bdiv_correct 53 1024 _ _ mode_NE dd rr NZ) as C.
    assert (T3 : Rabs (rnd64 (b2r dd / b2r rr)) < bpow radix2 1024).
    { apply rnd_1023. split; [exact QP|]. assert (0 <= u53 * (b2r dd / b2r rr)) by (apply Rmult_le_pos; lra).
      assert (b2r t' * b2r t' <= bpow radix2 511 * bpow radix2 511) by (apply Rmult_le_compat; lra).
      rewrite <- bpow_plus in H0. assert (bpow radix2 (511 + 511) <= bpow radix2 1023) by (apply bpow_le; lia). lra. }
    change (round_mode mode_NE) with (Znearest (fun x => negb (Z.even x))) in C.
    rewrite Rlt_bool_true in C by exact T3. destruct C as (_ & C & _). congruence.
Qed.

(** ** The lengths that occur: one and three *)
Lemma u_small : u53 <= / 1024.
Proof. unfold u53. change (/1024) with (bpow radix2 (-10)). apply bpow_le. lia. Qed.
Lemma pow_hi4 : forall n, (n <= 4)%nat -> (1 + u53) ^ n <= 1 + 5 * u53.
Proof.
  intros n Hn. apply Rle_trans with ((1 + u53) ^ 4).
  - apply Rle_pow; [pose proof u53_pos; lra|exact Hn].
  - pose proof u53_pos. pose proof u_small. nra.
Qed.
Lemma pow_lo7 : forall n, (n <= 7)%nat -> 1 - 7 * u53 <= (1 - u53) ^ n.
Proof.
  intros n Hn. pose proof u53_pos as U. pose proof u_small as U'.
  assert (G : forall k, 1 - INR k * u53 <= (1 - u53) ^ k).
  { induction k as [|k IH]; [cbn; lra|]. rewrite S_INR. cbn [pow].
    pose proof (pos_INR k). assert (0 <= INR k * (u53 * u53)) by (repeat apply Rmult_le_pos; lra).
    pose proof (Rmult_le_compat_l (1 - u53) _ _ ltac:(lra) IH). nra. }
  eapply Rle_trans; [|apply G]. assert (INR n <= 7) by (apply (le_INR n 7) in Hn; cbn in Hn; lra). nra.
Qed.
Lemma arr_sound_short : forall (g r : list f64) tol, g <> [] -> (length g <= 3)%nat -> length g = length r ->
  fin tol = true -> bpow radix2 (-900) <= norm2 r <= bpow radix2 1022 ->
  nearlyEquals_arr g r tol = true ->
  dist2 g r <= (1 + bpow radix2 (-49)) * (b2r tol * b2r tol + bpow radix2 (-160)) * norm2 r.
Proof.
  intros g r tol Hn Hl HL Ht [B1 B2] E.
  pose proof u53_pos as U. pose proof u_small as U'. pose proof eta_pos as He.
  assert (N3 : 1 <= INR (length g) <= 3).
  { split; [apply (le_INR 1 (length g)); destruct g; [congruence|cbn; lia]|apply (le_INR _ 3) in Hl; cbn in Hl; lra]. }
  assert (HR : (1 + u53) ^ (length g + 1) <= 1 + 5 * u53) by (apply pow_hi4; lia).
  assert (HR' : (1 + u53) ^ length g <= 1 + 5 * u53) by (apply pow_hi4; lia).
  pose proof (pow2 (length g)) as P1. pose proof (pow2 (length g + 1)) as P2.
  assert (HE : eta <= bpow radix2 (-175) * norm2 r).
  { replace eta with (bpow radix2 (-175) * bpow radix2 (-900)) by (rewrite <- bpow_plus; reflexivity).
    apply Rmult_le_compat_l; [apply bpow_ge_0|exact B1]. }
  assert (HE' : INR (length g) * (1 + u53) ^ length g * eta <= 4 * eta).
  { apply Rmult_le_compat_r; [lra|]. nra. }
  set (N := norm2 r) in *. pose proof (norm2_pos r) as HN. fold N in HN.
  assert (E175 : bpow radix2 (-175) = bpow radix2 (-160) * / 32768).
  { change (/32768) with (bpow radix2 (-15)). rewrite <- bpow_plus. reflexivity. }
  assert (E160 : 0 < bpow radix2 (-160) <= u53).
  { split; [apply bpow_gt_0|apply bpow_le; lia]. }
  assert (E49 : bpow radix2 (-49) = 16 * u53).
  { unfold u53. change 16 with (bpow radix2 4). rewrite <- bpow_plus. reflexivity. }
  rewrite E175 in HE. rewrite E49. set (z := bpow radix2 (-160)) in *.
  assert (Hhi : (1 + u53) ^ (length g + 1) * N + INR (length g) * (1 + u53) ^ length g * eta <= (1 + 6 * u53) * N).
  { apply Rle_trans with ((1 + 5 * u53) * N + 4 * eta); [apply Rplus_le_compat; [apply Rmult_le_compat_r; lra|exact HE']|].
    assert (4 * (z * / 32768 * N) <= u53 * N); [|lra].
    replace (4 * (z * / 32768 * N)) with ((z * / 8192) * N) by field. apply Rmult_le_compat_r; lra. }
  apply arr_sound in E; auto.
  2:{ eapply Rle_trans; [exact Hhi|]. apply Rle_trans with (2 * N); [nra|]. replace (bpow radix2 1023) with (2 * bpow radix2 1022); [lra|]. change 2 with (bpow radix2 1). rewrite <- bpow_plus. reflexivity. }
  destruct E as (_ & _ & _ & E).
  assert (NF : ~ Forall (fun v => b2r v * b2r v <= eta) r).
  { intros F. assert (K : norm2 r <= INR (length r) * eta).
    { clear - F He. induction F as [|v l Hv Hl IH]; [unfold norm2; cbn [fold_right length INR]; lra|]. rewrite norm2_cons. cbn [length]. rewrite S_INR. lra. }
    rewrite <- HL in K. fold N in K. assert (N <= 3 * eta) by nra.
    assert (0 < bpow radix2 (-900)) by apply bpow_gt_0.
    assert (3 * (z * / 32768 * N) < N); [|lra].
    replace (3 * (z * / 32768 * N)) with ((3 * (z * / 32768)) * N) by ring.
    rewrite <- (Rmult_1_l N) at 2. apply Rmult_lt_compat_r; lra. }
  specialize (E NF). fold N in E.
  set (T := b2r tol * b2r tol) in *. assert (HT : 0 <= T) by apply sq_pos.
  pose proof (dist2_pos g r) as DP. set (D := dist2 g r) in *.
  assert (E1 : (1 - 7 * u53) * D <= (T + eta) * ((1 + 6 * u53) * N) + 3 * eta).
  { apply Rle_trans with ((1 - u53) ^ (length g + 4) * D).
    - apply Rmult_le_compat_r; [exact DP|]. apply pow_lo7. lia.
    - eapply Rle_trans; [exact E|]. apply Rplus_le_compat; [apply Rmult_le_compat_l; lra|apply Rmult_le_compat_r; lra]. }
  (* eta <= z/32768 N and N eta <= ... : absorb *)
  assert (Heta : eta <= z * / 32768).
  { unfold eta. replace (z * / 32768) with (bpow radix2 (-175)) by exact E175. apply bpow_le. lia. }
  assert (E2 : (T + eta) * ((1 + 6 * u53) * N) + 3 * eta <= (1 + 6 * u53) * (T + z * / 2048) * N).
  { assert (K1 : (T + eta) * ((1 + 6 * u53) * N) <= (T + z * / 32768) * ((1 + 6 * u53) * N)).
    { apply Rmult_le_compat_r; [apply Rmult_le_pos; lra|lra]. }
    assert (K2 : 3 * eta <= 3 * (z * / 32768) * ((1 + 6 * u53) * N)).
    { apply Rle_trans with (3 * (z * / 32768 * N)); [lra|]. 
      assert (0 <= z * / 32768 * (6 * u53 * N)) by (repeat apply Rmult_le_pos; lra). lra. }
    assert (K3 : 0 <= z * / 4096 * ((1 + 6 * u53) * N)) by (repeat apply Rmult_le_pos; lra). lra. }
  assert (E3 : (1 - 7 * u53) * D <= (1 - 7 * u53) * ((1 + 16 * u53) * (T + z) * N)).
  { eapply Rle_trans; [exact E1|]. eapply Rle_trans; [exact E2|].
    rewrite <- !Rmult_assoc. apply Rmult_le_compat_r; [exact HN|].
    apply Rmult_le_compat; try lra. nra. }
  apply Rmult_le_reg_l in E3; lra.
Qed.

(** ** Objects *)
Lemma grades_slices : forall t (x : val f64 t), grades t x = map (slice (elems t x)) (slices t).
Proof. intros t x; destruct t; dvs; reflexivity. Qed.
Lemma slice_shape : forall t (x : val f64 t) p, In p (slices t) ->
  slice (elems t x) p <> [] /\ length (slice (elems t x) p) = snd p /\ (snd p <= 3)%nat.
Proof.
  intros t x p Hp. destruct t; dvs; cbn in Hp; repeat (destruct Hp as [<-|Hp]; [cbn; repeat split; try lia; discriminate|]); contradiction.
Qed.
Lemma all2_map : forall A B (f : B -> B -> bool) (u v : A -> B) l,
  all2 f (map u l) (map v l) = true <-> Forall (fun p => f (u p) (v p) = true) l.
Proof.
  intros A B f u v l. induction l as [|p l IH]; cbn; [split; auto|].
  rewrite andb_true_iff, IH. split; [intros [? ?]; constructor; auto|intros H; inversion H; auto].
Qed.
Lemma object_slices : forall t (x y : val f64 t) tol, t <> TDub ->
  (nearlyEquals t x y tol = true <->
   Forall (fun p => nearlyEquals_arr (slice (elems t x) p) (slice (elems t y) p) tol = true) (slices t)).
Proof. intros t x y tol Ht. rewrite nearly_grades by exact Ht. rewrite !grades_slices, all2_map. reflexivity. Qed.
Lemma object_sound : forall t (x y : val f64 t) tol, t <> TDub -> fin tol = true ->
  nearlyEquals t x y tol = true ->
  Forall (fun p => let g := slice (elems t x) p in let r := slice (elems t y) p in
    bpow radix2 (-900) <= norm2 r <= bpow radix2 1022 ->
    dist2 g r <= (1 + bpow radix2 (-49)) * (b2r tol * b2r tol + bpow radix2 (-160)) * norm2 r) (slices t).
Proof.
  intros t x y tol Ht Hf E. apply object_slices in E; auto. rewrite Forall_forall in *. intros p Hp. cbv zeta. intros B.
  destruct (slice_shape t x p Hp) as (N & L & S). destruct (slice_shape t y p Hp) as (_ & L2 & _).
  apply arr_sound_short; auto; congruence.
Qed.

(** ** Overflow of the squared length *)
Definition bigx : f64 := f64_lit 5 509.
Lemma bigx_ok : fin bigx = true /\ b2r bigx = 5 * bpow radix2 509.
Proof.
  destruct (lit_exact 5 509) as [A B].
  - apply generic_format_F2R. intros _. unfold cexp, F2R. cbn [Fnum Fexp].
    rewrite mag_mult_bpow by lra. rewrite (mag_unique radix2 5 3).
    + unfold SpecFloat.fexp, SpecFloat.emin. lia.
    + rewrite Rabs_pos_eq by lra. cbn. lra.
  - unfold F2R. cbn [Fnum Fexp]. rewrite Rabs_pos_eq by (apply Rmult_le_pos; [lra|apply bpow_ge_0]).
    apply Rlt_trans with (bpow radix2 3 * bpow radix2 509); [apply Rmult_lt_compat_r; [apply bpow_gt_0|cbn; lra]|].
    rewrite <- bpow_plus. apply bpow_lt. lia.
  - split; auto.
Qed.
Lemma arr_zero_ratio : forall (g r : list f64) tol, isValid_arr g && isValid_arr r = true ->
  nltb (nsqrt (inner_product r r (B754_zero false : f64))) (lim_min : f64) = false ->
  B2SF (nsqrt (ndiv (sumSqDif g r (B754_zero false : f64)) (inner_product r r (B754_zero false : f64))) : f64) = B2SF (B754_zero false : f64) ->
  Bltb (B754_zero false) tol = true -> nearlyEquals_arr g r tol = true.
Proof.
  intros g r tol V A Q Ht. unfold nearlyEquals_arr. rewrite V. cbv zeta. change (nzero : f64) with (B754_zero false : f64). rewrite A. apply B2SF_inj in Q. rewrite Q. exact Ht.
Qed.
Lemma overflow_true : forall tol : f64, Bltb (B754_zero false) tol = true ->
  nearlyEquals TVec (Vec (B754_zero false) bigx bigx) (Vec bigx bigx bigx) tol = true.
Proof.
  intros tol Ht. apply (arr_zero_ratio [(B754_zero false : f64); bigx; bigx] [bigx; bigx; bigx]);
    [vm_compute; reflexivity|vm_compute; reflexivity|vm_compute; reflexivity|exact Ht].
Qed.
Lemma overflow_ratio :
  3 * dist2 [B754_zero false : f64; bigx; bigx] [bigx; bigx; bigx] = norm2 [bigx; bigx; bigx].
Proof. unfold dist2, norm2. cbn [combine fold_right fst snd B2R]. ring. Qed.
Lemma bigx_valid : valid_number bigx.
Proof. apply isValid_number. vm_compute. reflexivity. Qed.

(** ** operator== *)
Lemma ieee : forall x y : f64, Beqb x y = true <-> ieee_equal x y.
Proof.
  intros x y. rewrite beqb_cases. unfold ieee_equal.
  assert (Z : forall v : f64, fin v = true /\ b2r v = 0 <-> exists s, v = B754_zero s).
  { intros v. split.
    - intros [F E]. destruct v as [s|s| |s m e H]; try discriminate; [exists s; reflexivity|].
      exfalso. cbn in E. apply eq_0_F2R in E. destruct s; discriminate E.
    - intros [s ->]. split; reflexivity. }
  split; intros [H|H]; auto; right.
  - destruct (proj1 (Z x)) as [s ->]; [tauto|]. destruct (proj1 (Z y)) as [s' ->]; [tauto|]. eauto.
  - destruct H as (s & s' & -> & ->). repeat split.
Qed.
Lemma eqeq_spec : forall t f (x y : val f64 t), eqeq t = Some f ->
  (f x y = true <-> Forall2 ieee_equal (elems t x) (elems t y)).
Proof.
  intros t f x y E. rewrite (eqeq_elems t f) by exact E. rewrite all2_spec.
  split; intros H; (induction H; constructor; [apply ieee|]; assumption).
Qed.
Lemma ieee_sym : forall x y, ieee_equal x y -> ieee_equal y x.
Proof. intros x y [[N <-]|(s & s' & -> & ->)]; [left; auto|right; eauto]. Qed.
Lemma ieee_trans : forall x y z, ieee_equal x y -> ieee_equal y z -> ieee_equal x z.
Proof.
  intros x y z [[N <-]|(s & s' & -> & ->)] H; auto.
  destruct H as [[_ <-]|(s1 & s2 & _ & ->)]; right; eauto.
Qed.
Lemma ieee_refl : forall x, ieee_equal x x <-> is_nan x = false.
Proof. intros x. split; [intros [[N _]|(s & s' & -> & _)]; auto|intros N; left; auto]. Qed.
Lemma forall2_sym : forall l m, Forall2 ieee_equal l m -> Forall2 ieee_equal m l.
Proof. intros l m H. induction H; constructor; auto using ieee_sym. Qed.
Lemma forall2_trans : forall l m n, Forall2 ieee_equal l m -> Forall2 ieee_equal m n -> Forall2 ieee_equal l n.
Proof.
  intros l m n H. revert n. induction H; intros n K; inversion K; subst; constructor; eauto using ieee_trans.
Qed.
Lemma forall2_refl : forall l, Forall2 ieee_equal l l <-> Forall (fun v => is_nan v = false) l.
Proof.
  induction l as [|v l IH]; split; intros H; constructor; inversion H; subst; try (apply ieee_refl; assumption); tauto.
Qed.
Lemma eqeq_sym : forall t f (x y : val f64 t), eqeq t = Some f -> f x y = f y x.
Proof.
  intros t f x y E. apply eq_true_iff_eq. rewrite !(eqeq_spec t f) by exact E. split; apply forall2_sym.
Qed.
Lemma eqeq_trans : forall t f (x y z : val f64 t), eqeq t = Some f -> f x y = true -> f y z = true -> f x z = true.
Proof. intros t f x y z E. rewrite !(eqeq_spec t f) by exact E. apply forall2_trans. Qed.
Lemma eqeq_refl : forall t f (x : val f64 t), eqeq t = Some f ->
  (f x x = true <-> Forall (fun v => is_nan v = false) (elems t x)).
Proof. intros t f x E. rewrite !(eqeq_spec t f) by exact E. apply forall2_refl. Qed.

(** ** Statements about a single number *)
Lemma rel_asym :
  nearlyEqualsRel (f64_lit 1 0) (f64_lit 1 1) (f64_lit 3 (-2)) = true /\
  nearlyEqualsRel (f64_lit 1 1) (f64_lit 1 0) (f64_lit 3 (-2)) = false.
Proof. split; vm_compute; reflexivity. Qed.
