(** * Facts about binary64 arithmetic (proofs only). *)

Require Import Reals ZArith Lra Lia Bool.
From Flocq Require Import Core BinarySingleNaN Relative Plus_error.
Require Import Verif.Num Verif.B64.
Local Open Scope R_scope.

Notation fexp64 := (SpecFloat.fexp 53 1024).
Notation rnd64 := (round radix2 fexp64 (Znearest (fun x => negb (Z.even x)))).
Notation b2r := (@B2R 53 1024).
Notation fin := (@is_finite 53 1024).
Definition u53 : R := bpow radix2 (-53).
Definition eta : R := bpow radix2 (-1075).

Lemma u53_pos : 0 < u53. Proof. apply bpow_gt_0. Qed.
Lemma eta_pos : 0 < eta. Proof. apply bpow_gt_0. Qed.

(** ** Commutativity *)
Lemma bplus_comm : forall x y : f64, Bplus mode_NE x y = Bplus mode_NE y x.
Proof.
  intros [s|s| |s m e H] [s'|s'| |s' m' e' H']; try reflexivity.
  - destruct s, s'; reflexivity.
  - destruct s, s'; reflexivity.
  - cbn [Bplus]. rewrite (Z.min_comm e e'). f_equal. unfold Fplus_naive.
    apply Z.add_comm.
Qed.
Lemma bmult_comm : forall x y : f64, Bmult mode_NE x y = Bmult mode_NE y x.
Proof.
  intros [s|s| |s m e H] [s'|s'| |s' m' e' H']; try reflexivity;
    cbn [Bmult]; try (rewrite (xorb_comm s s'); reflexivity).
  apply B2SF_inj. rewrite !B2SF_SF2B.
  rewrite (xorb_comm s s'), (Pos.mul_comm m m'), (Z.add_comm e e'). reflexivity.
Qed.
Lemma bminus_opp : forall x y : f64, Bminus mode_NE x y = Bplus mode_NE x (Bopp y).
Proof. intros [s|s| |s m e H] [s'|s'| |s' m' e' H']; reflexivity. Qed.

(** ** NaN *)
Lemma nan_iff : forall x : f64, is_nan x = true <-> x = B754_nan.
Proof. intros [s|s| |s m e H]; cbn; split; intros; congruence. Qed.
Lemma bplus_nan_l : forall x y : f64, is_nan x = true -> is_nan (Bplus mode_NE x y) = true.
Proof. intros [s|s| |s m e H] [s'|s'| |s' m' e' H'] E; try discriminate E; reflexivity. Qed.
Lemma bplus_nan_r : forall x y : f64, is_nan y = true -> is_nan (Bplus mode_NE x y) = true.
Proof. intros x y. rewrite bplus_comm. apply bplus_nan_l. Qed.
Lemma bminus_nan_l : forall x y : f64, is_nan x = true -> is_nan (Bminus mode_NE x y) = true.
Proof. intros x y. rewrite bminus_opp. apply bplus_nan_l. Qed.
Lemma bminus_nan_r : forall x y : f64, is_nan y = true -> is_nan (Bminus mode_NE x y) = true.
Proof. intros x y Hy. rewrite bminus_opp. apply bplus_nan_r. rewrite is_nan_Bopp. exact Hy. Qed.
Lemma bmult_nan_l : forall x y : f64, is_nan x = true -> is_nan (Bmult mode_NE x y) = true.
Proof. intros [s|s| |s m e H] [s'|s'| |s' m' e' H'] E; try discriminate E; reflexivity. Qed.
Lemma bmult_nan_r : forall x y : f64, is_nan y = true -> is_nan (Bmult mode_NE x y) = true.
Proof. intros x y. rewrite bmult_comm. apply bmult_nan_l. Qed.
Lemma bdiv_nan_r : forall x y : f64, is_nan y = true -> is_nan (Bdiv mode_NE x y) = true.
Proof. intros [s|s| |s m e H] [s'|s'| |s' m' e' H'] E; try discriminate E; reflexivity. Qed.
Lemma bdiv_nan_l : forall x y : f64, is_nan x = true -> is_nan (Bdiv mode_NE x y) = true.
Proof. intros [s|s| |s m e H] [s'|s'| |s' m' e' H'] E; try discriminate E; reflexivity. Qed.

(** ** A finite result has finite operands and is correctly rounded *)
Lemma sf_overflow_fin : forall (z : f64) s, B2SF z = binary_overflow 53 1024 mode_NE s -> fin z = false.
Proof. intros [s|s| |s m e H] s'; cbn; congruence. Qed.

Lemma bplus_fin : forall x y : f64, fin (Bplus mode_NE x y) = true ->
  fin x = true /\ fin y = true /\ b2r (Bplus mode_NE x y) = rnd64 (b2r x + b2r y).
Proof.
  intros x y H.
  assert (Hf : fin x = true /\ fin y = true).
  { destruct x as [s|s| |s m e Hb], y as [s'|s'| |s' m' e' Hb'];
      try (split; reflexivity); try discriminate H; destruct s, s'; discriminate H. }
  destruct Hf as [Hx Hy]. repeat split; auto.
  pose proof (Bplus_correct 53 1024 _ _ mode_NE x y Hx Hy) as C.
  destruct (Rlt_bool _ _); [apply C|].
  destruct C as [C _]. apply sf_overflow_fin in C. congruence.
Qed.
Lemma bminus_fin : forall x y : f64, fin (Bminus mode_NE x y) = true ->
  fin x = true /\ fin y = true /\ b2r (Bminus mode_NE x y) = rnd64 (b2r x - b2r y).
Proof.
  intros x y. rewrite bminus_opp. intros H. apply bplus_fin in H.
  rewrite is_finite_Bopp, B2R_Bopp in H. exact H.
Qed.
Lemma bmult_fin : forall x y : f64, fin (Bmult mode_NE x y) = true ->
  fin x = true /\ fin y = true /\ b2r (Bmult mode_NE x y) = rnd64 (b2r x * b2r y).
Proof.
  intros x y H.
  pose proof (Bmult_correct 53 1024 _ _ mode_NE x y) as C.
  destruct (Rlt_bool _ _).
  - destruct C as (C & D & _). rewrite D in H. apply andb_prop in H. tauto.
  - apply sf_overflow_fin in C. congruence.
Qed.

(** ** No overflow below 2^1024 *)
Lemma bplus_ok : forall x y : f64, fin x = true -> fin y = true ->
  Rabs (rnd64 (b2r x + b2r y)) < bpow radix2 1024 ->
  fin (Bplus mode_NE x y) = true /\ b2r (Bplus mode_NE x y) = rnd64 (b2r x + b2r y).
Proof.
  intros x y Hx Hy H.
  pose proof (Bplus_correct 53 1024 _ _ mode_NE x y Hx Hy) as C.
  rewrite Rlt_bool_true in C by exact H. tauto.
Qed.
Lemma bminus_ok : forall x y : f64, fin x = true -> fin y = true ->
  Rabs (rnd64 (b2r x - b2r y)) < bpow radix2 1024 ->
  fin (Bminus mode_NE x y) = true /\ b2r (Bminus mode_NE x y) = rnd64 (b2r x - b2r y).
Proof.
  intros x y Hx Hy H. rewrite bminus_opp. unfold Rminus in *. rewrite <- (B2R_Bopp 53 1024 y) in *.
  apply bplus_ok; auto. rewrite is_finite_Bopp; auto.
Qed.
Lemma bmult_ok : forall x y : f64, fin x = true -> fin y = true ->
  Rabs (rnd64 (b2r x * b2r y)) < bpow radix2 1024 ->
  fin (Bmult mode_NE x y) = true /\ b2r (Bmult mode_NE x y) = rnd64 (b2r x * b2r y).
Proof.
  intros x y Hx Hy H.
  pose proof (Bmult_correct 53 1024 _ _ mode_NE x y) as C.
  rewrite Rlt_bool_true in C by exact H. rewrite Hx, Hy in C. tauto.
Qed.

(** ** Rounding errors *)
Lemma fexp64_FLT : forall e, fexp64 e = FLT_exp (-1074) 53 e.
Proof. reflexivity. Qed.

Lemma u_ro_53 : u_ro radix2 53 = u53.
Proof. unfold u_ro, u53. change (/2) with (bpow radix2 (-1)). rewrite <- bpow_plus. reflexivity. Qed.

Lemma err_plus : forall x y : f64,
  Rabs (rnd64 (b2r x + b2r y) - (b2r x + b2r y)) <= u53 * Rabs (b2r x + b2r y).
Proof.
  intros x y.
  destruct (FLT_plus_error_N_ex radix2 (-1074) 53 (fun x => negb (Z.even x)) (b2r x) (b2r y))
    as (eps & He & E); try apply generic_format_B2R.
  change (round radix2 (FLT_exp (-1074) 53)) with (round radix2 fexp64) in E.
  rewrite E. rewrite u_ro_53 in He.
  replace ((b2r x + b2r y) * (1 + eps) - (b2r x + b2r y)) with (eps * (b2r x + b2r y)) by ring.
  rewrite Rabs_mult. apply Rmult_le_compat_r; [apply Rabs_pos|].
  eapply Rle_trans; [exact He|]. pose proof u53_pos.
  apply Rle_trans with (u53 / 1); [|lra]. unfold Rdiv. apply Rmult_le_compat_l; [lra|].
  apply Rinv_le_contravar; lra.
Qed.
Lemma err_any : forall x : R, Rabs (rnd64 x - x) <= u53 * Rabs x + eta.
Proof.
  intros x.
  destruct (error_N_FLT radix2 (-1074) 53 ltac:(reflexivity) (fun x => negb (Z.even x)) x)
    as (eps & et & He & Ht & _ & E).
  change (round radix2 (FLT_exp (-1074) 53)) with (round radix2 fexp64) in E.
  rewrite E. replace (x * (1 + eps) + et - x) with (eps * x + et) by ring.
  eapply Rle_trans; [apply Rabs_triang|]. rewrite Rabs_mult.
  apply Rplus_le_compat.
  - apply Rmult_le_compat_r; [apply Rabs_pos|]. rewrite <- u_ro_53. exact He.
  - replace eta with (/2 * bpow radix2 (-1074)); [exact Ht|].
    unfold eta. change (/2) with (bpow radix2 (-1)). rewrite <- bpow_plus. reflexivity.
Qed.

(** Rounding does not move representable numbers and is monotone. *)
Lemma rnd_id : forall x : f64, rnd64 (b2r x) = b2r x.
Proof. intros x. apply round_generic; [apply valid_rnd_N|apply generic_format_B2R]. Qed.
Lemma rnd_mono : forall x y, x <= y -> rnd64 x <= rnd64 y.
Proof. intros x y H. apply round_le; auto; [apply fexp_correct; reflexivity|apply valid_rnd_N]. Qed.
Lemma rnd_opp : forall x, rnd64 (- x) = - rnd64 x.
Proof. intros x. apply round_NE_opp. Qed.

(** Integers up to 2^53 are representable. *)
Lemma int_format : forall n : Z, (Z.abs n <= 2 ^ 53)%Z -> generic_format radix2 fexp64 (IZR n).
Proof.
  intros n Hn. destruct (Z.eq_dec (Z.abs n) (2 ^ 53)) as [E|E].
  - assert (Hp : generic_format radix2 fexp64 (bpow radix2 53)).
    { apply generic_format_bpow. cbv; congruence. }
    destruct (Z.abs_eq_or_opp n) as [A|A]; rewrite A in E.
    + rewrite E. exact Hp.
    + replace n with (- 2 ^ 53)%Z by lia. rewrite opp_IZR. apply generic_format_opp. exact Hp.
  - apply generic_format_FLT. exists (Float radix2 n 0).
    + unfold F2R; cbn. ring.
    + cbn [Fnum]. change (Z.pow radix2 53) with (2 ^ 53)%Z. lia.
    + cbn. lia.
Qed.

(** Literals that need no rounding. *)
Lemma lit_exact : forall m e, generic_format radix2 fexp64 (F2R (Float radix2 m e)) ->
  Rabs (F2R (Float radix2 m e)) < bpow radix2 1024 ->
  fin (f64_lit m e) = true /\ b2r (f64_lit m e) = IZR m * bpow radix2 e.
Proof.
  intros m e Hg Hb. unfold f64_lit.
  pose proof (binary_normalize_correct 53 1024 _ _ mode_NE m e false) as C. cbn zeta in C.
  rewrite round_generic in C by (try apply valid_rnd_N; exact Hg).
  rewrite Rlt_bool_true in C by exact Hb. tauto.
Qed.
Lemma one_ok : fin (none_ : f64) = true /\ b2r (none_ : f64) = 1.
Proof.
  assert (H : F2R (Float radix2 1 0) = 1) by (unfold F2R; cbn; ring).
  destruct (lit_exact 1 0) as [A B].
  - rewrite H. apply (int_format 1). cbv; congruence.
  - rewrite H, Rabs_R1. apply (bpow_lt radix2 0 1024). reflexivity.
  - split; [exact A|]. change (b2r (f64_lit 1 0) = 1). rewrite B. cbn. ring.
Qed.

(** ** Validity *)
Lemma isnormal_spec : forall x : f64, f64_isnormal x = true <->
  fin x = true /\ bpow radix2 (-1022) <= Rabs (b2r x).
Proof.
  intros [s|s| |s m e H]; cbn [f64_isnormal is_finite];
    try (split; [discriminate|intros [H1 H2]; try discriminate; exfalso;
      cbn in H2; rewrite Rabs_R0 in H2; pose proof (bpow_gt_0 radix2 (-1022)); cbn in *; lra]).
  rewrite Z.leb_le. cbn [B2R]. rewrite <- F2R_Zabs, abs_cond_Zopp. cbn [Z.abs].
  pose proof H as Hb. unfold SpecFloat.bounded in Hb. apply andb_prop in Hb. destruct Hb as [Hc _].
  unfold SpecFloat.canonical_mantissa in Hc. apply Zeq_bool_eq in Hc.
  unfold SpecFloat.fexp, SpecFloat.emin in Hc. change (3 - 1024 - 53)%Z with (-1074)%Z in Hc.
  assert (Hd : Zpos (SpecFloat.digits2_pos m) = Zdigits radix2 (Zpos m)) by (rewrite Digits.Zpos_digits2_pos; reflexivity).
  rewrite Hd in Hc.
  split.
  - intros Hm. split; auto. 
    assert (53 <= Zdigits radix2 (Zpos m))%Z.
    { apply (Zdigits_le radix2 (2^52) (Zpos m)) in Hm; [|discriminate]. exact Hm. }
    assert (He : (-1074 <= e)%Z) by lia.
    apply Rle_trans with (F2R (Float radix2 (2 ^ 52) (-1074))).
    + unfold F2R. cbn [Fnum Fexp]. change (IZR (2^52)) with (bpow radix2 52). rewrite <- bpow_plus. apply Rle_refl.
    + apply Rle_trans with (F2R (Float radix2 (Zpos m) (-1074))).
      * apply F2R_le. exact Hm.
      * unfold F2R; cbn [Fnum Fexp]. apply Rmult_le_compat_l; [apply IZR_le; lia|]. apply bpow_le; exact He.
  - intros [_ Hv]. destruct (Z.lt_ge_cases (Zpos m) (2 ^ 52)) as [L|L]; auto. exfalso.
    assert (Hdl : (Zdigits radix2 (Zpos m) <= 52)%Z) by (apply Zdigits_le_Zpower; exact L).
    assert (He : e = (-1074)%Z) by lia. subst e.
    apply Rle_not_lt in Hv. apply Hv.
    unfold F2R; cbn [Fnum Fexp].
    replace (bpow radix2 (-1022)) with (IZR (2 ^ 52) * bpow radix2 (-1074)).
    + apply Rmult_lt_compat_r; [apply bpow_gt_0|]. apply IZR_lt. exact L.
    + change (IZR (2^52)) with (bpow radix2 52). rewrite <- bpow_plus. reflexivity.
Qed.
