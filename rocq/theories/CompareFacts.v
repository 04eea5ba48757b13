(** * Comparisons on binary64: proofs. *)

Require Import Reals ZArith List Bool Lra Lia.
From Flocq Require Import Core BinarySingleNaN.
Require Import Verif.Num Verif.Types Verif.Priv Verif.Const Verif.Validity Verif.Compare
  Verif.Rel Verif.B64 Verif.B64Facts Verif.SpecCl Verif.SpecValid Verif.ValidFacts Verif.NullFacts.
Import ListNotations.
Local Open Scope R_scope.

Notation pinf := (B754_infinity false : f64).

(** ** |x| < tol *)
Lemma small_fin : forall v tol : f64, isSmallAbs v tol = true -> fin v = true.
Proof.
  intros [s|s| |s m e H] tol E; try reflexivity; exfalso; revert E; unfold isSmallAbs; cbn.
  - destruct tol as [[]|[]| |[] ? ? ?]; discriminate.
  - discriminate.
Qed.
Lemma small_real : forall v tol : f64, fin tol = true ->
  (isSmallAbs v tol = true <-> fin v = true /\ Rabs (b2r v) < b2r tol).
Proof.
  intros v tol Ht. split.
  - intros E. pose proof (small_fin v tol E) as Hv. split; auto.
    unfold isSmallAbs in E. change (Bltb (Babs v) tol = true) in E.
    rewrite Bltb_correct in E by (try rewrite is_finite_Babs; auto).
    rewrite B2R_Babs in E.
    destruct (Rlt_bool_spec (Rabs (b2r v)) (b2r tol)); [assumption|discriminate].
  - intros [Hv E]. unfold isSmallAbs. change (Bltb (Babs v) tol = true).
    rewrite Bltb_correct by (try rewrite is_finite_Babs; auto).
    rewrite B2R_Babs. apply Rlt_bool_true. exact E.
Qed.
Lemma small_pinf : forall v, fin v = true -> isSmallAbs v pinf = true.
Proof. intros [[]|s| |[] m e H] E; try discriminate E; reflexivity. Qed.
Lemma small_zero : forall tol : f64, isSmallAbs (B754_zero false) tol = Bltb (B754_zero false) tol.
Proof. reflexivity. Qed.
Lemma small_pos : forall v tol : f64, isSmallAbs v tol = true -> Bltb (B754_zero false) tol = true.
Proof.
  intros v tol E. unfold isSmallAbs in E. change (Bltb (Babs v) tol = true) in E.
  destruct tol as [[]|[]| |[] mt et Ht]; try reflexivity; exfalso;
    destruct v as [s|s| |s m e H]; discriminate E.
Qed.

(** ** Differences *)
Lemma sub_self : forall x : f64, fin x = true -> Bminus mode_NE x x = B754_zero false.
Proof.
  intros x Hx. pose proof (bminus_ok x x Hx Hx) as C.
  replace (b2r x - b2r x) with 0 in C by ring. rewrite round_0 in C by apply valid_rnd_N.
  rewrite Rabs_R0 in C. destruct (C (bpow_gt_0 _ _)) as [Hf Hr].
  apply B2R_Bsign_inj; auto. pose proof (Bminus_correct 53 1024 _ _ mode_NE x x Hx Hx) as S.
  replace (b2r x - b2r x) with 0 in S by ring. rewrite round_0 in S by apply valid_rnd_N.
  rewrite Rabs_R0, Rlt_bool_true in S by apply bpow_gt_0. destruct S as (_ & _ & S).
  rewrite Rcompare_Eq in S by reflexivity. rewrite S. destruct (Bsign x); reflexivity.
Qed.

Lemma abs_sub_sym : forall x y : f64, Babs (Bminus mode_NE x y) = Babs (Bminus mode_NE y x).
Proof.
  intros x y.
  destruct (fin x) eqn:Fx; [destruct (fin y) eqn:Fy|].
  - pose proof (Bminus_correct 53 1024 _ _ mode_NE x y Fx Fy) as A.
    pose proof (Bminus_correct 53 1024 _ _ mode_NE y x Fy Fx) as B.
    replace (b2r y - b2r x) with (- (b2r x - b2r y)) in B by ring.
    rewrite round_NE_opp, Rabs_Ropp in B.
    change (round_mode mode_NE) with (Znearest (fun x => negb (Z.even x))) in *.
    destruct (Rlt_bool _ _).
    + destruct A as (A1 & A2 & _), B as (B1 & B2 & _).
      apply B2R_Bsign_inj; rewrite ?is_finite_Babs, ?B2R_Babs; auto.
      * rewrite A1, B1, Rabs_Ropp. reflexivity.
      * rewrite !Bsign_Babs; auto; rewrite <- ?B2; destruct (Bminus _ _ _); try reflexivity; discriminate.
    + destruct A as (A & _), B as (B & _).
      assert (H : forall z s, B2SF z = binary_overflow 53 1024 mode_NE s -> Babs z = pinf).
      { intros [s|s| |s m e H] s'; cbn; intros E; try discriminate E. reflexivity. }
      rewrite (H _ _ A), (H _ _ B). reflexivity.
  - destruct x as [s|s| |s m e H], y as [s'|s'| |s' m' e' H']; try discriminate; reflexivity.
  - destruct x as [s|s| |s m e H], y as [s'|s'| |s' m' e' H']; try discriminate; try reflexivity.
    destruct s, s'; reflexivity.
Qed.

Lemma diff_sym : forall a b tol : f64, isSmallAbsDiff a b tol = isSmallAbsDiff b a tol.
Proof.
  intros a b tol. unfold isSmallAbsDiff, isSmallAbs. cbv zeta.
  change (Bltb (Babs (Bminus mode_NE a b)) tol = Bltb (Babs (Bminus mode_NE b a)) tol).
  rewrite abs_sub_sym. reflexivity.
Qed.
Lemma diff_refl : forall a tol : f64, fin a = true -> Bltb (B754_zero false) tol = true ->
  isSmallAbsDiff a a tol = true.
Proof.
  intros a tol Ha Ht. unfold isSmallAbsDiff. cbv zeta.
  change (nsub a a) with (Bminus mode_NE a a). rewrite sub_self by exact Ha. exact Ht.
Qed.
Lemma diff_sound : forall a b tol : f64, fin tol = true -> isSmallAbsDiff a b tol = true ->
  fin a = true /\ fin b = true /\ Rabs (b2r a - b2r b) < b2r tol.
Proof.
  intros a b tol Ht E. unfold isSmallAbsDiff in E. cbv zeta in E.
  apply small_real in E; auto. destruct E as [Hf Hl].
  change (nsub a b) with (Bminus mode_NE a b) in *. apply bminus_fin in Hf.
  destruct Hf as (Ha & Hb & Hr). repeat split; auto. rewrite Hr in Hl.
  destruct (Rlt_le_dec (Rabs (b2r a - b2r b)) (b2r tol)) as [L|L]; auto. exfalso.
  apply rnd_mono in L. rewrite rnd_id in L.
  assert (E : rnd64 (Rabs (b2r a - b2r b)) = Rabs (rnd64 (b2r a - b2r b))).
  { unfold Rabs at 1. destruct (Rcase_abs (b2r a - b2r b)) as [C|C].
    - rewrite rnd_opp. rewrite Rabs_left1; auto.
      rewrite <- (round_0 radix2 fexp64 (Znearest (fun x => negb (Z.even x)))). apply rnd_mono. lra.
    - rewrite Rabs_right; auto. apply Rle_ge.
      rewrite <- (round_0 radix2 fexp64 (Znearest (fun x => negb (Z.even x)))). apply rnd_mono. lra. }
  rewrite E in L. lra.
Qed.
Lemma rnd_abs_le : forall r (t : f64), Rabs r <= b2r t -> Rabs (rnd64 r) <= b2r t.
Proof.
  intros r t H. rewrite <- (rnd_id t). apply Rabs_le_inv in H. apply Rabs_le.
  split; [rewrite <- rnd_opp|]; apply rnd_mono; lra.
Qed.
Lemma b2r_lt_emax : forall t : f64, Rabs (b2r t) < bpow radix2 1024.
Proof. intros t. apply abs_B2R_lt_emax. Qed.
Lemma diff_complete : forall a b tol t' : f64, fin a = true -> fin b = true -> fin tol = true ->
  Rabs (b2r a - b2r b) <= b2r t' -> b2r t' < b2r tol -> isSmallAbsDiff a b tol = true.
Proof.
  intros a b tol t' Ha Hb Ht H1 H2. apply small_real; auto. apply rnd_abs_le in H1.
  assert (B : Rabs (rnd64 (b2r a - b2r b)) < bpow radix2 1024).
  { eapply Rle_lt_trans; [exact H1|]. eapply Rle_lt_trans; [apply Rle_abs|apply b2r_lt_emax]. }
  destruct (bminus_ok a b Ha Hb B) as [Hf Hr].
  change (nsub a b) with (Bminus mode_NE a b). split; auto. rewrite Hr. lra.
Qed.

(** ** nearlyEqualsAbs *)
Lemma valid_fin : forall x, valid_number x -> fin x = true.
Proof. intros x [H _]; exact H. Qed.
Lemma both_valid : forall a b : f64, bothAreValid a b = true <-> valid_number a /\ valid_number b.
Proof. intros a b. unfold bothAreValid. rewrite andb_true_iff, !isValid_number. tauto. Qed.
Lemma abs_unfold : forall a b tol : f64, nearlyEqualsAbs a b tol = true <->
  valid_number a /\ valid_number b /\ isSmallAbsDiff a b tol = true.
Proof.
  intros a b tol. unfold nearlyEqualsAbs. destruct (bothAreValid a b) eqn:E.
  - apply both_valid in E. tauto.
  - split; [discriminate|]. intros (A & B & _). assert (bothAreValid a b = true) by (apply both_valid; auto). congruence.
Qed.
Lemma abs_sound : forall a b tol : f64, fin tol = true -> nearlyEqualsAbs a b tol = true ->
  valid_number a /\ valid_number b /\ Rabs (b2r a - b2r b) < b2r tol.
Proof.
  intros a b tol Ht E. apply abs_unfold in E. destruct E as (A & B & E).
  repeat split; try apply A; try apply B. apply diff_sound in E; tauto.
Qed.
Lemma abs_sym : forall a b tol : f64, nearlyEqualsAbs a b tol = nearlyEqualsAbs b a tol.
Proof.
  intros a b tol. unfold nearlyEqualsAbs, bothAreValid. rewrite andb_comm, diff_sym. reflexivity.
Qed.
Lemma abs_refl : forall a tol : f64, valid_number a -> Bltb (B754_zero false) tol = true ->
  nearlyEqualsAbs a a tol = true.
Proof. intros a tol Ha Ht. apply abs_unfold. auto using diff_refl, valid_fin. Qed.
Lemma abs_complete : forall a b tol t' : f64, valid_number a -> valid_number b -> fin tol = true ->
  Rabs (b2r a - b2r b) <= b2r t' -> b2r t' < b2r tol -> nearlyEqualsAbs a b tol = true.
Proof.
  intros a b tol t' Ha Hb Ht H1 H2. apply abs_unfold. repeat split; try apply Ha; try apply Hb.
  eapply diff_complete; eauto using valid_fin.
Qed.

(** ** nearlyEqualsRel *)
Lemma tolToZero_lit : (tolToZero : f64) = f64_lit 1 (-970).
Proof. apply B2SF_inj. vm_compute. reflexivity. Qed.
Lemma pow_lit : forall e, (-1022 <= e < 1024)%Z -> fin (f64_lit 1 e) = true /\ b2r (f64_lit 1 e) = bpow radix2 e.
Proof.
  intros e He. assert (E : F2R (Float radix2 1 e) = bpow radix2 e) by (unfold F2R; cbn [Fnum Fexp]; ring).
  destruct (lit_exact 1 e) as [A B].
  - rewrite E. apply generic_format_bpow. unfold SpecFloat.fexp, SpecFloat.emin. lia.
  - rewrite E. rewrite Rabs_pos_eq by apply bpow_ge_0. apply bpow_lt. lia.
  - split; auto. rewrite B. ring.
Qed.
Lemma tolToZero_ok : fin (tolToZero : f64) = true /\ b2r (tolToZero : f64) = bpow radix2 (-970).
Proof. rewrite tolToZero_lit. apply pow_lit. lia. Qed.

Lemma rel_unfold : forall a b tol : f64, nearlyEqualsRel a b tol = true <->
  valid_number a /\ valid_number b /\
  ((Rabs (b2r b) < bpow radix2 (-970) /\ isSmallAbsDiff a b tol = true) \/
   (bpow radix2 (-970) <= Rabs (b2r b) /\ isSmallAbsDiff (F:=f64) (Bdiv mode_NE a b) none_ tol = true)).
Proof.
  intros a b tol. unfold nearlyEqualsRel. destruct (bothAreValid a b) eqn:E.
  - apply both_valid in E. destruct E as [Ha Hb].
    change (nltb (nabs b) tolToZero) with (Bltb (Babs b) (tolToZero : f64)).
    rewrite Bltb_correct; [|rewrite is_finite_Babs; apply valid_fin, Hb|apply tolToZero_ok].
    rewrite B2R_Babs, (proj2 tolToZero_ok).
    destruct (Rlt_bool_spec (Rabs (b2r b)) (bpow radix2 (-970))) as [L|L].
    + split; [intros H; auto|]. intros (_ & _ & [[_ H]|[H _]]); auto. lra.
    + split; [intros H; auto|]. intros (_ & _ & [[H _]|[_ H]]); auto. lra.
  - split; [discriminate|]. intros (A & B & _). assert (bothAreValid a b = true) by (apply both_valid; auto). congruence.
Qed.
Lemma div_fin : forall a b : f64, b2r b <> 0 -> fin (Bdiv mode_NE a b) = true ->
  b2r (Bdiv mode_NE a b) = rnd64 (b2r a / b2r b).
Proof.
  intros a b Hb H. pose proof (Bdiv_correct 53 1024 _ _ mode_NE a b Hb) as C.
  destruct (Rlt_bool _ _); [apply C|]. apply sf_overflow_fin in C. congruence.
Qed.
Lemma big_nonzero : forall b : f64, bpow radix2 (-970) <= Rabs (b2r b) -> b2r b <> 0.
Proof.
  intros b H E. rewrite E, Rabs_R0 in H. pose proof (bpow_gt_0 radix2 (-970)). lra.
Qed.
Lemma rel_sound : forall a b tol : f64, fin tol = true -> nearlyEqualsRel a b tol = true ->
  valid_number a /\ valid_number b /\
  (Rabs (b2r b) < bpow radix2 (-970) -> Rabs (b2r a - b2r b) < b2r tol) /\
  (bpow radix2 (-970) <= Rabs (b2r b) ->
     Rabs (b2r a / b2r b - 1) < b2r tol + u53 * Rabs (b2r a / b2r b) + eta).
Proof.
  intros a b tol Ht E. apply rel_unfold in E. destruct E as (A & B & E).
  split; [exact A|split; [exact B|]]. split; intros L; destruct E as [[L' E]|[L' E]]; try lra.
  - apply diff_sound in E; tauto.
  - apply diff_sound in E; auto. destruct E as (Hq & _ & E).
    rewrite (proj2 one_ok) in E. rewrite (div_fin a b (big_nonzero b L) Hq) in E.
    pose proof (err_any (b2r a / b2r b)) as Er.
    replace (b2r a / b2r b - 1) with (rnd64 (b2r a / b2r b) - 1 - (rnd64 (b2r a / b2r b) - b2r a / b2r b)) by ring.
    eapply Rle_lt_trans; [apply Rabs_triang|]. rewrite Rabs_Ropp. lra.
Qed.
Lemma max_bound : forall t : f64, Rabs (b2r t) <= bpow radix2 1024 - bpow radix2 971.
Proof. intros t. exact (abs_B2R_le_emax_minus_prec 53 1024 _ t). Qed.
Lemma rel_complete : forall a b tol t' : f64, valid_number a -> valid_number b -> fin tol = true ->
  bpow radix2 (-970) <= Rabs (b2r b) ->
  Rabs (b2r a / b2r b - 1) + u53 * Rabs (b2r a / b2r b) + eta <= b2r t' -> b2r t' < b2r tol ->
  nearlyEqualsRel a b tol = true.
Proof.
  intros a b tol t' Ha Hb Ht L H1 H2. apply rel_unfold. split; [exact Ha|split; [exact Hb|]]. right. split; auto.
  pose proof (big_nonzero b L) as Nb. set (q := b2r a / b2r b) in *.
  pose proof (err_any q) as Er.
  assert (D1 : Rabs (rnd64 q - 1) <= b2r t').
  { replace (rnd64 q - 1) with ((rnd64 q - q) + (q - 1)) by ring.
    eapply Rle_trans; [apply Rabs_triang|]. lra. }
  assert (O : Rabs (rnd64 q) < bpow radix2 1024).
  { replace (rnd64 q) with ((rnd64 q - 1) + 1) by ring. eapply Rle_lt_trans; [apply Rabs_triang|].
    rewrite Rabs_R1. pose proof (max_bound t') as M. pose proof (Rle_abs (b2r t')).
    assert (1 < bpow radix2 971) by (apply (bpow_lt radix2 0 971); reflexivity). lra. }
  pose proof (Bdiv_correct 53 1024 _ _ mode_NE a b Nb) as C.
  rewrite Rlt_bool_true in C by exact O. destruct C as (C & F & _).
  apply (diff_complete _ _ tol t').
  - rewrite F. apply valid_fin, Ha.
  - apply one_ok.
  - exact Ht.
  - rewrite C, (proj2 one_ok). exact D1.
  - exact H2.
Qed.
Lemma div_self : forall a : f64, fin a = true -> b2r a <> 0 -> Bdiv mode_NE a a = (none_ : f64).
Proof.
  intros a Fa Na. pose proof (Bdiv_correct 53 1024 _ _ mode_NE a a Na) as C.
  replace (b2r a / b2r a) with (b2r (none_ : f64)) in C by (rewrite (proj2 one_ok); field; exact Na).
  change (round_mode mode_NE) with (Znearest (fun x => negb (Z.even x))) in C. rewrite rnd_id in C.
  rewrite Rlt_bool_true in C by apply b2r_lt_emax. destruct C as (C1 & C2 & C3).
  apply B2R_Bsign_inj.
  - rewrite C2. exact Fa.
  - apply one_ok.
  - exact C1.
  - rewrite C3, xorb_nilpotent; [reflexivity|]. rewrite Fa in C2. destruct (Bdiv mode_NE a a); try reflexivity; discriminate C2.
Qed.
Lemma rel_refl : forall a tol : f64, valid_number a -> Bltb (B754_zero false) tol = true ->
  nearlyEqualsRel a a tol = true.
Proof.
  intros a tol Ha Ht. apply rel_unfold. split; [exact Ha|split; [exact Ha|]].
  destruct (Rlt_le_dec (Rabs (b2r a)) (bpow radix2 (-970))) as [L|L]; [left|right]; split; auto.
  - apply diff_refl; auto using valid_fin.
  - rewrite div_self by auto using valid_fin, big_nonzero. apply diff_refl; auto.
Qed.
