(** * Products in any rounding mode, with or without fused operations: proofs. *)

Require Import Reals ZArith List Bool Lra Lia.
From Flocq Require Import Core Relative Plus_error BinarySingleNaN.
Require Import Verif.Num Verif.Types Verif.Priv Verif.OpsUni Verif.OpsAdd Verif.OpsSub
  Verif.OpsMul Verif.Const Verif.Func Verif.SpecCl Verif.RealInst Verif.AlgTac Verif.AlgMul Verif.AlgFacts Verif.SpecFunc Verif.FuncFacts Verif.Rel
  Verif.B64 Verif.B64Facts Verif.SpecRound Verif.ArrErr Verif.IntFacts Verif.ErrFacts Verif.BoundFacts Verif.AccFacts Verif.NormFacts Verif.SpecFma.
Import ListNotations.
Local Open Scope R_scope.

(** ** Rounding in any mode *)
Definition rm (m : mode) (v : R) : R := round radix2 fexp64 (round_mode m) v.
Lemma rm_le : forall m v e, (-1074 <= e)%Z -> Rabs v <= bpow radix2 e -> Rabs (rm m v) <= bpow radix2 e.
Proof. intros m v e He H. apply abs_round_le_generic; [apply fexp_correct; reflexivity|apply valid_rnd_round_mode|apply fmt_bpow, He|exact H]. Qed.
Lemma rm_fmt : forall m v, generic_format radix2 fexp64 v -> rm m v = v.
Proof. intros m v H. apply round_generic; [apply valid_rnd_round_mode|exact H]. Qed.
Lemma rm_any : forall m v, Rabs (rm m v - v) <= 2 * u53 * Rabs v + 2 * eta.
Proof.
  intros m v. pose proof u53_pos. pose proof eta_pos. pose proof (Rabs_pos v) as Pv.
  destruct (Rle_or_lt (bpow radix2 (-1074 + 53 - 1)) (Rabs v)) as [H1|H1].
  - pose proof (relative_error_FLT radix2 (-1074) 53 ltac:(reflexivity) (round_mode m) v H1) as E.
    change (bpow radix2 (- (53) + 1)) with (2 * u53) in E || (replace (bpow radix2 (- (53) + 1)) with (2 * u53) in E by (unfold u53; change 2 with (bpow radix2 1); rewrite <- bpow_plus; reflexivity)).
    change (round radix2 (FLT_exp (-1074) 53) (round_mode m) v) with (rm m v) in E. lra.
  - assert (E : Rabs (rm m v - v) <= ulp radix2 fexp64 v) by (apply error_le_ulp; [apply fexp_correct; reflexivity|apply valid_rnd_round_mode]).
    assert (U : ulp radix2 fexp64 v = bpow radix2 (-1074)).
    { change (ulp radix2 (FLT_exp (-1074) 53) v = bpow radix2 (-1074)). apply ulp_FLT_small; [reflexivity|].
      eapply Rlt_le_trans; [exact H1|apply bpow_le; lia]. }
    assert (T : bpow radix2 (-1074) = 2 * eta) by (unfold eta; change 2 with (bpow radix2 1); rewrite <- bpow_plus; reflexivity).
    rewrite U, T in E. assert (0 <= u53 * Rabs v) by (apply Rmult_le_pos; lra). lra.
Qed.
Lemma rm_plus : forall m (x y : f64), Rabs (rm m (b2r x + b2r y) - (b2r x + b2r y)) <= 2 * u53 * Rabs (b2r x + b2r y).
Proof.
  intros m x y. pose proof u53_pos. set (v := b2r x + b2r y). pose proof (Rabs_pos v) as Pv.
  destruct (Rle_or_lt (bpow radix2 (-1074 + 53 - 1)) (Rabs v)) as [H1|H1].
  - pose proof (relative_error_FLT radix2 (-1074) 53 ltac:(reflexivity) (round_mode m) v H1) as E.
    replace (bpow radix2 (- (53) + 1)) with (2 * u53) in E by (unfold u53; change 2 with (bpow radix2 1); rewrite <- bpow_plus; reflexivity).
    change (round radix2 (FLT_exp (-1074) 53) (round_mode m) v) with (rm m v) in E. lra.
  - rewrite rm_fmt; [rewrite Rminus_eq_0, Rabs_R0; apply Rmult_le_pos; lra|].
    change (generic_format radix2 (FLT_exp (-1074) 53) v). unfold v. apply FLT_format_plus_small; [reflexivity| | |].
    + exact (generic_format_B2R 53 1024 x).
    + exact (generic_format_B2R 53 1024 y).
    + left. eapply Rlt_le_trans; [exact H1|apply bpow_le; lia].
Qed.
Lemma rm_nearest : forall m, nearest_mode m -> exists c, forall v, rm m v = round radix2 (FLT_exp (-1074) 53) (Znearest c) v.
Proof. intros m [->| ->]; eexists; intros v; reflexivity. Qed.
Lemma rm_any_N : forall m, nearest_mode m -> forall v, Rabs (rm m v - v) <= u53 * Rabs v + eta.
Proof.
  intros m Hm v. destruct (rm_nearest m Hm) as [c E0]. rewrite E0.
  destruct (error_N_FLT radix2 (-1074) 53 ltac:(reflexivity) c v) as (ep & et & He & Ht & _ & E).
  rewrite E. replace (v * (1 + ep) + et - v) with (ep * v + et) by ring.
  eapply Rle_trans; [apply Rabs_triang|]. rewrite Rabs_mult. 
  apply Rplus_le_compat; [apply Rmult_le_compat_r; [apply Rabs_pos|]|]; (eapply Rle_trans; [eassumption|]).
  - right. unfold u53. replace (/ 2) with (bpow radix2 (-1)) by reflexivity. rewrite <- bpow_plus. reflexivity.
  - right. unfold eta. replace (/ 2) with (bpow radix2 (-1)) by reflexivity. rewrite <- bpow_plus. reflexivity.
Qed.
Lemma rm_plus_N : forall m, nearest_mode m -> forall x y : f64, Rabs (rm m (b2r x + b2r y) - (b2r x + b2r y)) <= u53 * Rabs (b2r x + b2r y).
Proof.
  intros m Hm x y. destruct (rm_nearest m Hm) as [c E0]. rewrite E0.
  destruct (FLT_plus_error_N_ex radix2 (-1074) 53 c (b2r x) (b2r y)) as (ep & He & E); try apply generic_format_B2R.
  rewrite E. rewrite u_ro_53 in He.
  replace ((b2r x + b2r y) * (1 + ep) - (b2r x + b2r y)) with (ep * (b2r x + b2r y)) by ring.
  rewrite Rabs_mult. apply Rmult_le_compat_r; [apply Rabs_pos|]. eapply Rle_trans; [exact He|].
  pose proof u53_pos. apply Rmult_le_reg_r with (1 + u53); [lra|]. unfold Rdiv. rewrite Rmult_assoc, Rinv_l by lra. nra.
Qed.

(** ** Operations without overflow *)
Definition small (v : R) := Rabs v <= bpow radix2 1023.
Lemma rm_lt : forall m v, small v -> Rlt_bool (Rabs (rm m v)) (bpow radix2 1024) = true.
Proof. intros m v H. apply Rlt_bool_true. eapply Rle_lt_trans; [apply (rm_le m v 1023); [lia|exact H]|apply bpow_lt; lia]. Qed.
Lemma plus_m : forall m (x y : f64), fin x = true -> fin y = true -> small (b2r x + b2r y) ->
  fin (Bplus m x y) = true /\ b2r (Bplus m x y) = rm m (b2r x + b2r y).
Proof.
  intros m x y Fx Fy H. pose proof (Bplus_correct 53 1024 _ _ m x y Fx Fy) as C.
  change (round radix2 _ _ _) with (rm m (b2r x + b2r y)) in C. rewrite rm_lt in C by exact H. tauto.
Qed.
Lemma minus_m : forall m (x y : f64), fin x = true -> fin y = true -> small (b2r x - b2r y) ->
  fin (Bminus m x y) = true /\ b2r (Bminus m x y) = rm m (b2r x - b2r y).
Proof.
  intros m x y Fx Fy H. pose proof (Bminus_correct 53 1024 _ _ m x y Fx Fy) as C.
  change (round radix2 _ _ _) with (rm m (b2r x - b2r y)) in C. rewrite rm_lt in C by exact H. tauto.
Qed.
Lemma mult_m : forall m (x y : f64), fin x = true -> fin y = true -> small (b2r x * b2r y) ->
  fin (Bmult m x y) = true /\ b2r (Bmult m x y) = rm m (b2r x * b2r y).
Proof.
  intros m x y Fx Fy H. pose proof (Bmult_correct 53 1024 _ _ m x y) as C.
  change (round radix2 _ _ _) with (rm m (b2r x * b2r y)) in C. rewrite rm_lt in C by exact H.
  destruct C as (C & D & _). split; [|exact C]. rewrite D, Fx, Fy. reflexivity.
Qed.
Lemma fma_m : forall m (x y z : f64), fin x = true -> fin y = true -> fin z = true -> small (b2r x * b2r y + b2r z) ->
  fin (Bfma m x y z) = true /\ b2r (Bfma m x y z) = rm m (b2r x * b2r y + b2r z).
Proof.
  intros m x y z Fx Fy Fz H. pose proof (Bfma_correct 53 1024 _ _ m x y z Fx Fy Fz) as C. cbv zeta in C.
  change (round radix2 _ _ _) with (rm m (b2r x * b2r y + b2r z)) in C. rewrite rm_lt in C by exact H. tauto.
Qed.

(** ** Tracking an expression *)
Fixpoint tr (e : expr) : trk :=
  match e with
  | Num x => (b2r x, Rabs (b2r x), Some (0%nat, 0%nat))
  | Add a b => @nadd trk Ring0_trk (tr a) (tr b)
  | Sub a b => @nsub trk Ring0_trk (tr a) (tr b)
  | Mul a b => @nmul trk Ring0_trk (tr a) (tr b)
  | Opp a => @nopp trk Ring0_trk (tr a)
  end.
Fixpoint leaves (Q : f64 -> Prop) (e : expr) : Prop :=
  match e with
  | Num x => Q x
  | Add a b | Sub a b | Mul a b => leaves Q a /\ leaves Q b
  | Opp a => leaves Q a
  end.
Definition isfin (x : f64) : Prop := fin x = true.
Lemma tm_pos : forall e, Rabs (tv (tr e)) <= tm (tr e).
Proof.
  induction e as [x|a Ha b Hb|a Ha b Hb|a Ha b Hb|a Ha]; cbn [tr nadd nsub nmul nopp Ring0_trk tv tm fst snd].
  - lra.
  - pose proof (Rabs_triang (tv (tr a)) (tv (tr b))). unfold tv, tm in *; cbn [fst snd] in *; lra.
  - pose proof (Rabs_triang (tv (tr a)) (- tv (tr b))) as T. rewrite Rabs_Ropp in T. unfold tv, tm, Rminus in *; cbn [fst snd] in *; lra.
  - unfold tv, tm in *; cbn [fst snd]. rewrite Rabs_mult. apply Rmult_le_compat; auto using Rabs_pos.
  - unfold tv, tm in *; cbn [fst snd]. rewrite Rabs_Ropp. exact Ha.
Qed.
Lemma tm_nonneg : forall e, 0 <= tm (tr e).
Proof. intros e. pose proof (tm_pos e). pose proof (Rabs_pos (tv (tr e))). lra. Qed.
Definition sg (s : bool) (v : R) : R := if s then - v else v.
Lemma prod_tr : forall Q a b s p, product_of a b s p -> leaves Q p ->
  leaves Q a /\ leaves Q b /\ tr p = (sg s (tv (tr a) * tv (tr b)), tm (tr a) * tm (tr b), cmul2 (tc (tr a)) (tc (tr b))).
Proof.
  intros Q a b s p H. induction H as [|s p H IH]; cbn [leaves].
  - intros [A B]. repeat split; auto.
  - intros L. destruct (IH L) as (A & B & E). repeat split; auto. cbn [tr nopp Ring0_trk]. rewrite E.
    unfold tv, tm, tc; cbn [fst snd]. destruct s; cbn [sg negb]; rewrite ?Ropp_involutive; reflexivity.
Qed.
Lemma signed_fin : forall s x, fin (signed s x) = fin x.
Proof. intros [|] x; [apply is_finite_Bopp|reflexivity]. Qed.
Lemma signed_b2r : forall s x, b2r (signed s x) = sg s (b2r x).
Proof. intros [|] x; [apply B2R_Bopp|reflexivity]. Qed.
Lemma sg_mul : forall s v w, sg s v * w = sg s (v * w).
Proof. intros [|] v w; cbn; ring. Qed.
Lemma sg_negb : forall s v, sg (negb s) v = - sg s v.
Proof. intros [|] v; cbn; ring. Qed.
Lemma sg_abs : forall s v, Rabs (sg s v) = Rabs v.
Proof. intros [|] v; cbn; [apply Rabs_Ropp|reflexivity]. Qed.
Lemma cadd2_inv : forall p q n k, cadd2 p q = Some (n, k) ->
  exists n1 k1 n2 k2, p = Some (n1, k1) /\ q = Some (n2, k2) /\ n = S (Nat.max n1 n2) /\ k = (k1 + k2)%nat.
Proof.
  intros [[n1 k1]|] [[n2 k2]|] n k H; try discriminate H. cbn in H. injection H as <- <-. exists n1, k1, n2, k2. auto.
Qed.
Lemma cmul2_inv : forall p q n k, cmul2 p q = Some (n, k) ->
  p = Some (0%nat, 0%nat) /\ q = Some (0%nat, 0%nat) /\ n = 1%nat /\ k = 1%nat.
Proof.
  intros [[[|n1] [|k1]]|] [[[|n2] [|k2]]|] n k H; try discriminate H. cbn in H. injection H as <- <-. auto.
Qed.
(** A value that went through no rounding. *)
Lemma runs_exact : forall P e v, runs P e v -> leaves isfin e -> forall k, tc (tr e) = Some (0%nat, k) ->
  fin v = true /\ b2r v = tv (tr e).
Proof.
  intros P e v H. induction H; cbn [leaves]; intros Lf k C; cbn [tr nadd nsub nmul nopp Ring0_trk tc snd] in C.
  - split; [exact Lf|reflexivity].
  - apply cadd2_inv in C. destruct C as (? & ? & ? & ? & _ & _ & C & _). discriminate C.
  - apply cadd2_inv in C. destruct C as (? & ? & ? & ? & _ & _ & C & _). discriminate C.
  - apply cmul2_inv in C. destruct C as (_ & _ & C & _). discriminate C.
  - destruct (IHruns Lf k C) as [F E]. split; [rewrite is_finite_Bopp; exact F|]. rewrite B2R_Bopp, E. reflexivity.
  - apply cadd2_inv in C. destruct C as (? & ? & ? & ? & _ & _ & C & _). discriminate C.
  - apply cadd2_inv in C. destruct C as (? & ? & ? & ? & _ & _ & C & _). discriminate C.
  - apply cadd2_inv in C. destruct C as (? & ? & ? & ? & _ & _ & C & _). discriminate C.
  - apply cadd2_inv in C. destruct C as (? & ? & ? & ? & _ & _ & C & _). discriminate C.
Qed.

(** ** Errors, for given rounding errors of one operation *)
Section Errors.
Variables (P : mode -> Prop) (e et : R).
Hypotheses (He : 0 < e <= 2 * u53) (Ht : 0 < et <= 2 * eta).
Hypothesis any : forall m, P m -> forall v, Rabs (rm m v - v) <= e * Rabs v + et.
Hypothesis sum : forall m, P m -> forall x y : f64, Rabs (rm m (b2r x + b2r y) - (b2r x + b2r y)) <= e * Rabs (b2r x + b2r y).

Definition eb (n k : nat) (m : R) : R := ((1 + e) ^ n - 1) * m + INR k * (1 + e) ^ n * et.
Lemma pow_ge1 : forall n, 1 <= (1 + e) ^ n.
Proof. intros n. apply pow_R1_Rle. lra. Qed.
Lemma eb_mono : forall n n' k k' m, (n <= n')%nat -> (k <= k')%nat -> 0 <= m -> eb n k m <= eb n' k' m.
Proof.
  intros n n' k k' m Hn Hk Hm. unfold eb.
  assert (Q : (1 + e) ^ n <= (1 + e) ^ n') by (apply Rle_pow; [lra|exact Hn]).
  pose proof (pow_ge1 n) as Q1. apply le_INR in Hk. pose proof (pos_INR k).
  apply Rplus_le_compat; [apply Rmult_le_compat_r; lra|]. apply Rmult_le_compat_r; [lra|]. apply Rmult_le_compat; lra.
Qed.
Lemma pow8 : (1 + e) ^ 8 - 1 <= 9 * e /\ INR 8 * (1 + e) ^ 8 <= 9.
Proof.
  assert (U : u53 = / 9007199254740992) by reflexivity. rewrite U in He. destruct He as [E0 E1].
  assert (E2 : (1 + e) * (1 + e) <= 1 + 201 / 100 * e).
  { assert (e * e <= / 100 * e) by (apply Rmult_le_compat_r; lra). lra. }
  assert (E4 : (1 + e) ^ 4 <= 1 + 405 / 100 * e).
  { replace ((1 + e) ^ 4) with ((1 + e) * (1 + e) * ((1 + e) * (1 + e))) by ring.
    eapply Rle_trans; [apply Rmult_le_compat; try exact E2; apply Rmult_le_pos; lra|].
    assert (e * e <= / 1000 * e) by (apply Rmult_le_compat_r; lra). lra. }
  assert (E8 : (1 + e) ^ 8 <= 1 + 9 * e).
  { replace ((1 + e) ^ 8) with ((1 + e) ^ 4 * (1 + e) ^ 4) by ring.
    eapply Rle_trans; [apply Rmult_le_compat; try exact E4; apply pow_le; lra|].
    assert (e * e <= / 1000 * e) by (apply Rmult_le_compat_r; lra). lra. }
  split; [lra|]. replace (INR 8) with 8 by (cbn; lra). lra.
Qed.
Lemma eb8 : forall n k m, (n <= 8)%nat -> (k <= 8)%nat -> 0 <= m -> eb n k m <= 9 * e * m + 9 * et.
Proof.
  intros n k m Hn Hk Hm. eapply Rle_trans; [apply (eb_mono n 8 k 8); auto|]. unfold eb. destruct pow8.
  apply Rplus_le_compat; apply Rmult_le_compat_r; lra.
Qed.
Definition lim : R := bpow radix2 1021.
Lemma lim_ok : forall n k m, (n <= 8)%nat -> (k <= 8)%nat -> 0 <= m <= lim -> eb n k m <= lim.
Proof.
  intros n k m Hn Hk Hm. eapply Rle_trans; [apply eb8; tauto|].
  assert (L1 : 1 <= lim) by (change 1 with (bpow radix2 0); apply bpow_le; lia).
  assert (T : eta <= / 36).
  { apply Rle_trans with (bpow radix2 (-6)); [apply bpow_le; lia|cbn; lra]. }
  assert (U : u53 = / 9007199254740992) by reflexivity. rewrite U in He.
  assert (e * m <= / 1000 * lim) by (apply Rmult_le_compat; lra). lra.
Qed.
Lemma small_of : forall v m n k, (n <= 8)%nat -> (k <= 8)%nat -> 0 <= m <= lim -> Rabs v <= m + eb n k m -> small v.
Proof.
  intros v m n k Hn Hk Hm H. pose proof (lim_ok n k m Hn Hk Hm). unfold small.
  replace (bpow radix2 1023) with (4 * lim); [lra|]. unfold lim. change 4 with (bpow radix2 2). rewrite <- bpow_plus. reflexivity.
Qed.
(** One rounded addition of two approximations. *)
Lemma sum_stepm : forall x1 x2 v1 v2 m1 m2 r n k l,
  Rabs (x1 - v1) <= eb n k m1 -> Rabs (x2 - v2) <= eb n l m2 ->
  Rabs v1 <= m1 -> Rabs v2 <= m2 -> Rabs (r - (x1 + x2)) <= e * Rabs (x1 + x2) ->
  Rabs (x1 + x2) <= (m1 + m2) + eb n (k + l) (m1 + m2) /\
  Rabs (r - (v1 + v2)) <= eb (S n) (k + l) (m1 + m2).
Proof.
  intros x1 x2 v1 v2 m1 m2 r n k l E1 E2 V1 V2 E.
  assert (B : eb n (k + l) (m1 + m2) = eb n k m1 + eb n l m2) by (unfold eb; rewrite plus_INR; ring).
  assert (T : Rabs (x1 + x2) <= (m1 + m2) + (eb n k m1 + eb n l m2)).
  { replace (x1 + x2) with ((v1 + v2) + ((x1 - v1) + (x2 - v2))) by ring.
    eapply Rle_trans; [apply Rabs_triang|]. pose proof (Rabs_triang v1 v2). pose proof (Rabs_triang (x1 - v1) (x2 - v2)). lra. }
  split; [rewrite B; exact T|].
  assert (T2 : Rabs (r - (v1 + v2)) <= e * Rabs (x1 + x2) + (eb n k m1 + eb n l m2)).
  { replace (r - (v1 + v2)) with ((r - (x1 + x2)) + ((x1 - v1) + (x2 - v2))) by ring.
    eapply Rle_trans; [apply Rabs_triang|]. pose proof (Rabs_triang (x1 - v1) (x2 - v2)). lra. }
  apply (Rmult_le_compat_l e) in T; [|lra].
  apply Rle_trans with (e * (m1 + m2 + (eb n k m1 + eb n l m2)) + (eb n k m1 + eb n l m2)); [lra|].
  right. unfold eb. cbn [pow]. rewrite plus_INR. ring.
Qed.
(** One fused multiplication and addition. *)
Lemma fma_step : forall z w v m1 m2 r n k, (1 <= n)%nat ->
  Rabs (z - v) <= eb n k m2 -> Rabs w <= m1 -> Rabs v <= m2 -> Rabs (r - (w + z)) <= e * Rabs (w + z) + et ->
  Rabs (w + z) <= (m1 + m2) + eb n (1 + k) (m1 + m2) /\
  Rabs (r - (w + v)) <= eb (S n) (1 + k) (m1 + m2).
Proof.
  intros z w v m1 m2 r n k Hn E2 V1 V2 E.
  assert (M1 : 0 <= m1) by (pose proof (Rabs_pos w); lra). assert (M2 : 0 <= m2) by (pose proof (Rabs_pos v); lra).
  assert (T : Rabs (w + z) <= (m1 + m2) + eb n k m2).
  { replace (w + z) with ((w + v) + (z - v)) by ring.
    eapply Rle_trans; [apply Rabs_triang|]. pose proof (Rabs_triang w v). lra. }
  pose proof (pow_ge1 n) as Q.
  assert (B : eb n k m2 <= eb n (1 + k) (m1 + m2)).
  { unfold eb. rewrite plus_INR. change (INR 1) with 1.
    assert (0 <= ((1 + e) ^ n - 1) * m1) by (apply Rmult_le_pos; lra). assert (0 <= (1 + e) ^ n * et) by (apply Rmult_le_pos; lra). lra. }
  split; [lra|].
  assert (T2 : Rabs (r - (w + v)) <= e * Rabs (w + z) + et + eb n k m2).
  { replace (r - (w + v)) with ((r - (w + z)) + (z - v)) by ring.
    eapply Rle_trans; [apply Rabs_triang|]. lra. }
  apply (Rmult_le_compat_l e) in T; [|lra].
  apply Rle_trans with (e * (m1 + m2 + eb n k m2) + et + eb n k m2); [lra|].
  unfold eb. cbn [pow]. rewrite plus_INR. change (INR 1) with 1. set (q := (1 + e) ^ n) in *.
  assert (0 <= (1 + e) * (q - 1) * m1) by (apply Rmult_le_pos; [apply Rmult_le_pos; lra|lra]).
  assert (1 <= (1 + e) * q) by (rewrite <- (Rmult_1_r 1) at 1; apply Rmult_le_compat; lra).
  assert (et <= (1 + e) * q * et) by (rewrite <- (Rmult_1_l et) at 1; apply Rmult_le_compat_r; lra).
  lra.
Qed.
Ltac simp := cbn [tr nadd nsub nmul nopp Ring0_trk tc tv tm fst snd leaves] in *.
Lemma eb00 : forall m, eb 0 0 m = 0.
Proof. intros m. unfold eb. cbn. ring. Qed.
Lemma fma_case : forall a b s p x y z v m c n k r, P r -> product_of a b s p -> leaves isfin p ->
  (runs P a x) -> (runs P b y) -> tc (tr p) = Some c -> 
  fin z = true -> Rabs (b2r z - v) <= eb n k m -> Rabs v <= m -> tm (tr p) + m <= lim -> (S (Nat.max (fst c) n) <= 8)%nat -> (snd c + k <= 8)%nat ->
  fin (Bfma r (signed s x) y z) = true /\
  Rabs (b2r (Bfma r (signed s x) y z) - (tv (tr p) + v)) <= eb (S (Nat.max (fst c) n)) (snd c + k) (tm (tr p) + m).
Proof.
  intros a b s p x y z v m c n k r Pr Hp Lf Ra Rb C Fz Ez Vm Hm Hn Hk.
  pose proof (tm_pos p) as Tp. destruct (prod_tr _ _ _ _ _ Hp Lf) as (La & Lb & Ep).
  rewrite Ep in C, Tp, Hm |- *. cbn [tc tv tm fst snd] in *.
  destruct c as [c1 c2]. apply cmul2_inv in C. destruct C as (Ca & Cb & -> & ->).
  destruct (runs_exact _ _ _ Ra La _ Ca) as [Fx Ex]. destruct (runs_exact _ _ _ Rb Lb _ Cb) as [Fy Ey].
  set (w := sg s (tv (tr a) * tv (tr b))) in *.
  assert (Ew : b2r (signed s x) * b2r y = w) by (rewrite signed_b2r, sg_mul, Ex, Ey; reflexivity).
  cbn [fst snd] in *. set (N := Nat.max 1 n) in *. 
  assert (M0 : 0 <= m) by (pose proof (Rabs_pos v); lra).
  assert (Ez' : Rabs (b2r z - v) <= eb N k m) by (eapply Rle_trans; [exact Ez|apply eb_mono; auto; lia]).
  pose proof (any r Pr (w + b2r z)) as A.
  destruct (fma_step (b2r z) w v _ m (rm r (w + b2r z)) N k ltac:(lia) Ez' Tp Vm A) as [S1 S2].
  assert (Sm : small (w + b2r z)).
  { apply (small_of _ (tm (tr a) * tm (tr b) + m) N (1 + k)); try lia; [|exact S1]. split; [|exact Hm]. pose proof (Rabs_pos w); lra. }
  destruct (fma_m r (signed s x) y z) as [F E]; auto; [rewrite signed_fin; exact Fx|rewrite Ew; exact Sm|].
  split; [exact F|]. rewrite E, Ew. exact S2.
Qed.
Lemma runs_err : forall ex v, runs P ex v -> leaves isfin ex -> forall n k, tc (tr ex) = Some (n, k) ->
  (n <= 8)%nat -> (k <= 8)%nat -> tm (tr ex) <= lim ->
  fin v = true /\ Rabs (b2r v - tv (tr ex)) <= eb n k (tm (tr ex)).
Proof.
  intros ex v H. induction H as [x|m a b x y Pm Ra IHa Rb IHb|m a b x y Pm Ra IHa Rb IHb|m a b x y Pm Ra _ Rb _|a x Ra IHa
    |m s p a b c x y z Pm Hp Ra _ Rb _ Rc IHc|m s p a b c x y z Pm Hp Ra _ Rb _ Rc IHc
    |m s p a b c x y z Pm Hp Ra _ Rb _ Rc IHc|m s p a b c x y z Pm Hp Ra _ Rb _ Rc IHc]; intros Lf n k C Hn Hk Hm.
  - simp. injection C as <- <-. split; [exact Lf|]. rewrite Rminus_eq_0, Rabs_R0, eb00. lra.
  - destruct Lf as [La Lb]. cbn [tr nadd Ring0_trk] in *. cbn [tc snd] in C. unfold tm at 1 in Hm. cbn [fst snd] in Hm.
    apply cadd2_inv in C. destruct C as (n1 & k1 & n2 & k2 & C1 & C2 & -> & ->).
    pose proof (tm_pos a) as Ta. pose proof (tm_pos b) as Tb. pose proof (tm_nonneg a). pose proof (tm_nonneg b).
    destruct (IHa La n1 k1 C1) as [Fx Ex]; [lia|lia|lra|]. destruct (IHb Lb n2 k2 C2) as [Fy Ey]; [lia|lia|lra|].
    apply (fun h => Rle_trans _ _ _ h (eb_mono n1 (Nat.max n1 n2) k1 k1 _ ltac:(lia) (le_n _) (tm_nonneg a))) in Ex.
    apply (fun h => Rle_trans _ _ _ h (eb_mono n2 (Nat.max n1 n2) k2 k2 _ ltac:(lia) (le_n _) (tm_nonneg b))) in Ey.
    destruct (sum_stepm _ _ _ _ _ _ (rm m (b2r x + b2r y)) _ _ _ Ex Ey Ta Tb (sum m Pm x y)) as [S1 S2].
    destruct (plus_m m x y Fx Fy) as [F E]; [eapply small_of; [| | |exact S1]; try lia; lra|].
    split; [exact F|]. rewrite E. exact S2.
  - destruct Lf as [La Lb]. cbn [tr nsub Ring0_trk] in *. cbn [tc snd] in C. unfold tm at 1 in Hm. cbn [fst snd] in Hm.
    apply cadd2_inv in C. destruct C as (n1 & k1 & n2 & k2 & C1 & C2 & -> & ->).
    pose proof (tm_pos a) as Ta. pose proof (tm_pos b) as Tb. pose proof (tm_nonneg a). pose proof (tm_nonneg b).
    destruct (IHa La n1 k1 C1) as [Fx Ex]; [lia|lia|lra|]. destruct (IHb Lb n2 k2 C2) as [Fy Ey]; [lia|lia|lra|].
    apply (fun h => Rle_trans _ _ _ h (eb_mono n1 (Nat.max n1 n2) k1 k1 _ ltac:(lia) (le_n _) (tm_nonneg a))) in Ex.
    apply (fun h => Rle_trans _ _ _ h (eb_mono n2 (Nat.max n1 n2) k2 k2 _ ltac:(lia) (le_n _) (tm_nonneg b))) in Ey.
    pose proof (sum m Pm x (Bopp y)) as Sm. rewrite B2R_Bopp in Sm.
    assert (Ey' : Rabs (- b2r y - - tv (tr b)) <= eb (Nat.max n1 n2) k2 (tm (tr b))).
    { replace (- b2r y - - tv (tr b)) with (- (b2r y - tv (tr b))) by ring. rewrite Rabs_Ropp. exact Ey. }
    rewrite <- Rabs_Ropp in Tb.
    destruct (sum_stepm _ _ _ _ _ _ (rm m (b2r x + - b2r y)) _ _ _ Ex Ey' Ta Tb Sm) as [S1 S2].
    destruct (minus_m m x y Fx Fy) as [F E]; [eapply small_of; [| | |exact S1]; try lia; lra|].
    split; [exact F|]. rewrite E. exact S2.
  - destruct Lf as [La Lb]. pose proof (tm_pos (Mul a b)) as T. pose proof (tm_nonneg (Mul a b)) as T0. cbn [tr nmul Ring0_trk] in *. cbn [tc snd] in C.
    apply cmul2_inv in C. destruct C as (C1 & C2 & -> & ->).
    destruct (runs_exact _ _ _ Ra La _ C1) as [Fx Ex]. destruct (runs_exact _ _ _ Rb Lb _ C2) as [Fy Ey].
    unfold tm, tv in T, T0, Hm |- *. cbn [fst snd] in *. fold (tv (tr a)) in *. fold (tv (tr b)) in *. fold (tm (tr a)) in *. fold (tm (tr b)) in *.
    assert (E2 : b2r x * b2r y = tv (tr a) * tv (tr b)) by (rewrite Ex, Ey; reflexivity).
    destruct (mult_m m x y Fx Fy) as [F E].
    { rewrite E2. apply (small_of _ (tm (tr a) * tm (tr b)) 0 0); try lia; [lra|]. rewrite eb00. lra. }
    split; [exact F|]. rewrite E, E2. eapply Rle_trans; [apply any, Pm|]. unfold eb. cbn [pow INR].
    assert (e * Rabs (tv (tr a) * tv (tr b)) <= e * (tm (tr a) * tm (tr b))) by (apply Rmult_le_compat_l; lra).
    assert (0 <= e * et) by (apply Rmult_le_pos; lra). lra.
  - cbn [tr nopp Ring0_trk leaves] in *. unfold tm, tv, tc in C, Hm |- *. cbn [fst snd] in *.
    destruct (IHa Lf n k C Hn Hk Hm) as [F E]. split; [rewrite is_finite_Bopp; exact F|].
    rewrite B2R_Bopp. unfold tv in E. replace (- b2r x - - fst (fst (tr a))) with (- (b2r x - fst (fst (tr a)))) by ring. rewrite Rabs_Ropp. exact E.
  - destruct Lf as [Lp Lc]. cbn [tr nadd Ring0_trk] in *. cbn [tc snd] in C. unfold tm at 1 in Hm. cbn [fst snd] in Hm.
    apply cadd2_inv in C. destruct C as (n1 & k1 & n2 & k2 & C1 & C2 & -> & ->).
    pose proof (tm_pos c) as Tc. pose proof (tm_nonneg c). pose proof (tm_nonneg p).
    destruct (IHc Lc n2 k2 C2) as [Fz Ez]; [lia|lia|lra|].
    exact (fma_case a b s p x y z _ _ (n1, k1) n2 k2 m Pm Hp Lp Ra Rb C1 Fz Ez Tc Hm Hn Hk).
  - destruct Lf as [Lc Lp]. cbn [tr nadd Ring0_trk] in *. cbn [tc snd] in C. unfold tm at 1 in Hm. cbn [fst snd] in Hm.
    apply cadd2_inv in C. destruct C as (n2 & k2 & n1 & k1 & C2 & C1 & -> & ->).
    pose proof (tm_pos c) as Tc. pose proof (tm_nonneg c). pose proof (tm_nonneg p).
    destruct (IHc Lc n2 k2 C2) as [Fz Ez]; [lia|lia|lra|].
    rewrite Nat.max_comm, (Nat.add_comm k2) in *.
    pose proof (fma_case a b s p x y z _ _ (n1, k1) n2 k2 m Pm Hp Lp Ra Rb C1 Fz Ez Tc ltac:(lra) Hn Hk) as Q. cbn [fst snd] in Q.
    unfold tv at 1, tm at 1. cbn [fst snd]. rewrite (Rplus_comm (tv (tr c))), (Rplus_comm (tm (tr c))). exact Q.
  - destruct Lf as [Lp Lc]. cbn [tr nsub Ring0_trk] in *. cbn [tc snd] in C. unfold tm at 1 in Hm. cbn [fst snd] in Hm.
    apply cadd2_inv in C. destruct C as (n1 & k1 & n2 & k2 & C1 & C2 & -> & ->).
    pose proof (tm_pos c) as Tc. pose proof (tm_nonneg c). pose proof (tm_nonneg p).
    destruct (IHc Lc n2 k2 C2) as [Fz Ez]; [lia|lia|lra|].
    rewrite <- is_finite_Bopp in Fz. rewrite <- Rabs_Ropp in Tc.
    assert (Ez' : Rabs (b2r (Bopp z) - - tv (tr c)) <= eb n2 k2 (tm (tr c))).
    { rewrite B2R_Bopp. replace (- b2r z - - tv (tr c)) with (- (b2r z - tv (tr c))) by ring. rewrite Rabs_Ropp. exact Ez. }
    exact (fma_case a b s p x y (Bopp z) _ _ (n1, k1) n2 k2 m Pm Hp Lp Ra Rb C1 Fz Ez' Tc Hm Hn Hk).
  - destruct Lf as [Lc Lp]. cbn [tr nsub Ring0_trk] in *. cbn [tc snd] in C. unfold tm at 1 in Hm. cbn [fst snd] in Hm.
    apply cadd2_inv in C. destruct C as (n2 & k2 & n1 & k1 & C2 & C1 & -> & ->).
    pose proof (tm_pos c) as Tc. pose proof (tm_nonneg c). pose proof (tm_nonneg p).
    destruct (IHc Lc n2 k2 C2) as [Fz Ez]; [lia|lia|lra|].
    rewrite Nat.max_comm, (Nat.add_comm k2) in *.
    pose proof (fma_case a b (negb s) (Opp p) x y z _ _ (n1, k1) n2 k2 m Pm (prod_opp _ _ _ _ Hp) Lp Ra Rb C1 Fz Ez Tc) as Q.
    cbn [fst snd tr nopp Ring0_trk tm tv] in Q. specialize (Q ltac:(lra) Hn Hk).
    unfold tv at 1, tm at 1. cbn [fst snd]. unfold Rminus at 2. rewrite (Rplus_comm (tv (tr c))), (Rplus_comm (tm (tr c))). exact Q.
Qed.
End Errors.

(** ** Values *)
Definition trl (e : expr) (p : trk) : Prop := leaves isfin e /\ tr e = p.
Lemma trl_rel : ring_rel Ring0_expr Ring0_trk trl.
Proof.
  split; unfold trl.
  - split; [reflexivity|]. cbn. rewrite Rabs_R0. reflexivity.
  - destruct one_ok as [F E]. split; [exact F|]. change (tr none_) with (b2r (@none_ f64 Ring0_B), Rabs (b2r (@none_ f64 Ring0_B)), Some (0%nat, 0%nat)).
    change (@none_ f64 Ring0_B) with (none_ : f64). rewrite E, Rabs_R1. reflexivity.
  - intros a b p q [A <-] [B <-]. split; [split; assumption|reflexivity].
  - intros a b p q [A <-] [B <-]. split; [split; assumption|reflexivity].
  - intros a b p q [A <-] [B <-]. split; [split; assumption|reflexivity].
  - intros a p [A <-]. split; [exact A|reflexivity].
Qed.
Lemma given_trl : forall t x, all_finite t x -> relv trl t (given t x) (track t x).
Proof.
  intros t x H. unfold relv, given, track, all_finite in *. rewrite !elems_mapv.
  induction H; cbn [map]; constructor; auto. split; [assumption|reflexivity].
Qed.
Lemma elems_denp : forall t (x : val R t) c, (forall k, denp t x k <= c) -> Forall (fun v => v <= c) (elems t x).
Proof.
  intros t x c H. pose proof (H bS). pose proof (H bE1). pose proof (H bE2). pose proof (H bE3).
  pose proof (H bE12). pose proof (H bE13). pose proof (H bE23). pose proof (H bE123). clear H.
  destruct t; dvs; cbv -[Rle R0 IZR] in *; repeat apply Forall_cons; try apply Forall_nil; assumption.
Qed.
Section Values.
Variables (P : mode -> Prop) (e et : R).
Hypotheses (He : 0 < e <= 2 * u53) (Ht : 0 < et <= 2 * eta).
Hypothesis any : forall m, P m -> forall v, Rabs (rm m v - v) <= e * Rabs v + et.
Hypothesis sum : forall m, P m -> forall x y : f64, Rabs (rm m (b2r x + b2r y) - (b2r x + b2r y)) <= e * Rabs (b2r x + b2r y).
Lemma run_close : forall ex v p, runs P ex v -> trl ex p -> cnt_le 8 8 (tc p) = true -> tm p <= lim ->
  fin v = true /\ Rabs (b2r v - tv p) <= 9 * e * tm p + 9 * et.
Proof.
  intros ex v p R [L <-] C M. destruct (tc (tr ex)) as [[n k]|] eqn:E; [|discriminate C].
  cbn [cnt_le] in C. apply andb_true_iff in C. destruct C as [C1 C2]. apply Nat.leb_le in C1, C2.
  destruct (runs_err P e et He Ht any sum ex v R L n k E C1 C2 M) as [F B]. split; [exact F|].
  eapply Rle_trans; [exact B|]. apply eb8; auto. apply tm_nonneg.
Qed.
Lemma runs_close : forall es vs ps cs, Forall2 (runs P) es vs -> Forall2 trl es ps -> Forall2 (fun p c => tc p = c) ps cs ->
  forallb (cnt_le 8 8) cs = true -> Forall (fun p => tm p <= lim) ps ->
  Forall (fun v : f64 => fin v = true) vs /\ Forall2 (close (9 * e) (9 * et)) vs (map (fun p => fst p) ps).
Proof.
  intros es vs ps cs R. revert ps cs. induction R as [|ex v es vs Hv R IH]; intros ps cs T C B M.
  - inversion T; subst. split; constructor.
  - inversion T; subst. inversion C; subst. inversion M; subst. cbn [forallb] in B. apply andb_true_iff in B. destruct B as [B1 B2].
    edestruct IH as [I1 I2]; eauto. edestruct run_close as [F E]; eauto. split; cbn [map]; constructor; auto.
Qed.
Lemma product_runs : forall a b (x : val f64 a) (y : val f64 b) r, all_finite a x -> all_finite b y ->
  (forall k, gp_abs (exactly a x) (exactly b y) k <= lim) ->
  outcome P (mulTy a b) (@mul expr Ring0_expr a b (given a x) (given b y)) r ->
  all_finite (mulTy a b) r /\
  forall k, Rabs (exactly (mulTy a b) r k - gp (exactly a x) (exactly b y) k)
    <= 9 * e * gp_abs (exactly a x) (exactly b y) k + 9 * et.
Proof.
  intros a b x y r Fx Fy HM O.
  set (Q := @mul trk Ring0_trk a b (track a x) (track b y)).
  pose proof (mul_rel trl_rel a b _ _ _ _ (given_trl a x Fx) (given_trl b y Fy)) as E. fold Q in E.
  pose proof (mul_rel tc_rel a b _ _ _ _ (track_tc a x) (track_tc b y)) as C. fold Q in C.
  pose proof (relv_mapv _ _ tv _ _ _ (mul_rel tv_rel a b _ _ _ _ (track_tv a x) (track_tv b y))) as V. fold Q in V.
  pose proof (relv_mapv _ _ tm _ _ _ (mul_rel tm_rel a b _ _ _ _ (track_tm a x) (track_tm b y))) as M. fold Q in M.
  assert (G : forall k, denp _ (mapv tm _ Q) k = gp_abs (exactly a x) (exactly b y) k).
  { intros k. rewrite M, (mul_denp a b (absv a x) (absv b y) k). unfold gpp, gp_abs. f_equal. apply map_ext. intros i. rewrite !den_abs. reflexivity. }
  assert (Lm : Forall (fun p => tm p <= lim) (elems _ Q)).
  { pose proof (elems_denp _ (mapv tm _ Q) lim) as Z. rewrite elems_mapv in Z. apply Forall_map in Z; [exact Z|].
    intros k. rewrite G. apply HM. }
  destruct (runs_close _ _ _ _ O E C (mul_cnt a b) Lm) as [F Cl]. split; [exact F|]. intros k.
  assert (V' : mapv (@fst R R) _ (mapv (fun p : trk => fst p) _ Q) = mapv tv _ Q) by apply mapv_mapv.
  assert (M' : mapv (@snd R R) _ (mapv (fun p : trk => fst p) _ Q) = mapv tm _ Q) by apply mapv_mapv.
  assert (D : Rabs (exactly _ r k - den _ (mapv tv _ Q) k) <= 9 * e * denp _ (mapv tm _ Q) k + 9 * et).
  { rewrite <- V', <- M'. apply den_close; [lra|lra|]. unfold relv. rewrite elems_mapv. exact Cl. }
  rewrite G, V, (mul_den a b (exactv a x) (exactv b y) k) in D. exact D.
Qed.
Lemma magSq_runs : forall t (x : val f64 t) v, all_finite t x -> cnorm2 (exactly t x) <= lim ->
  runs P (@magSq expr Ring0_expr t (given t x)) v ->
  fin v = true /\ Rabs (b2r v - cnorm2 (exactly t x)) <= 9 * e * cnorm2 (exactly t x) + 9 * et.
Proof.
  intros t x v F HM Rv.
  pose proof (@magSq_rel expr trk Ring0_expr Ring0_trk _ trl_rel t _ _ (given_trl t x F)) as E.
  pose proof (@magSq_rel trk cnt Ring0_trk Ring0_cnt _ tc_rel t _ _ (track_tc t x)) as C.
  pose proof (@magSq_rel trk R Ring0_trk Ring0_R _ tv_rel t _ _ (track_tv t x)) as V.
  pose proof (@magSq_rel trk R Ring0_trk Ring0_abs _ tm_rel t _ _ (track_tm t x)) as M.
  cbv beta in C, V, M. pose proof (magSq_cnt t) as K. rewrite <- C in K.
  rewrite magSq_abs in M. unfold exactv in V, M. rewrite (magSq_den t) in V, M.
  change (den t (mapv (fun v : f64 => b2r v) t x)) with (exactly t x) in V, M.
  pose proof (run_close _ v _ Rv E K) as T. rewrite V, M in T. apply T, HM.
Qed.
Lemma norm_runs : forall a b (x : val f64 a) (y : val f64 b) r, all_finite a x -> all_finite b y ->
  cnorm (exactly a x) * cnorm (exactly b y) <= lim ->
  outcome P (mulTy a b) (@mul expr Ring0_expr a b (given a x) (given b y)) r ->
  all_finite (mulTy a b) r /\
  cnorm (csub (exactly (mulTy a b) r) (gp (exactly a x) (exactly b y)))
    <= 26 * e * (cnorm (exactly a x) * cnorm (exactly b y)) + 26 * et.
Proof.
  intros a b x y r Fx Fy HM O. set (N := cnorm (exactly a x) * cnorm (exactly b y)) in *.
  assert (G : forall k, gp_abs (exactly a x) (exactly b y) k <= N) by (intros k; apply gp_abs_norm).
  destruct (product_runs a b x y r Fx Fy) as [F E]; auto; [intros k; eapply Rle_trans; [apply G|exact HM]|]. split; [exact F|].
  assert (HN : 0 <= N) by (apply Rmult_le_pos; apply cnorm_nonneg).
  assert (Q : 0 <= e * N) by (apply Rmult_le_pos; lra).
  eapply Rle_trans; [apply (norm_of_bound _ (9 * e * N + 9 * et)); [lra|]|lra].
  intros k. unfold csub. eapply Rle_trans; [apply E|]. apply Rplus_le_compat_r. apply Rmult_le_compat_l; [lra|apply G].
Qed.
Lemma rotation_runs : forall (s : Spinor f64) (v : Vector f64) p q, all_finite TSpin s -> all_finite TVec v ->
  let S := exactly TSpin s in let V := exactly TVec v in
  cnorm S * cnorm V <= bpow radix2 500 -> cnorm S <= bpow radix2 500 ->
  outcome P TImsp (@mul expr Ring0_expr TSpin TVec (given TSpin s) (given TVec v)) p ->
  outcome P TImsp (@mul expr Ring0_expr TImsp TSpin (given TImsp p) (given TSpin (reverse TSpin s))) q ->
  all_finite TImsp q /\
  cnorm (csub (exactly TImsp q) (gp (gp S V) (crev S))) <= 53 * e * (cnorm2 S * cnorm V) + 27 * et * (1 + cnorm S).
Proof.
  intros s v p q Fs Fv S V HSV HS Op Oq.
  pose proof (cnorm_nonneg S) as PS. pose proof (cnorm_nonneg V) as PV.
  assert (L500 : bpow radix2 500 <= lim) by (apply bpow_le; lia).
  destruct (norm_runs TSpin TVec s v p Fs Fv (Rle_trans _ _ _ HSV L500) Op) as [Fp E1].
  change (mulTy TSpin TVec) with TImsp in *. fold S V in E1.
  assert (Rv : ceq (exactly TSpin (reverse TSpin s)) (crev S)) by (intros k; apply reverse_exactly).
  assert (N : cnorm (exactly TSpin (reverse TSpin s)) = cnorm S) by (rewrite (cnorm_ceq _ _ Rv); unfold cnorm; rewrite cnorm2_rev; reflexivity).
  assert (NG : cnorm (gp S V) = cnorm S * cnorm V) by (apply norm_gp_l, exactly_rev_scalar; reflexivity).
  set (d := cnorm (csub (exactly TImsp p) (gp S V))) in *.
  pose proof (norm_le_sub (exactly TImsp p) (gp S V)) as T. fold d in T. rewrite NG in T.
  assert (U : 26 * e <= / 100) by (pose proof (u53_val); rewrite u53_val in He; lra).
  assert (B500 : 1 <= bpow radix2 500) by (change 1 with (bpow radix2 0); apply bpow_le; lia).
  assert (Te : 26 * et <= / 2).
  { assert (eta <= / 104); [|lra]. apply Rle_trans with (bpow radix2 (-7)); [apply bpow_le; lia|cbn; lra]. }
  assert (D2 : d <= 2 * bpow radix2 500).
  { assert (0 <= cnorm S * cnorm V) by (apply Rmult_le_pos; auto). assert (26 * e * (cnorm S * cnorm V) <= / 100 * (cnorm S * cnorm V)) by (apply Rmult_le_compat_r; lra). lra. }
  assert (Fr : all_finite TSpin (reverse TSpin s)).
  { unfold all_finite in *. clear - Fs. dvs. cbv -[Bopp is_finite] in *. 
    repeat match goal with H : Forall _ (_ :: _) |- _ => inversion H; clear H; subst end.
    repeat apply Forall_cons; try apply Forall_nil; rewrite ?is_finite_Bopp; assumption. }
  assert (Lq : cnorm (exactly TImsp p) * cnorm (exactly TSpin (reverse TSpin s)) <= lim).
  { rewrite N. apply Rle_trans with (4 * bpow radix2 500 * bpow radix2 500).
    - apply Rmult_le_compat; auto; try apply cnorm_nonneg. lra.
    - change 4 with (bpow radix2 2). rewrite <- !bpow_plus. apply bpow_le. lia. }
  destruct (norm_runs TImsp TSpin p (reverse TSpin s) q Fp Fr Lq Oq) as [Fq E2]. split; [exact Fq|].
  change (mulTy TImsp TSpin) with TImsp in *. rewrite N in E2.
  eapply Rle_trans; [apply (norm_sub_le _ (gp (exactly TImsp p) (exactly TSpin (reverse TSpin s))))|].
  assert (G : cnorm (csub (gp (exactly TImsp p) (exactly TSpin (reverse TSpin s))) (gp (gp S V) (crev S))) = d * cnorm S).
  { rewrite <- N. unfold d. rewrite <- (norm_gp_r _ (exactly TSpin (reverse TSpin s))) by (apply exactly_rev_scalar; reflexivity).
    apply cnorm_ceq. intros k. rewrite gp_sub_l. unfold csub. f_equal. apply gp_ceq; [intros ?; reflexivity|]. intros ?; symmetry; apply Rv. }
  rewrite G. rewrite <- (cnorm_sq S).
  set (n := cnorm S) in *. set (m := cnorm V) in *.
  assert (D : d * n <= (26 * e * (n * m) + 26 * et) * n) by (apply Rmult_le_compat_r; auto).
  assert (K : 0 <= n * m * n) by (apply Rmult_le_pos; [apply Rmult_le_pos|]; auto).
  assert (T2 : cnorm (exactly TImsp p) * n <= (n * m + d) * n) by (apply Rmult_le_compat_r; auto).
  apply (Rmult_le_compat_l (26 * e)) in T2; [|lra].
  assert (A : 26 * e * (d * n) <= 26 * e * ((26 * e * (n * m) + 26 * et) * n)) by (apply Rmult_le_compat_l; lra).
  assert (A1 : (26 * e) * (26 * e * (n * m * n)) <= / 100 * (26 * e * (n * m * n))) by (apply Rmult_le_compat_r; [apply Rmult_le_pos; lra|lra]).
  assert (B' : 0 <= et * n) by (apply Rmult_le_pos; lra).
  assert (B : (26 * e) * (26 * (et * n)) <= / 100 * (26 * (et * n))) by (apply Rmult_le_compat_r; lra).
  assert (C' : 0 <= e * (n * m * n)) by (apply Rmult_le_pos; lra).
  replace (53 * e * (n * n * m)) with (53 * (e * (n * m * n))) by ring.
  replace (26 * e * ((n * m + d) * n)) with (26 * (e * (n * m * n)) + 26 * e * (d * n)) in T2 by ring.
  replace (26 * e * ((26 * e * (n * m) + 26 * et) * n)) with ((26 * e) * (26 * e * (n * m * n)) + (26 * e) * (26 * (et * n))) in A by ring.
  replace ((26 * e * (n * m) + 26 * et) * n) with (26 * (e * (n * m * n)) + 26 * (et * n)) in D by ring.
  lra.
Qed.
End Values.

(** ** Integers *)
Fixpoint ti (e : expr) : RZ :=
  match e with
  | Num x => (b2r x, (2 ^ 24)%Z)
  | Add a b => @nadd RZ Ring0_RZ (ti a) (ti b)
  | Sub a b => @nsub RZ Ring0_RZ (ti a) (ti b)
  | Mul a b => @nmul RZ Ring0_RZ (ti a) (ti b)
  | Opp a => @nopp RZ Ring0_RZ (ti a)
  end.
Definition isint (x : f64) : Prop := fin x = true /\ exists n : Z, (Z.abs n <= 2 ^ 24)%Z /\ b2r x = IZR n.
Lemma ti_pos : forall e, (1 <= snd (ti e))%Z.
Proof.
  induction e as [x|a Ha b Hb|a Ha b Hb|a Ha b Hb|a Ha]; cbn [ti nadd nsub nmul nopp Ring0_RZ fst snd]; lia.
Qed.
Lemma ti_int : forall e, leaves isint e -> exists n, fst (ti e) = IZR n /\ (Z.abs n <= snd (ti e))%Z.
Proof.
  induction e as [x|a Ha b Hb|a Ha b Hb|a Ha b Hb|a Ha]; cbn [ti nadd nsub nmul nopp Ring0_RZ fst snd leaves].
  - intros (_ & n & B & E). exists n. auto.
  - intros [La Lb]. destruct (Ha La) as (n & E1 & B1), (Hb Lb) as (m & E2 & B2). exists (n + m)%Z. rewrite E1, E2, plus_IZR. split; [reflexivity|lia].
  - intros [La Lb]. destruct (Ha La) as (n & E1 & B1), (Hb Lb) as (m & E2 & B2). exists (n - m)%Z. rewrite E1, E2, minus_IZR. split; [reflexivity|lia].
  - intros [La Lb]. destruct (Ha La) as (n & E1 & B1), (Hb Lb) as (m & E2 & B2). exists (n * m)%Z. rewrite E1, E2, mult_IZR. split; [reflexivity|].
    rewrite Z.abs_mul. apply Z.mul_le_mono_nonneg; lia.
  - intros La. destruct (Ha La) as (n & E1 & B1). exists (- n)%Z. rewrite E1, opp_IZR. split; [reflexivity|lia].
Qed.
Lemma rm_int : forall m n, (Z.abs n <= 2 ^ 53)%Z -> rm m (IZR n) = IZR n.
Proof. intros m n H. apply rm_fmt, int_format, H. Qed.
Lemma int_small : forall n, (Z.abs n <= 2 ^ 53)%Z -> small (IZR n).
Proof.
  intros n Hn. unfold small. rewrite <- abs_IZR. apply Rle_trans with (bpow radix2 53); [|apply bpow_le; lia].
  change (bpow radix2 53) with (IZR (2 ^ 53)). apply IZR_le, Hn.
Qed.
Lemma prod_ti : forall Q a b s p, product_of a b s p -> leaves Q p ->
  leaves Q a /\ leaves Q b /\ ti p = (sg s (fst (ti a) * fst (ti b)), (snd (ti a) * snd (ti b))%Z).
Proof.
  intros Q a b s p H. induction H as [|s p H IH]; cbn [leaves].
  - intros [A B]. repeat split; auto.
  - intros L. destruct (IH L) as (A & B & E). repeat split; auto. cbn [ti nopp Ring0_RZ]. rewrite E.
    cbn [fst snd]. destruct s; cbn [sg negb]; rewrite ?Ropp_involutive; reflexivity.
Qed.
Lemma runs_int : forall P e v, runs P e v -> leaves isint e -> (snd (ti e) <= 2 ^ 53)%Z -> fin v = true /\ b2r v = fst (ti e).
Proof.
  intros P e v H. induction H as [x|m a b x y Pm Ra IHa Rb IHb|m a b x y Pm Ra IHa Rb IHb|m a b x y Pm Ra IHa Rb IHb|a x Ra IHa
    |m s p a b c x y z Pm Hp Ra IHa Rb IHb Rc IHc|m s p a b c x y z Pm Hp Ra IHa Rb IHb Rc IHc
    |m s p a b c x y z Pm Hp Ra IHa Rb IHb Rc IHc|m s p a b c x y z Pm Hp Ra IHa Rb IHb Rc IHc]; intros Lf Hm.
  - split; [apply Lf|reflexivity].
  - destruct (ti_int _ Lf) as (n & En & Bn). destruct Lf as [La Lb]. cbn [ti nadd Ring0_RZ fst snd] in *.
    pose proof (ti_pos a). pose proof (ti_pos b). destruct IHa as [Fx Ex]; [assumption|lia|]. destruct IHb as [Fy Ey]; [assumption|lia|].
    rewrite <- Ex, <- Ey in En |- *. destruct (plus_m m x y Fx Fy) as [F E]; [rewrite En; apply int_small; lia|].
    split; [exact F|]. rewrite E, En. apply rm_int; lia.
  - destruct (ti_int _ Lf) as (n & En & Bn). destruct Lf as [La Lb]. cbn [ti nsub Ring0_RZ fst snd] in *.
    pose proof (ti_pos a). pose proof (ti_pos b). destruct IHa as [Fx Ex]; [assumption|lia|]. destruct IHb as [Fy Ey]; [assumption|lia|].
    rewrite <- Ex, <- Ey in En |- *. destruct (minus_m m x y Fx Fy) as [F E]; [rewrite En; apply int_small; lia|].
    split; [exact F|]. rewrite E, En. apply rm_int; lia.
  - destruct (ti_int _ Lf) as (n & En & Bn). destruct Lf as [La Lb]. cbn [ti nmul Ring0_RZ fst snd] in *.
    pose proof (ti_pos a). pose proof (ti_pos b). destruct IHa as [Fx Ex]; [assumption|nia|]. destruct IHb as [Fy Ey]; [assumption|nia|].
    rewrite <- Ex, <- Ey in En |- *. destruct (mult_m m x y Fx Fy) as [F E]; [rewrite En; apply int_small; lia|].
    split; [exact F|]. rewrite E, En. apply rm_int; lia.
  - cbn [ti nopp Ring0_RZ fst snd leaves] in *. destruct (IHa Lf Hm) as [F E]. split; [rewrite is_finite_Bopp; exact F|]. rewrite B2R_Bopp, E. reflexivity.
  - destruct (ti_int _ Lf) as (n & En & Bn). destruct Lf as [Lp Lc]. cbn [ti nadd Ring0_RZ fst snd] in *.
    destruct (prod_ti _ _ _ _ _ Hp Lp) as (La & Lb & Ep). rewrite Ep in *. cbn [fst snd] in *.
    pose proof (ti_pos a). pose proof (ti_pos b). pose proof (ti_pos c).
    destruct IHa as [Fx Ex]; [assumption|nia|]. destruct IHb as [Fy Ey]; [assumption|nia|]. destruct IHc as [Fz Ez]; [assumption|nia|].
    rewrite <- Ex, <- Ey, <- Ez, <- sg_mul, <- signed_b2r in En |- *.
    destruct (fma_m m (signed s x) y z) as [F E]; auto; [rewrite signed_fin; exact Fx|rewrite En; apply int_small; lia|].
    split; [exact F|]. rewrite E, En. apply rm_int; lia.
  - destruct (ti_int _ Lf) as (n & En & Bn). destruct Lf as [Lc Lp]. cbn [ti nadd Ring0_RZ fst snd] in *.
    destruct (prod_ti _ _ _ _ _ Hp Lp) as (La & Lb & Ep). rewrite Ep in *. cbn [fst snd] in *.
    pose proof (ti_pos a). pose proof (ti_pos b). pose proof (ti_pos c).
    destruct IHa as [Fx Ex]; [assumption|nia|]. destruct IHb as [Fy Ey]; [assumption|nia|]. destruct IHc as [Fz Ez]; [assumption|nia|].
    rewrite Rplus_comm in En |- *. rewrite <- Ex, <- Ey, <- Ez, <- sg_mul, <- signed_b2r in En |- *.
    destruct (fma_m m (signed s x) y z) as [F E]; auto; [rewrite signed_fin; exact Fx|rewrite En; apply int_small; lia|].
    split; [exact F|]. rewrite E, En. apply rm_int; lia.
  - destruct (ti_int _ Lf) as (n & En & Bn). destruct Lf as [Lp Lc]. cbn [ti nsub Ring0_RZ fst snd] in *.
    destruct (prod_ti _ _ _ _ _ Hp Lp) as (La & Lb & Ep). rewrite Ep in *. cbn [fst snd] in *.
    pose proof (ti_pos a). pose proof (ti_pos b). pose proof (ti_pos c).
    destruct IHa as [Fx Ex]; [assumption|nia|]. destruct IHb as [Fy Ey]; [assumption|nia|]. destruct IHc as [Fz Ez]; [assumption|nia|].
    unfold Rminus in En |- *. rewrite <- Ex, <- Ey, <- Ez, <- sg_mul, <- signed_b2r, <- B2R_Bopp in En |- *. rewrite <- is_finite_Bopp in Fz.
    destruct (fma_m m (signed s x) y (Bopp z)) as [F E]; auto; [rewrite signed_fin; exact Fx|rewrite En; apply int_small; lia|].
    split; [exact F|]. rewrite E, En. apply rm_int; lia.
  - destruct (ti_int _ Lf) as (n & En & Bn). destruct Lf as [Lc Lp]. cbn [ti nsub Ring0_RZ fst snd] in *.
    destruct (prod_ti _ _ _ _ _ Hp Lp) as (La & Lb & Ep). rewrite Ep in *. cbn [fst snd] in *.
    pose proof (ti_pos a). pose proof (ti_pos b). pose proof (ti_pos c).
    destruct IHa as [Fx Ex]; [assumption|nia|]. destruct IHb as [Fy Ey]; [assumption|nia|]. destruct IHc as [Fz Ez]; [assumption|nia|].
    unfold Rminus in En |- *. rewrite Rplus_comm, <- sg_negb in En |- *. rewrite <- Ex, <- Ey, <- Ez, <- sg_mul, <- signed_b2r in En |- *.
    destruct (fma_m m (signed (negb s) x) y z) as [F E]; auto; [rewrite signed_fin; exact Fx|rewrite En; apply int_small; lia|].
    split; [exact F|]. rewrite E, En. apply rm_int; lia.
Qed.

(** All bounds 2^24, also those of constants. *)
Definition Ring0_RZ24 : Ring0 RZ := {|
  nzero := (0, (2 ^ 24)%Z); none_ := (1, (2 ^ 24)%Z);
  nadd p q := (fst p + fst q, (snd p + snd q)%Z);
  nsub p q := (fst p - fst q, (snd p + snd q)%Z);
  nmul p q := (fst p * fst q, (snd p * snd q)%Z);
  nopp p := (- fst p, snd p) |}.
Definition Ring0_b24 : Ring0 Z := {|
  nzero := (2 ^ 24)%Z; none_ := (2 ^ 24)%Z; nadd := Z.add; nsub := Z.add; nmul := Z.mul; nopp := fun z => z |}.
Lemma fst_rel24 : ring_rel Ring0_RZ24 Ring0_R isfst.
Proof. split; unfold isfst; cbn; intros; subst; reflexivity. Qed.
Lemma snd_rel24 : ring_rel Ring0_RZ24 Ring0_b24 issnd.
Proof. split; unfold issnd; intros; subst; reflexivity. Qed.
Definition til (e : expr) (p : RZ) : Prop := leaves isint e /\ ti e = p.
Lemma til_rel : ring_rel Ring0_expr Ring0_RZ24 til.
Proof.
  split; unfold til.
  - split; [|reflexivity]. split; [reflexivity|]. exists 0%Z. split; [lia|reflexivity].
  - destruct one_ok as [F E]. split.
    + split; [exact F|]. exists 1%Z. split; [lia|exact E].
    + change (ti none_) with (b2r (@none_ f64 Ring0_B), (2 ^ 24)%Z). change (@none_ f64 Ring0_B) with (none_ : f64). rewrite E. reflexivity.
  - intros a b p q [A <-] [B <-]. split; [split; assumption|reflexivity].
  - intros a b p q [A <-] [B <-]. split; [split; assumption|reflexivity].
  - intros a b p q [A <-] [B <-]. split; [split; assumption|reflexivity].
  - intros a p [A <-]. split; [exact A|reflexivity].
Qed.
Lemma given_til : forall t x, small_integers t x -> relv til t (given t x) (pairs t x).
Proof.
  intros t x H. unfold relv, given, pairs, small_integers in *. rewrite !elems_mapv.
  induction H; cbn [map]; constructor; auto. split; [assumption|reflexivity].
Qed.
Lemma mul_b24 : forall a b (x : val f64 a) (y : val f64 b),
  Forall (fun z => (z <= 2 ^ 53)%Z) (elems (mulTy a b)
    (@mul Z Ring0_b24 a b (mapv (fun _ : f64 => (2 ^ 24)%Z) a x) (mapv (fun _ : f64 => (2 ^ 24)%Z) b y))).
Proof. intros a b x y. rewrite !mapv_const. apply forallb_le. clear. destruct a, b; vm_compute; reflexivity. Qed.
Lemma magSq_b24 : forall t (x : val f64 t),
  (@magSq Z Ring0_b24 t (mapv (fun _ : f64 => (2 ^ 24)%Z) t x) <= 2 ^ 53)%Z.
Proof. intros t x. rewrite mapv_const. clear. apply Z.leb_le. destruct t; vm_compute; reflexivity. Qed.
Lemma runs_ints : forall P es vs ps rs zs, Forall2 (runs P) es vs -> Forall2 til es ps -> Forall2 isfst ps rs -> Forall2 issnd ps zs ->
  Forall (fun z => (z <= 2 ^ 53)%Z) zs -> Forall2 exact_rel vs rs.
Proof.
  intros P es vs ps rs zs H. revert ps rs zs. induction H as [|ex v es vs Hv H IH]; intros ps rs zs T F S B.
  - inversion T; subst. inversion F; subst. constructor.
  - inversion T as [|? p ? ps' [Lf Ep] T']; subst. inversion F as [|? r ? rs' Fr F']; subst. inversion S as [|? z ? zs' Sz S']; subst.
    inversion B as [|? ? Bz B']; subst. unfold isfst, issnd in *. subst. constructor; [|eapply IH; eauto].
    apply (runs_int _ _ _ Hv Lf Bz).
Qed.
Lemma product_ints : forall P a b (x : val f64 a) (y : val f64 b) r, small_integers a x -> small_integers b y ->
  outcome P (mulTy a b) (@mul expr Ring0_expr a b (given a x) (given b y)) r ->
  all_finite (mulTy a b) r /\ ceq (exactly (mulTy a b) r) (gp (exactly a x) (exactly b y)).
Proof.
  intros P a b x y r Hx Hy O.
  pose proof (mul_rel til_rel a b _ _ _ _ (given_til a x Hx) (given_til b y Hy)) as G.
  pose proof (mul_rel fst_rel24 a b _ _ _ _ (pairs_fst a x) (pairs_fst b y)) as P1.
  pose proof (mul_rel snd_rel24 a b _ _ _ _ (pairs_snd a x) (pairs_snd b y)) as P2.
  pose proof (runs_ints _ _ _ _ _ _ O G P1 P2 (mul_b24 a b x y)) as E.
  apply exact_val in E. destruct E as [F E]. split; [exact F|].
  intros k. unfold exactly. fold (exactv (mulTy a b) r). rewrite E. apply mul_den.
Qed.
Lemma magSq_ints : forall P t (x : val f64 t) v, small_integers t x ->
  runs P (@magSq expr Ring0_expr t (given t x)) v -> fin v = true /\ b2r v = cnorm2 (exactly t x).
Proof.
  intros P t x v Hx O.
  pose proof (@magSq_rel expr RZ Ring0_expr Ring0_RZ24 _ til_rel t _ _ (given_til t x Hx)) as [G E].
  pose proof (@magSq_rel RZ R Ring0_RZ24 Ring0_R _ fst_rel24 t _ _ (pairs_fst t x)) as P1.
  pose proof (@magSq_rel RZ Z Ring0_RZ24 Ring0_b24 _ snd_rel24 t _ _ (pairs_snd t x)) as P2.
  unfold isfst, issnd in P1, P2. pose proof (magSq_b24 t x) as B. rewrite <- P2, <- E in B.
  pose proof (runs_int _ _ _ O G B) as T. rewrite E, P1 in T. unfold exactv in T. rewrite (magSq_den t) in T. exact T.
Qed.

(** ** The model's own result *)
Lemma runs_rel : ring_rel Ring0_expr Ring0_B (runs default_mode).
Proof.
  split; intros.
  - exact (run_num _ _).
  - exact (run_num _ _).
  - exact (run_add _ mode_NE _ _ _ _ eq_refl H H0).
  - exact (run_sub _ mode_NE _ _ _ _ eq_refl H H0).
  - exact (run_mul _ mode_NE _ _ _ _ eq_refl H H0).
  - exact (run_opp _ _ _ H).
Qed.
Lemma given_runs : forall P t x, relv (runs P) t (given t x) x.
Proof.
  intros P t x. unfold relv, given. rewrite elems_mapv. induction (elems t x); cbn [map]; constructor; auto. apply run_num.
Qed.
Lemma mul_is_run : forall a b (x : val f64 a) (y : val f64 b),
  outcome default_mode (mulTy a b) (@mul expr Ring0_expr a b (given a x) (given b y)) (mul a b x y).
Proof. intros a b x y. exact (mul_rel runs_rel a b _ _ _ _ (given_runs _ a x) (given_runs _ b y)). Qed.
Lemma magSq_is_run : forall t (x : val f64 t), runs default_mode (@magSq expr Ring0_expr t (given t x)) (magSq t x).
Proof. intros t x. exact (@magSq_rel expr f64 Ring0_expr Ring0_B _ runs_rel t _ _ (given_runs _ t x)). Qed.

(** ** Nearest modes, any mode *)
Lemma hypN1 : 0 < u53 <= 2 * u53.
Proof. pose proof u53_pos. lra. Qed.
Lemma hypN2 : 0 < eta <= 2 * eta.
Proof. pose proof eta_pos. lra. Qed.
Lemma hypA1 : 0 < 2 * u53 <= 2 * u53.
Proof. pose proof u53_pos. lra. Qed.
Lemma hypA2 : 0 < 2 * eta <= 2 * eta.
Proof. pose proof eta_pos. lra. Qed.
Definition product_nearest := product_runs nearest_mode u53 eta hypN1 hypN2 rm_any_N rm_plus_N.
Definition product_any P := product_runs P (2 * u53) (2 * eta) hypA1 hypA2 (fun m _ => rm_any m) (fun m _ => rm_plus m).
Definition magSq_nearest := magSq_runs nearest_mode u53 eta hypN1 hypN2 rm_any_N rm_plus_N.
Definition magSq_any P := magSq_runs P (2 * u53) (2 * eta) hypA1 hypA2 (fun m _ => rm_any m) (fun m _ => rm_plus m).
Definition rotation_nearest := rotation_runs nearest_mode u53 eta hypN1 hypN2 rm_any_N rm_plus_N.
Definition rotation_any P := rotation_runs P (2 * u53) (2 * eta) hypA1 hypA2 (fun m _ => rm_any m) (fun m _ => rm_plus m).

(** ** Contraction is visible *)
Lemma sub_self : forall x y : f64, fin (Bminus mode_NE (Bmult mode_NE x y) (Bmult mode_NE y x)) = true ->
  b2r (Bminus mode_NE (Bmult mode_NE x y) (Bmult mode_NE y x)) = 0.
Proof.
  intros x y F. apply bminus_fin in F. destruct F as (F1 & F2 & E). rewrite E.
  apply bmult_fin in F1. apply bmult_fin in F2. destruct F1 as (_ & _ & E1), F2 as (_ & _ & E2). rewrite E1, E2, (Rmult_comm (b2r y)), Rminus_eq_0. apply round_0, valid_rnd_N.
Qed.
Lemma self_product : forall v : Vector f64, all_finite TSpin (mul TVec TVec v v) ->
  exactly TSpin (mul TVec TVec v v) bE12 = 0 /\ exactly TSpin (mul TVec TVec v v) bE13 = 0 /\ exactly TSpin (mul TVec TVec v v) bE23 = 0.
Proof.
  intros [[a b c]] F. unfold all_finite in F.
  change (elems TSpin (mul TVec TVec (Vec a b c) (Vec a b c))) with
   [Bplus mode_NE (Bplus mode_NE (Bplus mode_NE (B754_zero false) (Bmult mode_NE a a)) (Bmult mode_NE b b)) (Bmult mode_NE c c);
    Bminus mode_NE (Bmult mode_NE b c) (Bmult mode_NE c b);
    Bminus mode_NE (Bmult mode_NE c a) (Bmult mode_NE a c);
    Bminus mode_NE (Bmult mode_NE a b) (Bmult mode_NE b a)] in F.
  inversion F as [|? ? _ F1]; subst. inversion F1 as [|? ? H1 F2]; subst. inversion F2 as [|? ? H2 F3]; subst. inversion F3 as [|? ? H3 _]; subst.
  apply sub_self in H1, H2, H3. split; [exact H3|]. split; [|exact H1].
  change (- b2r (Bminus mode_NE (Bmult mode_NE c a) (Bmult mode_NE a c)) = 0). rewrite H2. apply Ropp_0.
Qed.
Definition wit : f64 := f64_lit 1073741825 (-30).
Definition res : f64 := f64_lit 1 (-60).
Definition zer : f64 := B754_zero false.
Lemma contraction : exists (v : Vector f64) (r : Spinor f64),
  outcome default_mode TSpin (@mul expr Ring0_expr TVec TVec (given TVec v) (given TVec v)) r /\
  all_finite TSpin r /\ exactly TSpin r bE12 <> 0.
Proof.
  exists (Vec wit wit zer), (mkSpin (Sca (Bplus mode_NE (Bplus mode_NE (Bplus mode_NE zer (Bmult mode_NE wit wit)) (Bmult mode_NE wit wit)) (Bmult mode_NE zer zer)))
    (Biv (Bminus mode_NE (Bmult mode_NE wit zer) (Bmult mode_NE zer wit)) (Bminus mode_NE (Bmult mode_NE zer wit) (Bmult mode_NE wit zer))
      (Bfma mode_NE wit wit (Bopp (Bmult mode_NE wit wit))))).
  split; [|split].
  - unfold outcome. 
    assert (M : forall x y, runs default_mode (Mul (Num x) (Num y)) (Bmult mode_NE x y)) by (intros x y; apply run_mul; [reflexivity|apply run_num|apply run_num]).
    repeat apply Forall2_cons; try apply Forall2_nil.
    + apply run_add; [reflexivity| |apply M]. apply run_add; [reflexivity| |apply M]. apply run_add; [reflexivity|apply run_num|apply M].
    + apply run_sub; [reflexivity|apply M|apply M].
    + apply run_sub; [reflexivity|apply M|apply M].
    + refine (run_fms_l _ mode_NE false _ _ _ _ wit wit _ eq_refl (prod_mul _ _) _ _ _); [apply run_num|apply run_num|apply M].
  - repeat apply Forall_cons; try apply Forall_nil; vm_compute; reflexivity.
  - assert (E : Bfma mode_NE wit wit (Bopp (Bmult mode_NE wit wit)) = res) by (apply B2SF_inj; vm_compute; reflexivity).
    intros H. change (b2r (Bfma mode_NE wit wit (Bopp (Bmult mode_NE wit wit))) = 0) in H. rewrite E in H.
    assert (N : Bcompare res zer = Some Gt) by (vm_compute; reflexivity).
    rewrite Bcompare_correct in N by (vm_compute; reflexivity). injection N as N. apply Rcompare_Gt_inv in N.
    change (0 < b2r res) in N. lra.
Qed.
