(** * Computed angles: proofs. *)

Require Import Reals ZArith List Bool Lra Lia.
From Flocq Require Import Core BinarySingleNaN.
Require Import Verif.Num Verif.Types Verif.Priv Verif.OpsUni Verif.OpsAdd Verif.OpsSub Verif.OpsMul Verif.Const Verif.Validity
  Verif.Func Verif.Compare Verif.SpecCl Verif.AlgTac Verif.SpecFunc Verif.FuncFacts Verif.Rel Verif.B64 Verif.B64Facts Verif.SpecRound Verif.SpecValid
  Verif.ValidFacts Verif.IntFacts Verif.ErrFacts Verif.SpecAcc Verif.BoundFacts Verif.AccFacts Verif.AccThm Verif.NormFacts
  Verif.SpecExp Verif.ExpFacts Verif.ExpThm Verif.LogThm Verif.ExpAcc Verif.LogAcc Verif.RootAcc Verif.SpecAngle Verif.LoopFacts Verif.ScaleThm Verif.PiFacts.
Import ListNotations.
Local Open Scope R_scope.

(** ** Points of the circle that are near belong to angles that are near *)
Lemma chord_angle : forall p t d, 0 <= p <= PI -> 0 <= t <= PI ->
  (cos p - cos t) * (cos p - cos t) + (sin p - sin t) * (sin p - sin t) <= d * d -> 0 <= d -> Rabs (p - t) <= 17 / 10 * d.
Proof.
  intros p t d Hp Ht H Hd. pose proof PI_upper.
  set (x := Rabs (p - t) / 2). assert (X : 0 <= x <= 1571 / 1000).
  { unfold x. assert (Rabs (p - t) <= PI) by (apply Rabs_le; lra). pose proof (Rabs_pos (p - t)). lra. }
  assert (C : cos (p - t) = 1 - 2 * sin x * sin x).
  { replace (cos (p - t)) with (cos (2 * x)); [apply cos_2a_sin|].
    unfold x. replace (2 * (Rabs (p - t) / 2)) with (Rabs (p - t)) by lra. unfold Rabs. destruct (Rcase_abs _); [apply cos_neg|reflexivity]. }
  rewrite cos_minus in C.
  pose proof (sin2_cos2 p) as sp. pose proof (sin2_cos2 t) as st. unfold Rsqr in sp, st.
  assert (S1 : 4 * (sin x * sin x) <= d * d) by nra.
  pose proof (sin_taylor x ltac:(lra)) as [T1 T2].
  assert (S2 : 10 / 17 * x <= sin x).
  { assert (x * x <= 2469 / 1000) by nra.
    assert (P : 0 <= x * x) by nra.
    assert (K : 10 / 17 <= 1 - x * x / 6 + (x * x) * (x * x) / 120 - (x * x) * (x * x) * (x * x) / 5040).
    { assert (0 <= (x * x) * (x * x)) by nra. assert ((x * x) * (x * x) * (x * x) <= (x * x) * (x * x) * 3) by (apply Rmult_le_compat_l; lra). lra. }
    assert (M : x * (10 / 17) <= x * (1 - x * x / 6 + (x * x) * (x * x) / 120 - (x * x) * (x * x) * (x * x) / 5040)) by (apply Rmult_le_compat_l; lra).
    replace (x * (1 - x * x / 6 + (x * x) * (x * x) / 120 - (x * x) * (x * x) * (x * x) / 5040)) with (x - x ^ 3 / 6 + x ^ 5 / 120 - x ^ 7 / 5040) in M by (cbn [pow]; field).
    lra. }
  assert (S3 : 2 * sin x <= d).
  { apply Rsqr_incr_0_var; [unfold Rsqr; lra|exact Hd]. }
  unfold x in S2, S3. lra.
Qed.
(** The same for an angle slightly beyond a half turn. *)
Lemma chord_angle' : forall p t d b, 0 <= p <= PI + b -> 0 <= b <= 1 -> 0 <= t <= PI ->
  (cos p - cos t) * (cos p - cos t) + (Rabs (sin p) - sin t) * (Rabs (sin p) - sin t) <= d * d -> 0 <= d -> Rabs (p - t) <= 17 / 10 * d + 2 * b.
Proof.
  intros p t d b Hp Hb Ht H Hd. pose proof PI2_3_2. pose proof PI_4.
  destruct (Rle_or_lt p PI) as [h|h].
  - rewrite (Rabs_pos_eq (sin p)) in H by (apply sin_ge_0; lra). pose proof (chord_angle p t d ltac:(lra) Ht H Hd). lra.
  - assert (E1 : cos p = cos (2 * PI - p)) by (rewrite cos_minus, cos_2PI, sin_2PI; ring).
    assert (E2 : Rabs (sin p) = sin (2 * PI - p)).
    { rewrite sin_minus, cos_2PI, sin_2PI. rewrite Rabs_left1; [ring|]. apply sin_le_0; lra. }
    rewrite E1, E2 in H. pose proof (chord_angle (2 * PI - p) t d ltac:(lra) Ht H Hd) as K.
    replace (p - t) with ((2 * PI - p - t) + 2 * (p - PI)) by ring. eapply Rle_trans; [apply Rabs_triang|]. rewrite (Rabs_pos_eq (2 * (p - PI))) by lra. lra.
Qed.

(** ** The bivector part *)
Definition cbiv (a : clf) : clf := fun k => if Nat.eqb (grade k) 2 then a k else 0.
Lemma cbiv_sub : forall a b, ceq (cbiv (csub a b)) (csub (cbiv a) (cbiv b)).
Proof. intros a b k. unfold cbiv, csub. destruct (Nat.eqb _ _); ring. Qed.
Lemma parts_le : forall a, a bS * a bS + cnorm (cbiv a) * cnorm (cbiv a) <= cnorm a * cnorm a.
Proof.
  intros a. rewrite !cnorm_sq'. unfold cnorm2, cbiv. cbn. unfold bS.
  repeat match goal with |- context [a ?k] => generalize (a k); intro end. nra.
Qed.
Lemma circle_near : forall E W, (E bS - W bS) * (E bS - W bS) + (cnorm (cbiv E) - cnorm (cbiv W)) * (cnorm (cbiv E) - cnorm (cbiv W))
  <= cnorm (csub E W) * cnorm (csub E W).
Proof.
  intros E W. eapply Rle_trans; [|apply parts_le]. unfold csub at 1 2. apply Rplus_le_compat_l.
  rewrite (cnorm_ceq _ _ (cbiv_sub E W)).
  pose proof (norm_le_sub (cbiv E) (cbiv W)) as g1. pose proof (norm_le_sub (cbiv W) (cbiv E)) as g2.
  rewrite (cnorm_ceq (csub (cbiv W) (cbiv E)) (cscale (-1) (csub (cbiv E) (cbiv W)))) in g2 by (intro k; unfold cscale, csub; ring).
  rewrite cnorm_scale, Rabs_left1 in g2 by lra. pose proof (cnorm_nonneg (csub (cbiv E) (cbiv W))). nra.
Qed.
Lemma cexp_polar : forall (x : BiVector f64) E, is_cexp (exactly TBiv x) E -> let p := cnorm (exactly TBiv x) in
  E bS = cos p /\ cnorm (cbiv E) = Rabs (sin p).
Proof.
  intros x E HE p. set (X := exactly TBiv x) in *.
  assert (Q : ceq E (cadd (cscale (cos (cnorm X)) cone) (cscale (sinc (cnorm X)) X))).
  { apply (is_cexp_unique X); [exact HE|]. apply cexp_square. apply (biv_sq (mapv (fun v : f64 => b2r v) TBiv x)). }
  fold p in Q. split.
  - rewrite (Q bS). unfold cadd, cscale, X. destruct x as [[x1 x2 x3]]. cbv -[B2R Rmult Rplus Ropp IZR cos sinc p]. ring.
  - rewrite (cnorm_ceq (cbiv E) (cscale (sinc p) X)).
    + rewrite cnorm_scale. fold p. pose proof (sinc_mul p) as S. rewrite <- (Rabs_pos_eq p) at 2 by apply cnorm_nonneg.
      rewrite <- Rabs_mult, Rmult_comm, S. reflexivity.
    + intros k. unfold cbiv. rewrite (Q k). unfold X, cadd, cscale. destruct x as [[x1 x2 x3]]. dblade k; cbv -[B2R Rmult Rplus Ropp IZR cos sinc p]; ring.
Qed.

(** ** The angle of the logarithm *)
Lemma part_angle : forall (x : BiVector f64) U eps q th W e, log_part x U eps q -> 0 <= eps <= / 8192 -> cnorm (csub U W) <= e ->
  0 <= th <= PI -> W bS = cos th -> cnorm (cbiv W) = sin th ->
  Rabs (cnorm (exactly TBiv x) - th) <= 37 / 10 * eps + 17 / 10 * (q + e) + 128 * u53.
Proof.
  intros x U eps q th W e (F & B & C) He HW Ht W0 Wb. destruct (cexp_exists (exactly TBiv x)) as [E HE]. specialize (C E HE).
  destruct (cexp_polar x E HE) as [E0 Eb]. pose proof (circle_near E W) as K. rewrite E0, Eb, W0, Wb in K.
  pose proof (norm_sub_le E U W) as g. pose proof (cnorm_nonneg (csub E W)). pose proof u53_pos.
  assert (U1 : u53 <= / 1024) by (rewrite u53_val; lra).
  assert (Bp : 0 <= cnorm (exactly TBiv x) <= PI + (eps + 64 * u53)) by (split; [apply cnorm_nonneg|lra]).
  pose proof (chord_angle' _ th (cnorm (csub E W)) (eps + 64 * u53) Bp ltac:(lra) Ht K ltac:(lra)). lra.
Qed.

Section Lib.
Context {L : Libm f64}.
Lemma atan2_eps : forall eps, atan2_within eps L -> 0 <= eps.
Proof.
  intros eps TA. destruct one_ok as [F E]. destruct (TA (none_ : f64) (none_ : f64) F F) as (_ & a & _ & H & _); [rewrite E; lra|].
  eapply Rle_trans; [apply Rabs_pos|exact H].
Qed.
Lemma polar_parts : forall W N th, 0 <= th <= PI -> 0 <= N -> W bS = N * cos th -> cnorm W = N -> (forall k, Nat.odd (grade k) = true -> W k = 0) ->
  cnorm (cbiv W) = N * sin th.
Proof.
  intros W N th Ht HN W0 W1 Od.
  assert (Q : cnorm (cbiv W) * cnorm (cbiv W) = cnorm W * cnorm W - W bS * W bS).
  { rewrite !cnorm_sq'. unfold cnorm2, cbiv. cbn. unfold bS.
    rewrite (Od bE1), (Od bE2), (Od bE3), (Od bE123) by reflexivity. ring. }
  rewrite W1, W0 in Q. pose proof (sin2_cos2 th) as sc. unfold Rsqr in sc.
  assert (S0 : 0 <= sin th) by (apply sin_ge_0; lra).
  apply Rsqr_inj; [apply cnorm_nonneg|apply Rmult_le_pos; lra|]. unfold Rsqr. rewrite Q.
  replace (N * sin th * (N * sin th)) with (N * N * (sin th * sin th)) by ring. replace (sin th * sin th) with (1 - cos th * cos th) by lra. ring.
Qed.
Lemma spin_odd : forall (s : Spinor f64) k, Nat.odd (grade k) = true -> exactly TSpin s k = 0.
Proof. intros s k. destruct s as [[[s0]] [[s1 s2 s3]]]. dblade k; intros h; try discriminate h; reflexivity. Qed.

Lemma product_angle : forall eps, atan2_within eps L -> eps <= / 8192 ->
  forall (s : Spinor f64) (plane : BiVector f64) G M th e, log_domain s ->
  all_finite TBiv plane -> bpow radix2 (-480) <= cnorm (exactly TBiv plane) <= bpow radix2 480 ->
  0 < M -> cnorm G = M -> (forall k, Nat.odd (grade k) = true -> G k = 0) -> cnorm (csub (exactly TSpin s) G) <= e * M -> 0 <= e <= bpow radix2 (-24) ->
  0 <= th <= PI -> G bS = M * cos th ->
  let phi := cnorm (exactly TBiv (spinBiv (logG2 s plane))) in
  Rabs (phi - th) <= 4 * eps + 4 * e + bpow radix2 (-21) /\
  (bpow radix2 (-22) <= sin th -> Rabs (phi - th) <= 4 * eps + 4 * e + 330 * unit_roundoff /\
    forall E, is_cexp (exactly TBiv (spinBiv (logG2 s plane))) E -> cnorm (csub E (cscale (/ M) G)) <= eps + 2 * e + 114 * unit_roundoff).
Proof.
  intros eps TA He s plane G M th e D Fp Hp HM GM Od SG E0 Ht G0 phi. pose proof (atan2_eps eps TA) as He0.
  change unit_roundoff with u53 in *. pose proof u53_pos. assert (U1 : u53 <= / 1024) by (rewrite u53_val; lra).
  destruct (log_part_ok eps TA He0 He s plane D Fp Hp) as [P1 P2]. cbv zeta in P1, P2. set (N := cnorm (exactly TSpin s)) in *.
  set (S := exactly TSpin s) in *. set (W := cscale (/ M) G). set (U := cscale (/ N) S) in *.
  assert (PN : 0 < N) by (destruct D as (_ & [lo _] & _); eapply Rlt_le_trans; [apply bpow_gt_0|exact lo]).
  assert (W1 : cnorm W = 1) by (unfold W; rewrite cnorm_scale, GM, Rabs_pos_eq by (left; apply Rinv_0_lt_compat; lra); field; lra).
  assert (W0 : W bS = 1 * cos th) by (unfold W, cscale; rewrite G0; field; lra).
  assert (Wb : cnorm (cbiv W) = 1 * sin th) by (apply polar_parts; auto; [lra|]; intros k hk; unfold W, cscale; rewrite (Od k hk); ring).
  rewrite Rmult_1_l in W0, Wb.
  assert (NM : Rabs (M - N) <= e * M).
  { pose proof (norm_le_sub S G) as g1. pose proof (norm_le_sub G S) as g2. fold N in g1, g2. rewrite GM in g1, g2.
    rewrite (cnorm_ceq (csub G S) (cscale (-1) (csub S G))) in g2 by (intro k; unfold cscale, csub; ring). rewrite cnorm_scale, Rabs_left1 in g2 by lra.
    apply Rabs_le. lra. }
  assert (UW : cnorm (csub U W) <= 2 * e).
  { rewrite (cnorm_ceq (csub U W) (cadd (cscale ((M - N) / (M * N)) S) (cscale (/ M) (csub S G)))) by (intro k; unfold U, W, cadd, csub, cscale; field; lra).
    eapply Rle_trans; [apply cnorm_triangle|]. rewrite !cnorm_scale. fold N. unfold Rdiv. rewrite Rabs_mult, !(Rabs_pos_eq (/ _)) by (left; apply Rinv_0_lt_compat; nra).
    replace (Rabs (M - N) * / (M * N) * N) with (/ M * Rabs (M - N)) by (field; lra). rewrite <- Rmult_plus_distr_l.
    apply Rle_trans with (/ M * (2 * e * M)); [apply Rmult_le_compat_l; [left; apply Rinv_0_lt_compat; lra|lra]|right; field; lra]. }
  split.
  - pose proof (part_angle _ U eps _ th W _ P1 (conj He0 He) UW Ht W0 Wb) as K. fold phi in K. eapply Rle_trans; [exact K|].
    change (-21)%Z with (1 + -22)%Z. rewrite bpow_plus. change (bpow radix2 1) with 2. 
    assert (500 * u53 <= bpow radix2 (-22)).
    { apply Rle_trans with (bpow radix2 9 * bpow radix2 (-53)); [apply Rmult_le_compat_r; [apply bpow_ge_0|change (bpow radix2 9) with 512; lra]|rewrite <- bpow_plus; apply bpow_le; lia]. }
    lra.
  - intros hs. assert (Bs : bpow radix2 (-23) * N <= cnorm (exactly TBiv (spinBiv s))).
    { replace (cnorm (exactly TBiv (spinBiv s))) with (cnorm (cbiv S)).
      2:{ apply cnorm_ceq. intros k. unfold S, cbiv. destruct s as [[[s0]] [[s1 s2 s3]]]. dblade k; reflexivity. }
      pose proof (circle_near U W) as K. rewrite Wb in K.
      assert (B1 : sin th - cnorm (cbiv U) <= 2 * e).
      { pose proof (Rle_0_sqr (U bS - W bS)) as q0. unfold Rsqr in q0. pose proof (cnorm_nonneg (csub U W)).
        apply Rnot_lt_le; intros h. nra. }
      assert (B2 : cnorm (cbiv U) = / N * cnorm (cbiv S)).
      { rewrite (cnorm_ceq (cbiv U) (cscale (/ N) (cbiv S))) by (intro k; unfold U, cbiv, cscale; destruct (Nat.eqb _ _); ring).
        rewrite cnorm_scale, Rabs_pos_eq; [reflexivity|left; apply Rinv_0_lt_compat; lra]. }
      assert (B3 : bpow radix2 (-23) <= cnorm (cbiv U)).
      { change (-22)%Z with (1 + -23)%Z in hs. rewrite bpow_plus in hs. change (bpow radix2 1) with 2 in hs.
        assert (2 * bpow radix2 (-24) = bpow radix2 (-23)) by (change 2 with (bpow radix2 1); rewrite <- bpow_plus; reflexivity).
        lra. }
      rewrite B2 in B3. apply Rmult_le_reg_l with (/ N); [apply Rinv_0_lt_compat; lra|].
      replace (/ N * (bpow radix2 (-23) * N)) with (bpow radix2 (-23)) by (field; lra). exact B3. }
    split.
    + pose proof (part_angle _ U eps _ th W _ (P2 Bs) (conj He0 He) UW Ht W0 Wb) as K. fold phi in K. lra.
    + intros E HE. destruct (P2 Bs) as (_ & _ & C). specialize (C E HE). pose proof (norm_sub_le E U W). fold W. lra.
Qed.

(** Any value's computed magnitude, small ones too. *)
Lemma magnitude_abs : forall t (x : val f64 t), all_finite t x -> cnorm (exactly t x) <= bpow radix2 480 ->
  fin (magnitude t x) = true /\ Rabs (b2r (magnitude t x) - cnorm (exactly t x)) <= 8 * u53 * cnorm (exactly t x) + bpow radix2 (-400).
Proof.
  intros t x F H. pose proof (cnorm_nonneg (exactly t x)) as N0. pose proof u53_pos. pose proof (bpow_ge_0 radix2 (-400)) as B4.
  destruct (Rle_or_lt (bpow radix2 (-480)) (cnorm (exactly t x))) as [h|h].
  - destruct (magnitude_facts t x F (conj h H)) as [Fm E]. split; [exact Fm|lra].
  - destruct (magSq_within (-480) t x ltac:(lia)) as [Fm Bm]; [apply norm_within; [exact F|lra]|].
    destruct (bsqrt_ok _ Fm (magSq_notneg t x)) as [G' E]. change (magnitude t x) with (Bsqrt mode_NE (magSq t x)). split; [exact G'|]. rewrite E.
    assert (X : rnd64 (bpow radix2 (-478)) = bpow radix2 (-478)) by (apply round_generic; [apply valid_rnd_N|apply fmt_bpow; lia]).
    assert (Hi : rnd64 (sqrt (b2r (magSq t x))) <= bpow radix2 (-478)).
    { rewrite <- X. apply rnd_mono. rewrite <- (sqrt_square (bpow radix2 (-478))) by apply bpow_ge_0. apply sqrt_le_1_alt. rewrite <- bpow_plus.
      eapply Rle_trans; [apply Rle_abs|]. eapply Rle_trans; [exact Bm|]. apply bpow_le; lia. }
    assert (Lo : 0 <= rnd64 (sqrt (b2r (magSq t x)))) by (apply round_ge_generic; [apply FLT_exp_valid; reflexivity|apply valid_rnd_N|apply generic_format_0|apply sqrt_pos]).
    assert (bpow radix2 (-478) <= bpow radix2 (-400)) by (apply bpow_le; lia). assert (bpow radix2 (-480) <= bpow radix2 (-400)) by (apply bpow_le; lia).
    assert (0 <= 8 * u53 * cnorm (exactly t x)) by (apply Rmult_le_pos; lra). apply Rabs_le. lra.
Qed.
Lemma measured : forall (x : BiVector f64) th d, all_finite TBiv x -> 0 <= th <= PI -> 0 <= d <= 1 -> Rabs (cnorm (exactly TBiv x) - th) <= d ->
  fin (magnitude TBiv x) = true /\ Rabs (b2r (magnitude TBiv x) - th) <= d + 41 * u53.
Proof.
  intros x th d F Ht Hd H. pose proof PI_4. pose proof u53_pos. pose proof H as H'. apply Rabs_le_inv in H'.
  assert (B480 : 8 <= bpow radix2 480) by (change 8 with (bpow radix2 3); apply bpow_le; lia).
  destruct (magnitude_abs TBiv x F ltac:(lra)) as [Fm E]. split; [exact Fm|].
  assert (T4 : bpow radix2 (-400) <= u53) by (unfold u53; apply bpow_le; lia).
  replace (b2r (magnitude TBiv x) - th) with ((b2r (magnitude TBiv x) - cnorm (exactly TBiv x)) + (cnorm (exactly TBiv x) - th)) by ring.
  eapply Rle_trans; [apply Rabs_triang|].
  assert (8 * u53 * cnorm (exactly TBiv x) <= 8 * u53 * 5) by (apply Rmult_le_compat_l; lra). lra.
Qed.

(** ** What a client reads off *)
Lemma log_finite : forall eps, atan2_within eps L -> eps <= / 8192 -> forall (s : Spinor f64) (plane : BiVector f64), log_domain s ->
  all_finite TBiv plane -> bpow radix2 (-480) <= cnorm (exactly TBiv plane) <= bpow radix2 480 -> all_finite TBiv (spinBiv (logG2 s plane)).
Proof.
  intros eps TA He s plane D Fp Hp. destruct (log_part_ok eps TA (atan2_eps eps TA) He s plane D Fp Hp) as [[F _] _]. exact F.
Qed.
Lemma spinor_angle : forall eps, atan2_within eps L -> eps <= / 8192 ->
  forall (s : Spinor f64) (plane : BiVector f64) th, log_domain s ->
  all_finite TBiv plane -> bpow radix2 (-480) <= cnorm (exactly TBiv plane) <= bpow radix2 480 ->
  0 <= th <= PI -> b2r (sca_0 (spinSca s)) = cnorm (exactly TSpin s) * cos th ->
  let phi := magnitude TBiv (spinBiv (logG2 s plane)) in
  fin phi = true /\ Rabs (b2r phi - th) <= 4 * eps + bpow radix2 (-20) /\
  (bpow radix2 (-22) <= sin th -> Rabs (b2r phi - th) <= 4 * eps + 380 * unit_roundoff).
Proof.
  intros eps TA He s plane th D Fp Hp Ht Hs phi. pose proof (atan2_eps eps TA) as He0. pose proof u53_pos as Pu.
  pose proof (log_finite eps TA He s plane D Fp Hp) as Fx. change unit_roundoff with u53.
  assert (PN : 0 < cnorm (exactly TSpin s)) by (destruct D as (_ & [lo _] & _); eapply Rlt_le_trans; [apply bpow_gt_0|exact lo]).
  assert (Z : cnorm (csub (exactly TSpin s) (exactly TSpin s)) <= 0 * cnorm (exactly TSpin s)).
  { rewrite (cnorm_ceq _ (cscale 0 (exactly TSpin s))) by (intro k; unfold csub, cscale; ring). rewrite cnorm_scale, Rabs_R0. lra. }
  assert (e0 : 0 <= 0 <= bpow radix2 (-24)) by (split; [lra|apply bpow_ge_0]).
  destruct (product_angle eps TA He s plane (exactly TSpin s) _ th 0 D Fp Hp PN eq_refl (spin_odd s) Z e0 Ht Hs) as [A B].
  change unit_roundoff with u53 in B.
  assert (B21 : bpow radix2 (-21) <= / 1024) by (change (/ 1024) with (bpow radix2 (-10)); apply bpow_le; lia).
  assert (U1 : u53 <= / 8192) by (rewrite u53_val; lra). pose proof (bpow_gt_0 radix2 (-21)).
  assert (B20 : bpow radix2 (-20) = 2 * bpow radix2 (-21)) by (change 2 with (bpow radix2 1); rewrite <- bpow_plus; reflexivity).
  assert (BU : 41 * u53 <= bpow radix2 (-21)).
  { apply Rle_trans with (bpow radix2 6 * bpow radix2 (-53)); [apply Rmult_le_compat_r; [apply bpow_ge_0|change (bpow radix2 6) with 64; lra]|rewrite <- bpow_plus; apply bpow_le; lia]. }
  destruct (measured _ th (4 * eps + 4 * 0 + bpow radix2 (-21)) Fx Ht ltac:(lra) A) as [Fm Em]. fold phi in Fm, Em. split; [exact Fm|]. split; [lra|].
  intros hs. specialize (B hs). destruct B as [B _]. destruct (measured _ th (4 * eps + 4 * 0 + 330 * u53) Fx Ht ltac:(lra) B) as [_ Eb]. fold phi in Eb. lra.
Qed.

(** Vectors: the scalar part of their exact product is the scalar product. *)

Lemma vectors_angle : forall eps, atan2_within eps L -> eps <= / 8192 ->
  forall (a b : Vector f64) (plane : BiVector f64) th, all_finite TVec a -> all_finite TVec b -> log_domain (mul TVec TVec b a) ->
  all_finite TBiv plane -> bpow radix2 (-480) <= cnorm (exactly TBiv plane) <= bpow radix2 480 ->
  let M := cnorm (exactly TVec a) * cnorm (exactly TVec b) in bpow radix2 (-500) <= M ->
  0 <= th <= PI -> vdot a b = M * cos th ->
  let phi := magnitude TBiv (spinBiv (logG2 (mul TVec TVec b a) plane)) in
  fin phi = true /\ Rabs (b2r phi - th) <= 4 * eps + bpow radix2 (-20) /\
  (bpow radix2 (-22) <= sin th -> Rabs (b2r phi - th) <= 4 * eps + 480 * unit_roundoff).
Proof.
  intros eps TA He a b plane th Fa Fb D Fp Hp M HM Ht Hd phi. pose proof (atan2_eps eps TA) as He0. pose proof u53_pos as Pu.
  change (mulTy TVec TVec) with TSpin in *. set (s := mul TVec TVec b a) in *.
  pose proof (log_finite eps TA He s plane D Fp Hp) as Fx. change unit_roundoff with u53.
  assert (PM : 0 < M) by (eapply Rlt_le_trans; [apply bpow_gt_0|exact HM]).
  assert (Fs : all_finite TSpin s) by (destruct D as (F & _); exact F).
  set (G := gp (exactly TVec b) (exactly TVec a)).
  assert (GM : cnorm G = M).
  { unfold G, M. rewrite Rmult_comm. apply cnorm_mul. destruct b as [[b1 b2 b3]], a as [[a1 a2 a3]]. cbv -[B2R Rmult Rplus Ropp IZR R0]. ring. }
  assert (GO : forall k, Nat.odd (grade k) = true -> G k = 0).
  { intros k. unfold G. destruct b as [[b1 b2 b3]], a as [[a1 a2 a3]]. dblade k; intros h; try discriminate h; cbv -[B2R Rmult Rplus Ropp IZR R0]; ring. }
  assert (G0 : G bS = M * cos th).
  { rewrite <- Hd. unfold G, vdot. destruct b as [[b1 b2 b3]], a as [[a1 a2 a3]]. cbv -[B2R Rmult Rplus Ropp IZR R0]. ring. }
  pose proof (mul_norm_error TVec TVec b a Fs) as Er. change (mulTy TVec TVec) with TSpin in Er. fold s G in Er. rewrite (Rmult_comm (cnorm (exactly TVec b))) in Er. fold M in Er.
  assert (Et : 26 * eta <= u53 * M).
  { unfold u53, eta. apply Rle_trans with (bpow radix2 (-53) * bpow radix2 (-500)).
    - rewrite <- bpow_plus. apply Rle_trans with (bpow radix2 5 * bpow radix2 (-1075)); [|rewrite <- bpow_plus; apply bpow_le; lia].
      apply Rmult_le_compat; try lra; try apply bpow_ge_0; first [change (bpow radix2 5) with 32; lra | apply bpow_le; lia].
    - apply Rmult_le_compat_l; [apply bpow_ge_0|exact HM]. }
  assert (BU : 128 * u53 <= bpow radix2 (-24)).
  { apply Rle_trans with (bpow radix2 7 * bpow radix2 (-53)); [apply Req_le; reflexivity|rewrite <- bpow_plus; apply bpow_le; lia]. }
  assert (e0 : 0 <= 27 * u53 <= bpow radix2 (-24)) by lra.
  destruct (product_angle eps TA He s plane G M th (27 * u53) D Fp Hp PM GM GO ltac:(lra) e0 Ht G0) as [A B].
  change unit_roundoff with u53 in B.
  assert (B21 : bpow radix2 (-21) <= / 1024) by (change (/ 1024) with (bpow radix2 (-10)); apply bpow_le; lia).
  assert (U1 : u53 <= / 8192 / 8) by (rewrite u53_val; lra). pose proof (bpow_gt_0 radix2 (-21)).
  assert (B20 : bpow radix2 (-20) = 2 * bpow radix2 (-21)) by (change 2 with (bpow radix2 1); rewrite <- bpow_plus; reflexivity).
  assert (B24 : bpow radix2 (-21) = 8 * bpow radix2 (-24)) by (change 8 with (bpow radix2 3); rewrite <- bpow_plus; reflexivity).
  destruct (measured _ th (4 * eps + 4 * (27 * u53) + bpow radix2 (-21)) Fx Ht ltac:(lra) A) as [Fm Em]. fold phi in Fm, Em. split; [exact Fm|]. split; [lra|].
  intros hs. specialize (B hs). destruct B as [B _]. destruct (measured _ th (4 * eps + 4 * (27 * u53) + 330 * u53) Fx Ht ltac:(lra) B) as [_ Eb]. fold phi in Eb. lra.
Qed.

(** ** The logarithm of the exponential *)
Lemma sinc_half : forall x, 0 <= x <= 8 / 5 -> / 2 <= sinc x.
Proof.
  intros x Hx. destruct (Req_dec x 0) as [->|Nz]; [unfold sinc; destruct (Req_EM_T 0 0); lra|].
  apply Rmult_le_reg_l with x; [lra|]. rewrite sinc_mul. pose proof (sin_taylor x ltac:(lra)) as [T1 T2].
  assert (q : x * x <= 64 / 25) by nra. assert (q0 : 0 <= x * x) by nra.
  assert (K : / 2 <= 1 - x * x / 6 + (x * x) * (x * x) / 120 - (x * x) * (x * x) * (x * x) / 5040).
  { assert (0 <= (x * x) * (x * x)) by nra. assert ((x * x) * (x * x) * (x * x) <= (x * x) * (x * x) * 3) by (apply Rmult_le_compat_l; lra). lra. }
  assert (M : x * / 2 <= x * (1 - x * x / 6 + (x * x) * (x * x) / 120 - (x * x) * (x * x) * (x * x) / 5040)) by (apply Rmult_le_compat_l; lra).
  replace (x * (1 - x * x / 6 + (x * x) * (x * x) / 120 - (x * x) * (x * x) * (x * x) / 5040)) with (x - x ^ 3 / 6 + x ^ 5 / 120 - x ^ 7 / 5040) in M by (cbn [pow]; field).
  lra.
Qed.
Lemma cexp_bivector : forall (x : BiVector f64) E, is_cexp (exactly TBiv x) E -> let p := cnorm (exactly TBiv x) in
  ceq (cbiv E) (cscale (sinc p) (exactly TBiv x)) /\ (forall k, Nat.odd (grade k) = true -> E k = 0).
Proof.
  intros x E HE p. set (X := exactly TBiv x) in *.
  assert (Q : ceq E (cadd (cscale (cos (cnorm X)) cone) (cscale (sinc (cnorm X)) X))).
  { apply (is_cexp_unique X); [exact HE|]. apply cexp_square. apply (biv_sq (mapv (fun v : f64 => b2r v) TBiv x)). }
  fold p in Q. split.
  - intros k. unfold cbiv. rewrite (Q k). unfold X, cadd, cscale. destruct x as [[x1 x2 x3]]. dblade k; cbv -[B2R Rmult Rplus Ropp IZR cos sinc p]; ring.
  - intros k hk. rewrite (Q k). unfold X, cadd, cscale. destruct x as [[x1 x2 x3]]. dblade k; try discriminate hk; cbv -[B2R Rmult Rplus Ropp IZR cos sinc p]; ring.
Qed.
(** Bivectors up to a right angle with near exponentials are near. *)
Lemma bivectors_near : forall (x b : BiVector f64) Ex Eb d, is_cexp (exactly TBiv x) Ex -> is_cexp (exactly TBiv b) Eb ->
  cnorm (exactly TBiv x) <= 8 / 5 -> 0 < cnorm (exactly TBiv b) <= 8 / 5 -> 0 < cnorm (exactly TBiv x) ->
  cnorm (csub Ex Eb) <= d ->
  cnorm (csub (exactly TBiv x) (exactly TBiv b)) <= 4 * d + Rabs (cnorm (exactly TBiv x) - cnorm (exactly TBiv b)).
Proof.
  intros x b Ex Eb d HX HB Bx Bb Px Hd. destruct (cexp_bivector x Ex HX) as [Cx _]. destruct (cexp_bivector b Eb HB) as [Cb _].
  set (X := exactly TBiv x) in *. set (Y := exactly TBiv b) in *. set (p := cnorm X) in *. set (q := cnorm Y) in *.
  assert (Db : cnorm (csub (cscale (sinc p) X) (cscale (sinc q) Y)) <= d).
  { eapply Rle_trans; [|exact Hd]. rewrite <- (cnorm_ceq (csub (cbiv Ex) (cbiv Eb))) by (intro k; unfold csub; rewrite (Cx k), (Cb k); reflexivity).
    rewrite <- (cnorm_ceq _ _ (cbiv_sub Ex Eb)). pose proof (parts_le (csub Ex Eb)) as g. pose proof (Rle_0_sqr (csub Ex Eb bS)) as g0. unfold Rsqr in g0.
    apply Rsqr_incr_0_var; [unfold Rsqr; lra|apply cnorm_nonneg]. }
  assert (Hs : / 2 <= sinc p) by (apply sinc_half; lra). assert (Hs' : / 2 <= sinc q) by (apply sinc_half; lra).
  (** sines *)
  assert (Sd : Rabs (q * sinc q - p * sinc p) <= d).
  { pose proof (norm_le_sub (cscale (sinc p) X) (cscale (sinc q) Y)) as g1. pose proof (norm_le_sub (cscale (sinc q) Y) (cscale (sinc p) X)) as g2.
    rewrite (norm_sub_sym (cscale (sinc q) Y)) in g2. rewrite !cnorm_scale, !(Rabs_pos_eq (sinc _)) in g1, g2 by lra. fold p q in g1, g2. apply Rabs_le. lra. }
  rewrite (cnorm_ceq (csub X Y) (cadd (cscale (/ sinc p) (cadd (csub (cscale (sinc p) X) (cscale (sinc q) Y)) (cscale ((q * sinc q - p * sinc p) / q) Y))) (cscale ((p - q) / q) Y)))
    by (intro k; unfold csub, cadd, cscale; field; split; lra).
  eapply Rle_trans; [apply cnorm_triangle|]. rewrite !cnorm_scale.
  assert (R1 : Rabs ((p - q) / q) * cnorm Y = Rabs (p - q)).
  { unfold Rdiv. rewrite Rabs_mult, (Rabs_pos_eq (/ q)) by (left; apply Rinv_0_lt_compat; lra). fold q. field. lra. }
  rewrite R1. apply Rplus_le_compat_r.
  assert (I2 : 0 < / sinc p <= 2).
  { split; [apply Rinv_0_lt_compat; lra|]. replace 2 with (/ / 2) by field. apply Rinv_le_contravar; lra. }
  rewrite Rabs_pos_eq by lra.
  apply Rle_trans with (/ sinc p * (2 * d)).
  - apply Rmult_le_compat_l; [lra|]. eapply Rle_trans; [apply cnorm_triangle|]. rewrite cnorm_scale.
    assert (R2 : Rabs ((q * sinc q - p * sinc p) / q) * cnorm Y = Rabs (q * sinc q - p * sinc p)).
    { unfold Rdiv. rewrite Rabs_mult, (Rabs_pos_eq (/ q)) by (left; apply Rinv_0_lt_compat; lra). fold q. field. lra. }
    rewrite R2. lra.
  - assert (0 <= d) by (eapply Rle_trans; [apply cnorm_nonneg|exact Hd]). apply Rle_trans with (2 * (2 * d)); [apply Rmult_le_compat_r; lra|lra].
Qed.
Lemma log_exp_close : forall eps, trig_within eps L -> atan2_within eps L -> eps <= bpow radix2 (-28) ->
  forall (b plane : BiVector f64), exp_domain b -> log_domain (exp_Biv b) ->
  all_finite TBiv plane -> bpow radix2 (-480) <= cnorm (exactly TBiv plane) <= bpow radix2 480 ->
  bpow radix2 (-20) <= cnorm (exactly TBiv b) <= 3 / 2 ->
  let x := spinBiv (logG2 (exp_Biv b) plane) in
  all_finite TBiv x /\ cnorm (csub (exactly TBiv x) (exactly TBiv b)) <= 32 * eps + 1300 * unit_roundoff.
Proof.
  intros eps T TA He b plane Db D Fp Hp Hb x. pose proof (atan2_eps eps TA) as He0. pose proof u53_pos as Pu.
  assert (E16 : bpow radix2 (-28) <= / 8192) by (change (/ 8192) with (bpow radix2 (-13)); apply bpow_le; lia).
  pose proof (log_finite eps TA ltac:(lra) (exp_Biv b) plane D Fp Hp) as Fx. fold x in Fx. split; [exact Fx|]. change unit_roundoff with u53.
  destruct (cexp_exists (exactly TBiv b)) as [E HE]. destruct (exp_Biv_accurate eps T ltac:(lra) b E Db HE) as (_ & _ & Er).
  change unit_roundoff with u53 in Er. set (q := cnorm (exactly TBiv b)) in *.
  assert (E1 : cnorm E = 1) by exact (cexp_biv_norm b E HE). destruct (cexp_polar b E HE) as [Ec Es]. fold q in Ec, Es.
  destruct (cexp_bivector b E HE) as [_ Eo].
  set (e := 2 * eps + 40 * u53).
  assert (Hc : 16 * u53 * (1 + q) <= 40 * u53).
  { replace (40 * u53) with (16 * u53 * (5 / 2)) by field. apply Rmult_le_compat_l; lra. }
  assert (Er' : cnorm (csub (exactly TSpin (exp_Biv b)) E) <= e * 1) by (unfold e; lra).
  pose proof PI2_3_2 as P32.
  assert (B24 : bpow radix2 (-24) = 16 * bpow radix2 (-28)) by (change 16 with (bpow radix2 4); rewrite <- bpow_plus; reflexivity).
  assert (B28 : 2000 * u53 <= bpow radix2 (-28)).
  { apply Rle_trans with (bpow radix2 11 * bpow radix2 (-53)); [apply Rmult_le_compat_r; [apply bpow_ge_0|change (bpow radix2 11) with 2048; lra]|rewrite <- bpow_plus; apply bpow_le; lia]. }
  assert (He' : 0 <= e <= bpow radix2 (-24)) by (unfold e; lra).
  assert (Hq : 0 <= q <= PI) by (pose proof (bpow_gt_0 radix2 (-20)); lra).
  assert (G0 : E bS = 1 * cos q) by lra.
  destruct (product_angle eps TA ltac:(lra) (exp_Biv b) plane E 1 q e D Fp Hp ltac:(lra) E1 Eo Er' He' Hq G0) as [_ A].
  change unit_roundoff with u53 in A. fold x in A.
  assert (Sn : bpow radix2 (-22) <= sin q).
  { assert (S1 : / 2 * q <= sin q) by (rewrite <- (sinc_mul q), Rmult_comm; apply Rmult_le_compat_l; [lra|apply sinc_half; lra]).
    assert (bpow radix2 (-20) = 4 * bpow radix2 (-22)) by (change 4 with (bpow radix2 2); rewrite <- bpow_plus; reflexivity). pose proof (bpow_gt_0 radix2 (-22)). lra. }
  destruct (A Sn) as [A1 A2]. clear A. rename A1 into A. set (p := cnorm (exactly TBiv x)) in *.
  assert (B20 : bpow radix2 (-20) = 256 * bpow radix2 (-28)) by (change 256 with (bpow radix2 8); rewrite <- bpow_plus; reflexivity).
  pose proof (bpow_gt_0 radix2 (-28)) as P28. pose proof A as A'. apply Rabs_le_inv in A'.
  assert (Pp : 0 < p <= 8 / 5) by (unfold e in A'; lra).
  destruct (cexp_exists (exactly TBiv x)) as [Ex HEx]. specialize (A2 Ex HEx). change unit_roundoff with u53 in A2.
  rewrite (cnorm_ceq _ (csub Ex E)) in A2 by (intro k; unfold csub, cscale; field).
  pose proof (bivectors_near x b Ex E _ HEx HE (proj2 Pp) ltac:(fold q; lra) (proj1 Pp) A2) as K. fold p q in K. unfold e in *. lra.
Qed.
(** The exponential of such a bivector is in the domain of the logarithm. *)
Lemma exp_in_domain : forall eps, trig_within eps L -> eps <= bpow radix2 (-28) ->
  forall b : BiVector f64, exp_domain b -> first_clear b (cnorm (exactly TBiv b)) ->
  bpow radix2 (-20) <= cnorm (exactly TBiv b) <= 3 / 2 -> log_domain (exp_Biv b).
Proof.
  intros eps T He b D Fc Hb. pose proof u53_pos as Pu.
  assert (He0 : 0 <= eps).
  { destruct (cos_within _ _ T (none_ : f64)) as [_ Q]; [apply one_ok|]. eapply Rle_trans; [apply Rabs_pos|exact Q]. }
  assert (E16 : bpow radix2 (-28) <= / 8192) by (change (/ 8192) with (bpow radix2 (-13)); apply bpow_le; lia).
  destruct (cexp_exists (exactly TBiv b)) as [E HE]. destruct (exp_Biv_accurate eps T ltac:(lra) b E D HE) as (F & _ & Er).
  change unit_roundoff with u53 in Er. pose proof (cexp_biv_norm b E HE) as E1.
  assert (U1 : u53 <= / 8192 / 8) by (rewrite u53_val; lra).
  set (q := cnorm (exactly TBiv b)) in *.
  assert (Hc : 16 * u53 * (1 + q) <= 40 * u53).
  { replace (40 * u53) with (16 * u53 * (5 / 2)) by field. apply Rmult_le_compat_l; lra. }
  assert (Nb : Rabs (cnorm (exactly TSpin (exp_Biv b)) - 1) <= / 8).
  { pose proof (norm_le_sub (exactly TSpin (exp_Biv b)) E) as g1. pose proof (norm_le_sub E (exactly TSpin (exp_Biv b))) as g2.
    rewrite (norm_sub_sym E) in g2. apply Rabs_le. lra. }
  apply Rabs_le_inv in Nb.
  pose proof D as (Fb & Hn & _). fold q in Hn. destruct (magnitude_facts TBiv b Fb Hn) as [Fm Em]. fold q in Em.
  set (m := magnitude TBiv b) in *.
  assert (B20 : 0 < bpow radix2 (-20)) by apply bpow_gt_0.
  assert (Mq : q * (1 - / 1000) <= b2r m <= q * (1 + / 1000)).
  { assert (K : 8 * u53 * q <= / 1000 * q) by (apply Rmult_le_compat_r; lra). apply Rabs_le_inv in Em. lra. }
  assert (Mr : 0 <= b2r m <= 1502 / 1000) by lra.
  assert (PL : 314 / 100 <= PI) by (pose proof pi_double as Q; assert (0 <= 122 / 10 ^ 18) by (cbn; lra); lra). pose proof PI_upper as PU.
  destruct (cos_within _ _ T m Fm) as [Fco Eco]. destruct (sin_within _ _ T m Fm) as [Fsi Esi].
  assert (Cm : / 64 <= cos (b2r m)).
  { rewrite <- sin_shift. rewrite <- (sinc_mul (PI / 2 - b2r m)). pose proof (sinc_half (PI / 2 - b2r m) ltac:(lra)). nra. }
  assert (Sm : / 2 * b2r m <= sin (b2r m)).
  { rewrite <- (sinc_mul (b2r m)). pose proof (sinc_half (b2r m) ltac:(lra)). nra. }
  assert (B28 : bpow radix2 (-20) = 256 * bpow radix2 (-28)) by (change 256 with (bpow radix2 8); rewrite <- bpow_plus; reflexivity).
  pose proof (COS_bound (b2r m)) as Cb. pose proof (SIN_bound (b2r m)) as Sb.
  apply Rabs_le_inv in Eco, Esi.
  assert (Sl : bpow radix2 (-28) <= b2r (msin m)) by lra.
  pose proof (exp_Biv_shape b D) as Sh. fold m in Sh.
  split; [exact F|]. split; [|split].
  - split; [apply Rle_trans with (bpow radix2 (-1)); [apply bpow_le; lia|change (bpow radix2 (-1)) with (/ 2); lra]|].
    apply Rle_trans with (bpow radix2 1); [change (bpow radix2 1) with 2; lra|apply bpow_le; lia].
  - rewrite Sh. cbn [spinSca sca_0 scaData at0]. split; [exact Fco|right]. change (b2r (sca_0 (Sca (mcos m)))) with (b2r (mcos m)). rewrite Rabs_pos_eq by lra.
    apply Rle_trans with (bpow radix2 (-7)); [apply bpow_le; lia|change (bpow radix2 (-7)) with (/ 128); lra].
  - destruct (spin_parts_finite _ F) as [_ F2]. rewrite Sh in F2 |- *. cbn [spinBiv] in F2 |- *.
    assert (Ff : fin (biv_0 (scale TBiv (msin m) (direction TBiv b))) = true).
    { destruct (scale TBiv (msin m) (direction TBiv b)) as [[x y z]]. inversion F2; assumption. }
    split; [exact Ff|].
    destruct (direction_accurate TBiv b Fb Hn) as [Fd _].
    assert (D0 : b2r (biv_0 (direction TBiv b)) = 0 \/ bpow radix2 (-901) <= Rabs (b2r (biv_0 (direction TBiv b)))).
    { apply (dir_first TBiv b bE23 (biv_0 (direction TBiv b)) (-900) ltac:(lia) Fb Hn); [apply biv_comp|]. rewrite biv_comp. exact Fc. }
    assert (Dl : Rabs (b2r (biv_0 (direction TBiv b))) <= 4).
    { pose proof (direction_unit TBiv b Fb Hn) as Du. rewrite <- biv_comp. eapply Rle_trans; [apply comp_le_norm|]. apply Rabs_le_inv in Du. lra. }
    assert (Fd0 : fin (biv_0 (direction TBiv b)) = true) by (destruct (direction TBiv b) as [[x y z]]; inversion Fd; assumption).
    assert (B36 : bpow radix2 (-36) <= Rabs (b2r (msin m)) <= 4).
    { rewrite Rabs_pos_eq by (pose proof (bpow_gt_0 radix2 (-28)); lra). split; [eapply Rle_trans; [|exact Sl]; apply bpow_le; lia|lra]. }
    destruct (mult_first (msin m) (biv_0 (direction TBiv b)) (-901) ltac:(lia) Fsi Fd0 B36 Dl D0) as [K|K].
    + left. rewrite <- K. destruct (direction TBiv b) as [[x y z]]. reflexivity.
    + right. eapply Rle_trans; [|eapply Rle_trans; [exact K|right]]; [apply bpow_le; lia|]. destruct (direction TBiv b) as [[x y z]]. reflexivity.
Qed.
Lemma ln_one : forall N, Rabs (N - 1) <= / 2 -> Rabs (ln N) <= 2 * Rabs (N - 1).
Proof.
  intros N H. apply Rabs_le_inv in H.
  assert (K : forall y, 0 < y -> ln y <= y - 1).
  { intros y Hy. apply Rle_trans with (ln (exp (y - 1))); [apply ln_le; [exact Hy|]|rewrite ln_exp; lra]. pose proof (exp_ineq1_le (y - 1)). lra. }
  pose proof (K N ltac:(lra)) as k1. pose proof (K (/ N) ltac:(apply Rinv_0_lt_compat; lra)) as k2. rewrite ln_Rinv in k2 by lra.
  assert (I1 : / N - 1 = (1 - N) * / N) by (field; lra). assert (I2 : 0 < / N <= 2).
  { split; [apply Rinv_0_lt_compat; lra|]. replace 2 with (/ / 2) by field. apply Rinv_le_contravar; lra. }
  pose proof (Rle_abs (N - 1)). pose proof (Rle_abs (- (N - 1))) as a2. rewrite Rabs_Ropp in a2. pose proof (Rabs_pos (N - 1)).
  assert ((1 - N) * / N <= Rabs (N - 1) * 2).
  { apply Rle_trans with (Rabs (N - 1) * / N); [apply Rmult_le_compat_r; lra|apply Rmult_le_compat_l; lra]. }
  apply Rabs_le. lra.
Qed.
Lemma log_exp : forall eps, trig_within eps L -> atan2_within eps L -> log_within eps L -> eps <= bpow radix2 (-28) ->
  forall (b plane : BiVector f64), exp_domain b -> first_clear b (cnorm (exactly TBiv b)) ->
  all_finite TBiv plane -> bpow radix2 (-480) <= cnorm (exactly TBiv plane) <= bpow radix2 480 ->
  bpow radix2 (-20) <= cnorm (exactly TBiv b) <= 3 / 2 ->
  let l := logG2 (exp_Biv b) plane in
  all_finite TSpin l /\ Rabs (b2r (sca_0 (spinSca l))) <= 7 * eps + 100 * unit_roundoff /\
  cnorm (csub (exactly TBiv (spinBiv l)) (exactly TBiv b)) <= 32 * eps + 1300 * unit_roundoff.
Proof.
  intros eps T TA TL He b plane D Fc Fp Hp Hb l. pose proof (atan2_eps eps TA) as He0. pose proof u53_pos as Pu.
  pose proof (exp_in_domain eps T He b D Fc Hb) as Dl. destruct (log_exp_close eps T TA He b plane D Dl Fp Hp Hb) as [_ K]. fold l in K.
  assert (E16 : bpow radix2 (-28) <= / 8192) by (change (/ 8192) with (bpow radix2 (-13)); apply bpow_le; lia).
  destruct (cexp_exists (exactly TSpin l)) as [E HE].
  destruct (log_accurate eps TL TA ltac:(lra) (exp_Biv b) plane E Dl Fp Hp HE) as (F & Sc & _). fold l in F, Sc. split; [exact F|]. split; [|exact K].
  destruct (cexp_exists (exactly TBiv b)) as [Eb HEb]. destruct (exp_Biv_accurate eps T ltac:(lra) b Eb D HEb) as (_ & _ & Er).
  pose proof (cexp_biv_norm b Eb HEb) as E1. change unit_roundoff with u53 in *. assert (U1 : u53 <= / 8192 / 8) by (rewrite u53_val; lra).
  set (N := cnorm (exactly TSpin (exp_Biv b))) in *. set (q := cnorm (exactly TBiv b)) in *.
  assert (Hc : 16 * u53 * (1 + q) <= 40 * u53).
  { replace (40 * u53) with (16 * u53 * (5 / 2)) by field. apply Rmult_le_compat_l; lra. }
  assert (Nb : Rabs (N - 1) <= 2 * eps + 40 * u53).
  { pose proof (norm_le_sub (exactly TSpin (exp_Biv b)) Eb) as g1. pose proof (norm_le_sub Eb (exactly TSpin (exp_Biv b))) as g2.
    rewrite (norm_sub_sym Eb) in g2. fold N in g1, g2. apply Rabs_le. lra. }
  pose proof (ln_one N ltac:(lra)) as Ln. 
  assert (Sm : eps * (2 + Rabs (ln N)) <= eps * 3) by (apply Rmult_le_compat_l; lra).
  set (v := b2r (sca_0 (spinSca l))) in *. replace v with ((v - ln N) + ln N) by ring. eapply Rle_trans; [apply Rabs_triang|]. lra.
Qed.

(** ** Small angles are lost *)
Lemma magnitude_zero : b2r (magnitude TBiv (zero_Biv : BiVector f64)) = 0.
Proof. replace (magnitude TBiv (zero_Biv : BiVector f64)) with (B754_zero false : f64); [reflexivity|]. apply B2SF_inj. vm_compute. reflexivity. Qed.
Lemma small_angle_lost : forall (a b : Vector f64) (plane : BiVector f64), let s := mul TVec TVec b a in log_domain s ->
  cnorm (exactly TBiv (spinBiv s)) <= bpow radix2 (-31) * cnorm (exactly TSpin s) -> 0 < b2r (sca_0 (spinSca s)) ->
  b2r (magnitude TBiv (spinBiv (logG2 s plane))) = 0.
Proof.
  intros a b plane s D H P. destruct (log_vanishes s plane D H) as [K _]. rewrite (K P). apply magnitude_zero.
Qed.
End Lib.
