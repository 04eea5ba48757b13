(** * Turns by a given angle: named turns, and Euler's identity under
    [nearlyEquals]. *)

Require Import Reals ZArith List Bool Lra Lia.
From Flocq Require Import Core BinarySingleNaN.
Require Import Verif.Num Verif.Types Verif.Priv Verif.OpsUni Verif.OpsAdd Verif.OpsSub Verif.OpsMul Verif.Const Verif.Validity
  Verif.Func Verif.Compare Verif.SpecCl Verif.AlgTac Verif.AlgFacts Verif.SpecFunc Verif.FuncFacts Verif.Rel Verif.B64 Verif.B64Facts Verif.SpecRound Verif.SpecValid
  Verif.ValidFacts Verif.IntFacts Verif.ErrFacts Verif.SpecAcc Verif.BoundFacts Verif.AccFacts Verif.AccThm Verif.NormFacts Verif.SpecCompare Verif.SpecScale Verif.ScaleThm Verif.AcceptFacts Verif.CompareFacts
  Verif.SpecExp Verif.ExpFacts Verif.ExpAcc Verif.SpecConst Verif.PiFacts Verif.NearPi Verif.LogAcc Verif.RootAcc Verif.SpecTurn Verif.TurnFacts.
Import ListNotations.
Local Open Scope R_scope.

(** ** The named angles *)
Lemma nearest_close : forall x c B, nearest_double x c -> 0 <= x <= B -> B <= 16 -> is_finite c = true /\ Rabs (b2r c - x) <= (B + / 1000) * u53.
Proof.
  intros x c B [F N] Hx HB. split; [exact F|]. pose proof u53_pos.
  assert (E1 : eta <= u53 / 1000 * 1) by (apply eta_rel; change 1 with (bpow radix2 0); apply bpow_le; lia).
  destruct (near64_ok x) as [Fy Ey].
  { rewrite Rabs_pos_eq by lra. apply Rle_trans with (bpow radix2 4); [change (bpow radix2 4) with 16; lra|apply bpow_le; lia]. }
  rewrite (Rabs_pos_eq x) in Ey by lra.
  assert (K : Rabs (b2r (near64 x) - x) <= (B + / 1000) * u53) by (eapply Rle_trans; [exact Ey|]; nra).
  destruct (Req_dec (b2r (near64 x)) (b2r c)) as [h|h]; [rewrite <- h; exact K|].
  left. eapply Rlt_le_trans; [apply (N _ Fy h)|exact K].
Qed.

Lemma turn_half : forall b k, turn PI b k = cscale (-1) cone k.
Proof. intros b k. unfold turn, cadd, cscale. rewrite cos_PI, sin_PI. unfold Rdiv. ring. Qed.
Lemma turn_quarter : forall b k, turn (PI / 2) b k = cscale (/ cnorm (exactly TBiv b)) (exactly TBiv b) k.
Proof. intros b k. unfold turn, cadd, cscale. rewrite cos_PI2, sin_PI2. unfold Rdiv. ring. Qed.
Lemma turn_full : forall b k, turn (2 * PI) b k = cone k.
Proof. intros b k. unfold turn, cadd, cscale. rewrite cos_2PI, sin_2PI. unfold Rdiv. ring. Qed.

Section Lib.
Context {L : Libm f64}.
Lemma turn_accurate : forall eps, trig_within eps L -> eps <= / 16 -> forall (b : BiVector f64) (a : f64),
  turn_plane b -> is_finite a = true -> bpow radix2 (-90) <= Rabs (B2R a) <= bpow radix2 90 ->
  let e := exp_Biv (mul TDub TBiv a (direction TBiv b)) in
  all_finite TSpin e /\ cnorm (csub (exactly TSpin e) (turn (B2R a) b)) <= 2 * eps + unit_roundoff * (16 + 33 * Rabs (B2R a)).
Proof.
  intros eps T He b a (F & H & Hb) Fa Ha e.
  destruct (turn_near eps T He b a (b2r a) F H Hb Fa Ha) as [G K]. split; [exact G|].
  rewrite Rminus_diag_eq, Rabs_R0, Rplus_0_r in K by reflexivity. exact K.
Qed.
Lemma turn_const : forall eps, trig_within eps L -> eps <= / 16 -> forall (b : BiVector f64) (a : f64) t B,
  turn_plane b -> nearest_double t a -> 1 <= t <= B -> B <= 16 ->
  let e := exp_Biv (mul TDub TBiv a (direction TBiv b)) in
  all_finite TSpin e /\ cnorm (csub (exactly TSpin e) (turn t b)) <= 2 * eps + unit_roundoff * (17 + 34 * B).
Proof.
  intros eps T He b a t B (F & H & Hb) N Ht HB e. destruct (nearest_close t a B N ltac:(lra) HB) as [Fa Ea].
  pose proof u53_pos. assert (U1 : (B + / 1000) * u53 <= / 1000) by (apply Rle_trans with (17 * u53); [apply Rmult_le_compat_r; lra|rewrite u53_val; lra]).
  pose proof (Rabs_le_inv _ _ Ea) as Ia. assert (A : Rabs (b2r a) = b2r a) by (apply Rabs_pos_eq; lra).
  destruct (turn_near eps T He b a t F H Hb Fa) as [G K].
  { rewrite A. split; [apply Rle_trans with (bpow radix2 (-1)); [apply bpow_le; lia|change (bpow radix2 (-1)) with (/ 2); lra]|].
    apply Rle_trans with (bpow radix2 5); [change (bpow radix2 5) with 32; lra|apply bpow_le; lia]. }
  split; [exact G|]. eapply Rle_trans; [exact K|]. rewrite A. change unit_roundoff with u53.
  assert (u53 * (16 + 33 * b2r a) <= u53 * (16 + 33 * (B + / 1000))) by (apply Rmult_le_compat_l; lra). lra.
Qed.
Lemma named_turns : forall eps, trig_within eps L -> eps <= / 16 -> forall b : BiVector f64, turn_plane b ->
  let close (a : f64) (k : R) (target : clf) := let e := exp_Biv (mul TDub TBiv a (direction TBiv b)) in
    all_finite TSpin e /\ cnorm (csub (exactly TSpin e) target) <= 2 * eps + k * unit_roundoff in
  close c_turnHalf 128 (cscale (-1) cone) /\
  close c_turnQtr 72 (cscale (/ cnorm (exactly TBiv b)) (exactly TBiv b)) /\
  close c_turnFull 240 cone.
Proof.
  intros eps T He b D close. destruct pi_nearest as (_ & _ & _ & Nf & Nh & Nq). pose proof PI_upper as PU. pose proof PI2_3_2 as P3.
  assert (P1 : 1 <= PI) by lra. pose proof u53_pos. change unit_roundoff with u53 in *.
  split; [|split].
  - destruct (turn_const eps T He b c_turnHalf PI (3142 / 1000) D Nh ltac:(lra) ltac:(lra)) as [G K]. split; [exact G|].
    rewrite (cnorm_ceq _ (csub (exactly TSpin (exp_Biv (mul TDub TBiv c_turnHalf (direction TBiv b)))) (turn PI b))).
    2:{ intros k. unfold csub. rewrite turn_half. reflexivity. }
    eapply Rle_trans; [exact K|]. change unit_roundoff with u53. lra.
  - destruct (turn_const eps T He b c_turnQtr (PI / 2) (1571 / 1000) D Nq ltac:(lra) ltac:(lra)) as [G K]. split; [exact G|].
    rewrite (cnorm_ceq _ (csub (exactly TSpin (exp_Biv (mul TDub TBiv c_turnQtr (direction TBiv b)))) (turn (PI / 2) b))).
    2:{ intros k. unfold csub. rewrite turn_quarter. reflexivity. }
    eapply Rle_trans; [exact K|]. change unit_roundoff with u53. lra.
  - destruct (turn_const eps T He b c_turnFull (2 * PI) (6284 / 1000) D Nf ltac:(lra) ltac:(lra)) as [G K]. split; [exact G|].
    rewrite (cnorm_ceq _ (csub (exactly TSpin (exp_Biv (mul TDub TBiv c_turnFull (direction TBiv b)))) (turn (2 * PI) b))).
    2:{ intros k. unfold csub. rewrite turn_full. reflexivity. }
    eapply Rle_trans; [exact K|]. change unit_roundoff with u53. lra.
Qed.
End Lib.

(** ** Under the library's comparison *)
Lemma spin_accept : forall (x y : Spinor f64) d (tol t' : f64), all_valid TSpin x -> all_valid TSpin y -> is_finite tol = true ->
  cnorm (csub (exactly TSpin x) (exactly TSpin y)) <= d -> 4 * d <= b2r t' -> bpow radix2 (-60) <= b2r t' <= 1 -> b2r t' < b2r tol ->
  b2r (sca_0 (spinSca y)) = 0 \/ / 4 <= b2r (sca_0 (spinSca y)) * b2r (sca_0 (spinSca y)) <= 4 ->
  (b2r (biv_0 (spinBiv y)) = 0 /\ b2r (biv_1 (spinBiv y)) = 0 /\ b2r (biv_2 (spinBiv y)) = 0) \/
    / 4 <= cnorm2 (exactly TBiv (spinBiv y)) <= 4 ->
  nearlyEquals TSpin x y tol = true.
Proof.
  intros x y d tol t' Vx Vy Ft Hd H4 Ht Htt Hs Hb. pose proof (bpow_gt_0 radix2 (-60)) as P60.
  assert (B47 : bpow radix2 (-47) <= / 4) by (change (/ 4) with (bpow radix2 (-2)); apply bpow_le; lia).
  assert (B9 : bpow radix2 (-900) <= / 4) by (change (/ 4) with (bpow radix2 (-2)); apply bpow_le; lia).
  assert (B10 : 4 <= bpow radix2 1000) by (change 4 with (bpow radix2 2); apply bpow_le; lia).
  assert (Cn : cnorm2 (csub (exactly TSpin x) (exactly TSpin y)) <= d * d).
  { rewrite <- (sqrt_sqrt (cnorm2 (csub (exactly TSpin x) (exactly TSpin y)))) by apply cnorm2_nonneg.
    pose proof (cnorm_nonneg (csub (exactly TSpin x) (exactly TSpin y))). apply Rmult_le_compat; auto. }
  assert (Hd0 : 0 <= d) by (eapply Rle_trans; [apply cnorm_nonneg|exact Hd]).
  set (t := b2r t') in *.
  assert (D2 : d * d <= / 16 * (t * t)) by nra.
  destruct x as [[[x0]] [[x1 x2 x3]]], y as [[[y0]] [[y1 y2 y3]]].
  unfold exactly in Cn, Hb. cbv -[b2r Rplus Rmult Ropp R0 IZR Rle Rinv Rminus] in Cn. cbv -[b2r Rplus Rmult Ropp R0 IZR Rle Rinv Rminus] in Hb. cbn in Hs.
  apply (object_accept TSpin _ _ tol t'); auto; try discriminate.
  assert (Cx : (b2r x0 - b2r y0) * (b2r x0 - b2r y0) + ((b2r x1 - b2r y1) * (b2r x1 - b2r y1) + (b2r x2 - b2r y2) * (b2r x2 - b2r y2) + (b2r x3 - b2r y3) * (b2r x3 - b2r y3)) <= d * d)
    by (eapply Rle_trans; [|exact Cn]; right; ring). clear Cn.
  pose proof (Rle_0_sqr (b2r x0 - b2r y0)) as Q0. pose proof (Rle_0_sqr (b2r x1 - b2r y1)) as Q1. pose proof (Rle_0_sqr (b2r x2 - b2r y2)) as Q2. pose proof (Rle_0_sqr (b2r x3 - b2r y3)) as Q3.
  unfold Rsqr in Q0, Q1, Q2, Q3.
  assert (S0 : (b2r x0 - b2r y0) * (b2r x0 - b2r y0) <= / 16 * (t * t)) by lra.
  assert (S1 : (b2r x1 - b2r y1) * (b2r x1 - b2r y1) + (b2r x2 - b2r y2) * (b2r x2 - b2r y2) + (b2r x3 - b2r y3) * (b2r x3 - b2r y3) <= / 16 * (t * t)) by lra.
  assert (T0 : 0 < t * t) by nra.
  assert (Sm : forall u v, v = 0 -> (u - v) * (u - v) <= / 16 * (t * t) -> Rabs u <= t).
  { intros u v -> Hu. apply Rabs_le. nra. }
  assert (Rel : forall n s, / 4 <= n -> s <= / 16 * (t * t) -> s <= (1 - bpow radix2 (-47)) * (t * t) * n).
  { intros n s Hn Hu. apply Rle_trans with (3 / 4 * (t * t) * / 4); [lra|].
    apply Rmult_le_compat; [nra|lra| |exact Hn]. apply Rmult_le_compat_r; lra. }
  fold t. unfold slices. apply Forall_cons; [|apply Forall_cons; [|apply Forall_nil]].
  - cbv zeta. cbn [elems slice firstn skipn fst snd arr1_list]. unfold norm2, dist2. cbn [fold_right combine fst snd]. destruct Hs as [h|h].
    + left. split; repeat apply Forall_cons; try apply Forall_nil; [exact h|]. cbn -[bpow b2r]. apply (Sm _ (b2r y0)); auto.
    + right. cbn -[bpow b2r]. rewrite !Rplus_0_r. split; [lra|]. apply Rel; lra.
  - cbv zeta. unfold norm2, dist2. destruct Hb as [(h1 & h2 & h3)|h].
    + left. cbn -[bpow b2r]. split; repeat apply Forall_cons; try apply Forall_nil; auto.
      * apply (Sm _ (b2r y1)); auto; lra.
      * apply (Sm _ (b2r y2)); auto; lra.
      * apply (Sm _ (b2r y3)); auto; lra.
    + right. cbn -[bpow b2r]. split; [lra|]. apply Rel; lra.
Qed.
