(** * Accuracy of exp(MultiVector) on binary64: proofs. *)

Require Import Reals ZArith List Bool Lra Lia.
From Coquelicot Require Import Coquelicot.
From Flocq Require Import Core BinarySingleNaN.
Require Import Verif.Num Verif.Types Verif.Priv Verif.OpsUni Verif.OpsAdd Verif.OpsSub
  Verif.OpsMul Verif.Const Verif.Validity Verif.Func Verif.SpecCl Verif.RealInst Verif.AlgTac Verif.AlgMul Verif.AlgFacts Verif.SpecFunc
  Verif.FuncFacts Verif.SpecExp Verif.ExpFacts Verif.ExpThm Verif.SpecAnti Verif.LogThm Verif.AntiThm Verif.Rel Verif.B64 Verif.B64Facts Verif.SpecValid Verif.ValidFacts
  Verif.SpecRound Verif.ArrErr Verif.IntFacts Verif.ErrFacts Verif.SpecAcc Verif.BoundFacts Verif.AccFacts Verif.NormFacts Verif.ExpAcc Verif.LogAcc.
Import ListNotations.
Local Open Scope R_scope.

(** ** Single operations *)
Lemma m_ok : forall x y : f64, fin x = true -> fin y = true -> Rabs (b2r x * b2r y) <= bpow radix2 1000 ->
  fin (Bmult mode_NE x y) = true /\ Rabs (b2r (Bmult mode_NE x y) - b2r x * b2r y) <= u53 * Rabs (b2r x * b2r y) + eta.
Proof.
  intros x y Fx Fy B. destruct (bmult_ok x y Fx Fy (rnd_lt _ 1000 ltac:(lia) B)) as [F E]. split; [exact F|]. rewrite E. apply err_any.
Qed.
Lemma a_ok : forall x y : f64, fin x = true -> fin y = true -> Rabs (b2r x + b2r y) <= bpow radix2 1000 ->
  fin (Bplus mode_NE x y) = true /\ Rabs (b2r (Bplus mode_NE x y) - (b2r x + b2r y)) <= u53 * Rabs (b2r x + b2r y).
Proof.
  intros x y Fx Fy B. destruct (bplus_ok x y Fx Fy (rnd_lt _ 1000 ltac:(lia) B)) as [F E]. split; [exact F|]. rewrite E. apply err_plus.
Qed.
Lemma s_ok : forall x y : f64, fin x = true -> fin y = true -> Rabs (b2r x - b2r y) <= bpow radix2 1000 ->
  fin (Bminus mode_NE x y) = true /\ Rabs (b2r (Bminus mode_NE x y) - (b2r x - b2r y)) <= u53 * Rabs (b2r x - b2r y).
Proof.
  intros x y Fx Fy B. rewrite bminus_opp. unfold Rminus in *. rewrite <- (B2R_Bopp 53 1024 y) in *.
  apply a_ok; auto. rewrite is_finite_Bopp; auto.
Qed.
Lemma d_ok : forall x y : f64, fin x = true -> b2r y <> 0 -> Rabs (b2r x / b2r y) <= bpow radix2 1000 ->
  fin (Bdiv mode_NE x y) = true /\ Rabs (b2r (Bdiv mode_NE x y) - b2r x / b2r y) <= u53 * Rabs (b2r x / b2r y) + eta.
Proof.
  intros x y Fx Fy B. destruct (bdiv_ok x y Fx Fy (rnd_lt _ 1000 ltac:(lia) B)) as [F E]. split; [exact F|]. rewrite E. apply err_any.
Qed.
(** Underflow terms do not matter. *)
Definition speck : R := bpow radix2 (-470).
Lemma speck_pos : 0 < speck. Proof. apply bpow_gt_0. Qed.
Lemma speck_small : speck <= u53 / 10 ^ 30.
Proof.
  apply Rle_trans with (bpow radix2 (-160)); [apply bpow_le; lia|]. rewrite u53_val.
  change (bpow radix2 (-160)) with (/ IZR (Zpower_pos 2 160)).
  replace (Zpower_pos 2 160) with (2 ^ 160)%Z by reflexivity.
  set (k := (2 ^ 160)%Z). vm_compute in k. unfold k. lra.
Qed.
Lemma eta_speck : eta <= speck * bpow radix2 (-600).
Proof. unfold speck, eta. rewrite <- bpow_plus. apply bpow_le. lia. Qed.
Lemma big_val : bpow radix2 50 <= bpow radix2 1000.
Proof. apply bpow_le; lia. Qed.

(** ** A length *)
Lemma cnorm2_3 : forall x y z : f64, cnorm2 (exactly TVec (Vec x y z)) = b2r x * b2r x + b2r y * b2r y + b2r z * b2r z.
Proof. intros x y z. unfold exactly. cbn. ring. Qed.
Lemma length_ok : forall x y z : f64, fin x = true -> fin y = true -> fin z = true ->
  cnorm (exactly TVec (Vec x y z)) <= bpow radix2 45 ->
  let m := magnitude TVec (Vec x y z : val f64 TVec) in let N := cnorm (exactly TVec (Vec x y z)) in
  fin m = true /\ 0 <= b2r m /\ Rabs (b2r m - N) <= 8 * u53 * N + speck.
Proof.
  intros x y z Fx Fy Fz B m N. set (v := Vec x y z : val f64 TVec) in *.
  assert (Fv : all_finite TVec v) by (repeat (apply Forall_cons || apply Forall_nil); assumption).
  pose proof speck_pos. pose proof u53_pos.
  assert (PN : 0 <= N) by apply cnorm_nonneg.
  assert (Fm : fin (magSq TVec v) = true).
  { destruct (magSq_within 480 TVec v) as [Fm _]; [lia | apply norm_within; [assumption|]|exact Fm].
    eapply Rle_trans; [exact B|]. apply bpow_le; lia. }
  destruct (bsqrt_ok _ Fm (magSq_notneg TVec v)) as [G R].
  assert (P : 0 <= b2r m).
  { change m with (Bsqrt mode_NE (magSq TVec v)). rewrite R. apply round_ge_generic; [apply fexp_correct; reflexivity|apply valid_rnd_N|apply generic_format_0|apply sqrt_pos]. }
  destruct (Rle_or_lt (bpow radix2 (-480)) N) as [h|h].
  - destruct (magnitude_error TVec v Fm h) as [F E]. split; [exact F|]. split; [exact P|]. fold m N in E. lra.
  - split; [exact G|]. split; [exact P|].
    assert (U : b2r m <= bpow radix2 (-470)).
    { change m with (Bsqrt mode_NE (magSq TVec v)). rewrite R.
      apply Rle_trans with (Rabs (rnd64 (sqrt (b2r (magSq TVec v))))); [apply Rle_abs|].
      apply rnd_le_format; [apply fmt_bpow; lia|]. rewrite Rabs_pos_eq by apply sqrt_pos.
      apply Rle_trans with (sqrt (bpow radix2 (-940))).
      - apply sqrt_le_1_alt. pose proof (magSq_error TVec v Fm) as A.
        assert (N2 : cnorm2 (exactly TVec v) <= bpow radix2 (-960)).
        { rewrite <- cnorm_sq'. fold N. replace (bpow radix2 (-960)) with (bpow radix2 (-480) * bpow radix2 (-480)) by (rewrite <- bpow_plus; reflexivity).
          apply Rmult_le_compat; lra. }
        assert (Q : eta <= bpow radix2 (-960)) by (apply bpow_le; lia).
        assert (Q2 : 1024 * bpow radix2 (-960) <= bpow radix2 (-940)).
        { change 1024 with (bpow radix2 10). rewrite <- bpow_plus. apply bpow_le; lia. }
        pose proof (cnorm2_nonneg (exactly TVec v)). pose proof (bpow_gt_0 radix2 (-960)).
        rewrite u53_val in A. apply Rabs_le_inv in A. lra.
      - replace (bpow radix2 (-940)) with (bpow radix2 (-470) * bpow radix2 (-470)) by (rewrite <- bpow_plus; reflexivity).
        rewrite sqrt_square by apply bpow_ge_0. apply Rle_refl. }
    assert (U2 : N <= speck) by (unfold speck; apply Rlt_le, Rlt_le_trans with (1 := h); apply bpow_le; lia).
    fold speck in U. apply Rabs_le. rewrite u53_val. lra.
Qed.

(** ** sync *)
Section Library.
Context {L : Libm f64} (eps : R) (T : trig_within eps L) (Te : exp_within eps L) (He : eps <= / 16).

Lemma eps_pos : 0 <= eps.
Proof.
  destruct (cos_within _ _ T (B754_zero false : f64) eq_refl) as [_ h]. eapply Rle_trans; [apply Rabs_pos|exact h].
Qed.
Definition lim64 : f64 := nlit 7378697629483821 (-66).
Lemma lim_ok : fin lim64 = true /\ b2r lim64 = sync_lim.
Proof.
  unfold lim64. change (nlit 7378697629483821 (-66) : f64) with (f64_lit 7378697629483821 (-66)).
  destruct (lit_exact 7378697629483821 (-66)) as [A B].
  - apply generic_format_FLT. exists (Float radix2 7378697629483821 (-66)); cbn; try reflexivity; lia.
  - unfold F2R. cbn [Fnum Fexp]. rewrite Rabs_pos_eq by (apply Rmult_le_pos; [apply IZR_le; lia|apply bpow_ge_0]).
    apply Rlt_le_trans with (bpow radix2 53 * bpow radix2 (-66)).
    + apply Rmult_lt_compat_r; [apply bpow_gt_0|]. apply IZR_lt. reflexivity.
    + rewrite <- bpow_plus. apply bpow_le; lia.
  - split; [exact A|]. rewrite B. unfold sync_lim. ring.
Qed.
Lemma six_ok : fin (nlit 6 0 : f64) = true /\ b2r (nlit 6 0 : f64) = 6.
Proof. destruct (lit_exact 6 0) as [A B]; [unfold F2R; cbn [Fnum Fexp]; rewrite Rmult_1_r; apply (int_format 6); cbv; congruence| | ].
  - unfold F2R; cbn [Fnum Fexp]; change (bpow radix2 0) with 1; rewrite Rmult_1_r, Rabs_pos_eq by lra. apply Rlt_le_trans with (bpow radix2 3); [change (bpow radix2 3) with 8; lra|apply bpow_le; lia].
  - split; [exact A|]. change (b2r (f64_lit 6 0) = 6). rewrite B. cbn. ring. Qed.
Lemma c120_ok : fin (nlit 120 0 : f64) = true /\ b2r (nlit 120 0 : f64) = 120.
Proof. destruct (lit_exact 120 0) as [A B]; [unfold F2R; cbn [Fnum Fexp]; rewrite Rmult_1_r; apply (int_format 120); cbv; congruence| | ].
  - unfold F2R; cbn [Fnum Fexp]; change (bpow radix2 0) with 1; rewrite Rmult_1_r, Rabs_pos_eq by lra. apply Rlt_le_trans with (bpow radix2 7); [change (bpow radix2 7) with 128; lra|apply bpow_le; lia].
  - split; [exact A|]. change (b2r (f64_lit 120 0) = 120). rewrite B. cbn. ring. Qed.

Lemma sync_poly : forall m : f64, fin m = true -> 0 <= b2r m -> b2r m < sync_lim ->
  fin (sync m) = true /\ Rabs (b2r (sync m) - sinc (b2r m)) <= 2 * u53.
Proof.
  intros m F P Hl. pose proof sync_lim_val as V. destruct lim_ok as [Fl Rl].
  assert (E0 : nltb m (nlit 7378697629483821 (-66)) = true).
  { change (Bltb m lim64 = true). rewrite Bltb_correct by assumption. apply Rlt_bool_true. rewrite Rl. exact Hl. }
  unfold sync. rewrite E0. destruct six_ok as [F6 R6]. destruct c120_ok as [F120 R120]. destruct one_ok as [F1 R1].
  change (fin (Bplus mode_NE (Bminus mode_NE (Bdiv mode_NE (Bmult mode_NE (Bmult mode_NE m m) (Bmult mode_NE m m)) (nlit 120 0)) (Bdiv mode_NE (Bmult mode_NE m m) (nlit 6 0))) none_) = true /\
   Rabs (b2r (Bplus mode_NE (Bminus mode_NE (Bdiv mode_NE (Bmult mode_NE (Bmult mode_NE m m) (Bmult mode_NE m m)) (nlit 120 0)) (Bdiv mode_NE (Bmult mode_NE m m) (nlit 6 0))) none_) - sinc (b2r m)) <= 2 * u53).
  pose proof big_val as BV. change (bpow radix2 50) with 1125899906842624 in BV. set (BIG := bpow radix2 1000) in BV.
  pose proof eta_small as ES. pose proof eta_pos. pose proof u53_val as UV. pose proof u53_pos.
  set (x := b2r m) in *.
  assert (X2 : 0 <= x * x <= 11 / 10 ^ 9) by (split; nra).
  destruct (m_ok m m F F) as [F2 A2]; [fold x BIG; rewrite Rabs_pos_eq by lra; lra|]. fold x in A2. rewrite (Rabs_pos_eq (x * x)) in A2 by lra.
  set (m2 := Bmult mode_NE m m) in *. set (y := b2r m2) in *.
  assert (Y : Rabs (y - x * x) <= u53 / 1000) by (rewrite UV in *; lra).
  assert (Yb : -1 / 10^8 <= y <= 12 / 10 ^ 9) by (apply Rabs_le_inv in Y; rewrite UV in Y; lra).
  destruct (m_ok m2 m2 F2 F2) as [F4 A4]; [fold y BIG; rewrite Rabs_pos_eq by nra; nra|]. fold y in A4.
  assert (Yy : 0 <= y * y <= 1 / 10 ^ 15) by (split; nra). rewrite (Rabs_pos_eq (y * y)) in A4 by lra.
  set (m4 := Bmult mode_NE m2 m2) in *. set (w := b2r m4) in *.
  assert (W : Rabs (w - x * x * (x * x)) <= u53 / 1000).
  { replace (w - x * x * (x * x)) with ((w - y * y) + (y - x * x) * (y + x * x)) by ring.
    eapply Rle_trans; [apply Rabs_triang|]. rewrite Rabs_mult.
    assert (Rabs (y + x * x) <= 1 / 10) by (apply Rabs_le; lra). pose proof (Rabs_pos (y - x * x)). pose proof (Rabs_pos (y + x * x)).
    assert (Rabs (y - x * x) * Rabs (y + x * x) <= u53 / 1000 * (1 / 10)) by (apply Rmult_le_compat; lra). rewrite UV in *; lra. }
  assert (X4 : 0 <= x * x * (x * x) <= 1 / 10 ^ 15) by (split; nra).
  assert (Wb : - 1 / 10 ^ 10 <= w <= 1 / 10 ^ 10) by (apply Rabs_le_inv in W; rewrite UV in W; lra).
  destruct (d_ok m4 (nlit 120 0) F4) as [Ft At]; [rewrite R120; lra|fold w BIG; rewrite R120; apply Rabs_le; lra|].
  fold w in At. rewrite R120 in At. set (t1 := Bdiv mode_NE m4 _) in *. set (a := b2r t1) in *.
  assert (Qw : Rabs (w / 120) <= 1 / 10 ^ 3) by (apply Rabs_le; lra).
  assert (Aa : Rabs (a - x * x * (x * x) / 120) <= u53 / 100).
  { apply Rabs_le_inv in At, W. assert (u53 * Rabs (w / 120) <= u53 * (1 / 10 ^ 3)) by (apply Rmult_le_compat_l; lra). apply Rabs_le. lra. }
  destruct (d_ok m2 (nlit 6 0) F2) as [Fs As]; [rewrite R6; lra|fold y BIG; rewrite R6; apply Rabs_le; lra|].
  fold y in As. rewrite R6 in As. set (t2 := Bdiv mode_NE m2 _) in *. set (b := b2r t2) in *.
  assert (Qy : Rabs (y / 6) <= 1 / 10 ^ 3) by (apply Rabs_le; lra).
  assert (Ab : Rabs (b - x * x / 6) <= u53 / 100).
  { apply Rabs_le_inv in As, Y. assert (u53 * Rabs (y / 6) <= u53 * (1 / 10 ^ 3)) by (apply Rmult_le_compat_l; lra). apply Rabs_le. lra. }
  assert (Bab : -1 / 10 ^ 3 <= a - b <= 1 / 10 ^ 3) by (apply Rabs_le_inv in Aa, Ab; rewrite UV in Aa, Ab; lra).
  destruct (s_ok t1 t2 Ft Fs) as [Fd Ad]; [fold a b BIG; apply Rabs_le; lra|]. fold a b in Ad.
  set (d := Bminus mode_NE t1 t2) in *. set (dd := b2r d) in *.
  assert (Add : Rabs (dd - (x * x * (x * x) / 120 - x * x / 6)) <= u53 / 10).
  { assert (u53 * Rabs (a - b) <= u53 * (1 / 10 ^ 3)) by (apply Rmult_le_compat_l; [lra|apply Rabs_le; lra]).
    apply Rabs_le_inv in Aa, Ab, Ad. apply Rabs_le. lra. }
  assert (Bd : -1 / 10 ^ 2 <= dd <= 1 / 10 ^ 2) by (apply Rabs_le_inv in Add; rewrite UV in Add; lra).
  destruct (a_ok d none_ Fd F1) as [Fr Ar]; [fold dd BIG; rewrite R1; apply Rabs_le; lra|]. split; [exact Fr|].
  fold dd in Ar. rewrite R1 in Ar. set (r := b2r (Bplus mode_NE d none_)) in *.
  pose proof (Rsync_error x P) as RS. unfold Rsync in RS. rewrite Rltb_true in RS by exact Hl. cbv iota in RS.
  assert (u53 * Rabs (dd + 1) <= u53 * (101 / 100)) by (apply Rmult_le_compat_l; [lra|apply Rabs_le; lra]).
  assert (2 / 10 ^ 28 <= u53 / 100) by (rewrite UV; lra).
  match type of Ar with context [b2r (Bplus mode_NE d ?o)] => change (b2r (Bplus mode_NE d o)) with r in Ar end.
  apply Rabs_le_inv in Ar, Add, RS. apply Rabs_le. lra.
Qed.

(** The angle [m] the code uses for the length [N]. *)
Definition near (m : f64) (N : R) : Prop := fin m = true /\ 0 <= b2r m /\ 0 <= N <= bpow radix2 42 /\ Rabs (b2r m - N) <= 10 * u53 * N + 2 * speck.
Lemma sync_ok : forall m N, near m N ->
  fin (sync m) = true /\ Rabs (b2r (sync m)) <= 1000 /\ N * Rabs (b2r (sync m) - sinc N) <= 11 / 10 * eps + 25 * u53 * (1 + N).
Proof.
  intros m N (F & P & [N0 N1] & D). pose proof sync_lim_val as V. destruct lim_ok as [Fl Rl]. pose proof eps_pos as EP.
  pose proof speck_pos. pose proof speck_small as SS. pose proof u53_val as UV. pose proof u53_pos. pose proof eta_pos. pose proof eta_small as ES.
  change (bpow radix2 42) with 4398046511104 in N1.
  set (x := b2r m) in *.
  assert (PN : 0 <= u53 * N) by (apply Rmult_le_pos; lra).
  assert (Sx : Rabs (sinc x) <= 1) by apply sinc_le1.
  assert (KEY : N * Rabs (sinc x - sinc N) <= 20 * u53 * N + 4 * speck).
  { rewrite <- (Rabs_pos_eq N) at 1 by exact N0. rewrite <- Rabs_mult.
    replace (N * (sinc x - sinc N)) with ((N - x) * sinc x + (x * sinc x - N * sinc N)) by ring. rewrite !sinc_mul.
    eapply Rle_trans; [apply Rabs_triang|]. rewrite Rabs_mult. pose proof (sin_lip x N) as SL.
    rewrite (Rabs_minus_sym N x). pose proof (Rabs_pos (x - N)). pose proof (Rabs_pos (sinc x)).
    assert (Rabs (x - N) * Rabs (sinc x) <= Rabs (x - N) * 1) by (apply Rmult_le_compat_l; lra). lra. }
  destruct (Rlt_or_le x sync_lim) as [h|h].
  - destruct (sync_poly m F P h) as [Fs As]. fold x in As. split; [exact Fs|]. set (s := b2r (sync m)) in *.
    split; [apply Rabs_le_inv in As, Sx; rewrite UV in As; apply Rabs_le; lra|].
    assert (N * Rabs (s - sinc x) <= N * (2 * u53)) by (apply Rmult_le_compat_l; lra).
    assert (N * Rabs (s - sinc N) <= N * Rabs (s - sinc x) + N * Rabs (sinc x - sinc N)).
    { rewrite <- Rmult_plus_distr_l. apply Rmult_le_compat_l; [exact N0|].
      replace (s - sinc N) with ((s - sinc x) + (sinc x - sinc N)) by ring. apply Rabs_triang. }
    lra.
  - assert (E0 : nltb m (nlit 7378697629483821 (-66)) = false).
    { change (Bltb m lim64 = false). rewrite Bltb_correct by assumption. apply Rlt_bool_false. rewrite Rl. exact h. }
    unfold sync. rewrite E0. destruct (sin_within _ _ T m F) as [Fs As]. fold x in As.
    change (msin m / m)%num with (Bdiv mode_NE (msin m) m).
    assert (Px : 0 < x) by lra. assert (Ix : 0 < / x) by (apply Rinv_0_lt_compat, Px).
    assert (Ix2 : / x <= 10000).
    { rewrite <- (Rinv_inv 10000). apply Rinv_le_contravar; lra. }
    set (q := b2r (msin m)) in *.
    assert (Sn : sinc x = sin x * / x) by (unfold sinc; destruct (Req_EM_T x 0); [lra|reflexivity]).
    assert (Q : Rabs (q / x - sinc x) <= eps * / x).
    { rewrite Sn. unfold Rdiv. rewrite <- Rmult_minus_distr_r, Rabs_mult, (Rabs_pos_eq (/ x)) by lra. apply Rmult_le_compat_r; lra. }
    assert (EI : 0 <= eps * / x <= 625).
    { split; [apply Rmult_le_pos; lra|]. apply Rle_trans with (/ 16 * 10000); [apply Rmult_le_compat; lra|lra]. }
    assert (Q2 : Rabs (q / x) <= 1 + eps * / x).
    { replace (q / x) with ((q / x - sinc x) + sinc x) by ring. eapply Rle_trans; [apply Rabs_triang|]. lra. }
    destruct (d_ok (msin m) m Fs) as [Fr Ar]; [fold x; lra|fold q x; pose proof big_val as BV; change (bpow radix2 50) with 1125899906842624 in BV; lra|].
    split; [exact Fr|]. fold q x in Ar. set (s := b2r (Bdiv mode_NE (msin m) m)) in *.
    assert (A1 : Rabs (s - q / x) <= u53 * (1 + eps * / x) + eta).
    { eapply Rle_trans; [exact Ar|]. apply Rplus_le_compat_r, Rmult_le_compat_l; lra. }
    split.
    { replace s with ((s - q / x) + q / x) by ring. eapply Rle_trans; [apply Rabs_triang|]. rewrite UV in A1, ES. lra. }
    assert (NX : N * / x <= 101 / 100).
    { apply Rmult_le_reg_r with x; [exact Px|]. rewrite Rmult_assoc, Rinv_l, Rmult_1_r by lra. apply Rabs_le_inv in D. rewrite UV in D, SS. lra. }
    assert (NE : N * (eps * / x) <= eps * (101 / 100)).
    { replace (N * (eps * / x)) with (eps * (N * / x)) by ring. apply Rmult_le_compat_l; lra. }
    assert (NU : N * (u53 * (1 + eps * / x)) <= u53 * N + u53 * (eps * (101 / 100))).
    { replace (N * (u53 * (1 + eps * / x))) with (u53 * N + u53 * (N * (eps * / x))) by ring. apply Rplus_le_compat_l, Rmult_le_compat_l; lra. }
    assert (Ueps : u53 * eps <= u53 * / 16) by (apply Rmult_le_compat_l; lra).
    assert (Neta : N * eta <= u53 * N) by (rewrite (Rmult_comm u53); apply Rmult_le_compat_l; [exact N0|]; lra).
    assert (Z : N * Rabs (s - sinc N) <= N * (u53 * (1 + eps * / x) + eta) + N * (eps * / x) + N * Rabs (sinc x - sinc N)).
    { rewrite <- !Rmult_plus_distr_l. apply Rmult_le_compat_l; [exact N0|].
      replace (s - sinc N) with ((s - q / x) + (q / x - sinc x) + (sinc x - sinc N)) by ring.
      eapply Rle_trans; [apply Rabs_triang|]. apply Rplus_le_compat_r. eapply Rle_trans; [apply Rabs_triang|]. lra. }
    rewrite Rmult_plus_distr_l in Z. lra.
Qed.
Lemma cos_ok : forall m N, near m N ->
  fin (mcos m) = true /\ Rabs (b2r (mcos m) - cos N) <= eps + 10 * u53 * N + 2 * speck /\ Rabs (b2r (mcos m)) <= 17 / 16.
Proof.
  intros m N (F & P & [N0 N1] & D). destruct (cos_within _ _ T m F) as [Fc Ac]. split; [exact Fc|].
  split.
  - replace (b2r (mcos m) - cos N) with ((b2r (mcos m) - cos (b2r m)) + (cos (b2r m) - cos N)) by ring.
    eapply Rle_trans; [apply Rabs_triang|]. pose proof (cos_lip (b2r m) N). lra.
  - replace (b2r (mcos m)) with ((b2r (mcos m) - cos (b2r m)) + cos (b2r m)) by ring.
    eapply Rle_trans; [apply Rabs_triang|]. assert (Rabs (cos (b2r m)) <= 1) by (apply Rabs_le; pose proof (COS_bound (b2r m)); lra). lra.
Qed.

(** ** The two factors of a half *)
(** [g] stands for [c G], [c] being 1 or -1; [x] for [X], at most [N]. *)
Definition sized (G : R) : Prop := bpow radix2 (-490) <= G <= bpow radix2 490.
Definition stands (g : f64) (c G : R) : Prop := fin g = true /\ Rabs c = 1 /\ Rabs (b2r g - c * G) <= eps * G.
Lemma eta_sized : forall G, sized G -> 10 ^ 10 * eta <= u53 / 10 ^ 6 * G /\ speck <= u53 / 10 ^ 6.
Proof.
  intros G [G1 _]. pose proof speck_small as SS. pose proof u53_pos. split; [|rewrite u53_val in *; lra].
  apply Rle_trans with (bpow radix2 (-600)).
  - apply Rle_trans with (bpow radix2 40 * eta); [apply Rmult_le_compat_r; [left; apply eta_pos|change (bpow radix2 40) with 1099511627776; lra]|].
    unfold eta. rewrite <- bpow_plus. apply bpow_le; lia.
  - apply Rle_trans with (bpow radix2 (-80) * bpow radix2 (-490)); [rewrite <- bpow_plus; apply bpow_le; lia|].
    apply Rmult_le_compat; try apply bpow_ge_0; [rewrite u53_val; change (bpow radix2 (-80)) with (/ 1208925819614629174706176); lra|exact G1].
Qed.
Lemma sized_pos : forall G, sized G -> 0 < G.
Proof. intros G [h _]. eapply Rlt_le_trans; [apply bpow_gt_0|exact h]. Qed.
Lemma sized_big : forall G, sized G -> G * 10 ^ 16 <= bpow radix2 1000.
Proof.
  intros G [_ h]. apply Rle_trans with (bpow radix2 490 * bpow radix2 54); [|rewrite <- bpow_plus; apply bpow_le; lia].
  pose proof (bpow_gt_0 radix2 490). change (bpow radix2 54) with 18014398509481984. lra.
Qed.
Lemma stands_le : forall g c G, sized G -> stands g c G -> Rabs (b2r g) <= 17 / 16 * G.
Proof.
  intros g c G Z (F & C & A). pose proof (sized_pos _ Z) as P. pose proof eps_pos as EP.
  replace (b2r g) with ((b2r g - c * G) + c * G) by ring. eapply Rle_trans; [apply Rabs_triang|].
  rewrite (Rabs_mult c), C, Rmult_1_l, (Rabs_pos_eq G) by lra.
  assert (eps * G <= / 16 * G) by (apply Rmult_le_compat_r; lra). lra.
Qed.
Lemma half_cos : forall g G m N, sized G -> stands g 1 G -> near m N ->
  fin (Bmult mode_NE g (mcos m)) = true /\
  Rabs (b2r (Bmult mode_NE g (mcos m)) - G * cos N) <= G * (9 / 4 * eps + 14 * u53 * (1 + N)) /\
  Rabs (b2r (Bmult mode_NE g (mcos m))) <= 3 / 2 * G.
Proof.
  intros g G m N Z S D. pose proof (stands_le _ _ _ Z S) as Bg. destruct S as (Fg & _ & Ag). rewrite Rmult_1_l in Ag.
  destruct (cos_ok m N D) as (Fc & Ac & Bc). destruct D as (_ & _ & [N0 N1] & _).
  pose proof (sized_pos _ Z) as P. destruct (eta_sized _ Z) as [E1 E2]. pose proof (sized_big _ Z) as BG.
  pose proof eps_pos as EP. pose proof u53_pos as PU. pose proof eta_pos. pose proof speck_pos.
  set (c := b2r (mcos m)) in *. set (v := b2r g) in *.
  assert (GE : 0 <= G * eps <= / 16 * G) by (split; [apply Rmult_le_pos; lra|rewrite (Rmult_comm (/ 16)); apply Rmult_le_compat_l; lra]).
  assert (GU : 0 <= G * u53) by (apply Rmult_le_pos; lra).
  assert (GUs : G * u53 <= G / 10 ^ 10) by (apply Rmult_le_compat_l; [lra|rewrite u53_val; lra]).
  assert (GUN : 0 <= G * u53 * N) by (apply Rmult_le_pos; lra).
  assert (GS : G * speck <= G * (u53 / 10 ^ 6)) by (apply Rmult_le_compat_l; lra).
  assert (B1 : Rabs (v * c) <= 9 / 8 * 17 / 16 * G).
  { rewrite Rabs_mult. replace (9 / 8 * 17 / 16 * G) with ((9 / 8 * G) * (17 / 16)) by field. apply Rmult_le_compat; try apply Rabs_pos; lra. }
  destruct (m_ok g (mcos m) Fg Fc) as [F A]; [fold c v; lra|]. split; [exact F|]. fold c v in A. set (k := b2r _) in A |- *.
  assert (A' : Rabs (k - v * c) <= u53 * (9 / 8 * 17 / 16 * G) + eta).
  { eapply Rle_trans; [exact A|]. apply Rplus_le_compat_r, Rmult_le_compat_l; lra. }
  assert (T1 : Rabs ((v - G) * c) <= eps * G * (17 / 16)).
  { rewrite Rabs_mult. apply Rmult_le_compat; try apply Rabs_pos; lra. }
  assert (T2 : Rabs (G * (c - cos N)) <= G * (eps + 10 * u53 * N + 2 * speck)).
  { rewrite Rabs_mult, (Rabs_pos_eq G) by lra. apply Rmult_le_compat_l; lra. }
  split.
  - replace (k - G * cos N) with ((k - v * c) + (v - G) * c + G * (c - cos N)) by ring.
    eapply Rle_trans; [apply Rabs_triang|]. eapply Rle_trans; [apply Rplus_le_compat_r, Rabs_triang|]. lra.
  - replace k with ((k - v * c) + v * c) by ring. eapply Rle_trans; [apply Rabs_triang|]. lra.
Qed.
Lemma half_sin : forall g c G m N x X, sized G -> stands g c G -> near m N -> fin x = true -> Rabs X <= N -> Rabs (b2r x - X) <= u53 * Rabs X ->
  fin (Bmult mode_NE (Bmult mode_NE g x) (sync m)) = true /\
  Rabs (b2r (Bmult mode_NE (Bmult mode_NE g x) (sync m)) - c * (X * (G * sinc N))) <= G * (9 / 4 * eps + 30 * u53 * (1 + N)) /\
  Rabs (b2r (Bmult mode_NE (Bmult mode_NE g x) (sync m))) <= 3 / 2 * G.
Proof.
  intros g c G m N x X Z S D Fx BX Ax. pose proof (stands_le _ _ _ Z S) as Bg. destruct S as (Fg & Pc & Ag).
  destruct (sync_ok m N D) as (Fs & Bs & As). destruct D as (_ & _ & [N0 N1] & _).
  pose proof (sized_pos _ Z) as P. destruct (eta_sized _ Z) as [E1 E2]. pose proof (sized_big _ Z) as BG.
  pose proof eps_pos as EP. pose proof u53_pos as PU. pose proof eta_pos as PE. pose proof (Rabs_pos X) as PX.
  change (bpow radix2 42) with 4398046511104 in N1.
  set (s := b2r (sync m)) in *. set (v := b2r g) in *. set (xx := b2r x) in *.
  assert (UN : 0 <= u53 * N) by (apply Rmult_le_pos; lra).
  assert (UNs : u53 * N <= 1 / 2000).
  { apply Rle_trans with (u53 * 4398046511104); [apply Rmult_le_compat_l; lra|rewrite u53_val; lra]. }
  assert (US : u53 <= 1 / 10 ^ 10) by (rewrite u53_val; lra).
  assert (GE : 0 <= G * eps <= / 16 * G) by (split; [apply Rmult_le_pos; lra|rewrite (Rmult_comm (/ 16)); apply Rmult_le_compat_l; lra]).
  assert (GU : 0 <= G * u53) by (apply Rmult_le_pos; lra).
  assert (GUs : G * u53 <= G * (1 / 10 ^ 10)) by (apply Rmult_le_compat_l; lra).
  assert (GUN : 0 <= G * (u53 * N) <= G * (1 / 2000)) by (split; [apply Rmult_le_pos; lra|apply Rmult_le_compat_l; lra]).
  assert (PGN : 0 <= G * N) by (apply Rmult_le_pos; lra).
  assert (BGN : G * N <= G * 4398046511104) by (apply Rmult_le_compat_l; lra).
  assert (Bx : Rabs xx <= 1001 / 1000 * N).
  { replace xx with ((xx - X) + X) by ring. eapply Rle_trans; [apply Rabs_triang|].
    assert (u53 * Rabs X <= u53 * N) by (apply Rmult_le_compat_l; lra).
    assert (u53 * N <= 1 / 10 ^ 10 * N) by (apply Rmult_le_compat_r; lra). lra. }
  assert (B1 : Rabs (v * xx) <= 107 / 100 * (G * N)).
  { rewrite Rabs_mult. apply Rle_trans with ((17 / 16 * G) * (1001 / 1000 * N)); [apply Rmult_le_compat; try apply Rabs_pos; assumption|]. lra. }
  destruct (m_ok g x Fg Fx) as [Fh Ah]; [fold v xx; lra|]. fold v xx in Ah. set (h := Bmult mode_NE g x) in *. set (hh := b2r h) in *.
  assert (Ah' : Rabs (hh - v * xx) <= u53 * (107 / 100 * (G * N)) + eta).
  { eapply Rle_trans; [exact Ah|]. apply Rplus_le_compat_r, Rmult_le_compat_l; lra. }
  assert (H1 : Rabs (hh - c * (G * X)) <= (1001 / 1000 * (G * eps) + 21 / 10 * (G * u53)) * N + eta).
  { replace (hh - c * (G * X)) with ((hh - v * xx) + (v - c * G) * xx + c * (G * (xx - X))) by ring.
    eapply Rle_trans; [apply Rabs_triang|]. eapply Rle_trans; [apply Rplus_le_compat_r, Rabs_triang|].
    rewrite !Rabs_mult, Pc, Rmult_1_l, (Rabs_pos_eq G) by lra.
    assert (Rabs (v - c * G) * Rabs xx <= (eps * G) * (1001 / 1000 * N)) by (apply Rmult_le_compat; try apply Rabs_pos; assumption).
    assert (G * Rabs (xx - X) <= G * (u53 * N)).
    { apply Rmult_le_compat_l; [lra|]. eapply Rle_trans; [exact Ax|]. apply Rmult_le_compat_l; lra. }
    lra. }
  set (kap := 1001 / 1000 * (G * eps) + 21 / 10 * (G * u53)) in *. assert (Pk : 0 <= kap) by (unfold kap; lra).
  assert (NS0 : N * Rabs (sinc N) <= 1).
  { rewrite <- (Rabs_pos_eq N) at 1 by exact N0. rewrite <- Rabs_mult, sinc_mul. apply Rabs_le. pose proof (SIN_bound N). lra. }
  set (TT := N * Rabs (s - sinc N)) in *.
  assert (TT1 : TT <= 82 / 1000) by lra.
  assert (NS : N * Rabs s <= 11 / 10).
  { assert (Q1 : N * Rabs s <= N * (Rabs (s - sinc N) + Rabs (sinc N))).
    { apply Rmult_le_compat_l; [exact N0|]. replace s with ((s - sinc N) + sinc N) at 1 by ring. apply Rabs_triang. }
    rewrite Rmult_plus_distr_l in Q1. fold TT in Q1. lra. }
  assert (H2 : Rabs ((hh - c * (G * X)) * s) <= kap * (11 / 10) + 1000 * eta).
  { rewrite Rabs_mult. pose proof (Rabs_pos s) as Ps.
    assert (Rabs (hh - c * (G * X)) * Rabs s <= (kap * N + eta) * Rabs s) by (apply Rmult_le_compat_r; assumption).
    assert (kap * (N * Rabs s) <= kap * (11 / 10)) by (apply Rmult_le_compat_l; assumption).
    assert (eta * Rabs s <= eta * 1000) by (apply Rmult_le_compat_l; lra). lra. }
  assert (H3 : Rabs (c * (G * X) * (s - sinc N)) <= G * TT).
  { rewrite !Rabs_mult, Pc, Rmult_1_l, (Rabs_pos_eq G), Rmult_assoc by lra. apply Rmult_le_compat_l; [lra|]. unfold TT. apply Rmult_le_compat_r; [apply Rabs_pos|exact BX]. }
  assert (H4 : Rabs (hh * s - c * (X * (G * sinc N))) <= kap * (11 / 10) + 1000 * eta + G * TT).
  { replace (hh * s - c * (X * (G * sinc N))) with ((hh - c * (G * X)) * s + c * (G * X) * (s - sinc N)) by ring.
    eapply Rle_trans; [apply Rabs_triang|]. lra. }
  assert (GT : G * TT <= G * (82 / 1000)) by (apply Rmult_le_compat_l; lra).
  assert (GT2 : G * TT <= 11 / 10 * (G * eps) + 25 * (G * u53) + 25 * (G * (u53 * N))).
  { apply Rle_trans with (G * (11 / 10 * eps + 25 * u53 * (1 + N))); [apply Rmult_le_compat_l; lra|]. lra. }
  assert (H5 : Rabs (c * (X * (G * sinc N))) <= G).
  { replace (c * (X * (G * sinc N))) with (c * (G * (X * sinc N))) by ring. rewrite !Rabs_mult, Pc, Rmult_1_l, (Rabs_pos_eq G) by lra.
    rewrite <- (Rmult_1_r G) at 2. apply Rmult_le_compat_l; [lra|]. eapply Rle_trans; [|exact NS0]. apply Rmult_le_compat_r; [apply Rabs_pos|exact BX]. }
  assert (H6 : Rabs (hh * s) <= 13 / 10 * G).
  { replace (hh * s) with ((hh * s - c * (X * (G * sinc N))) + c * (X * (G * sinc N))) by ring. eapply Rle_trans; [apply Rabs_triang|].
    unfold kap in H4. lra. }
  destruct (m_ok h (sync m) Fh Fs) as [Fw Aw]; [fold hh s; lra|]. split; [exact Fw|]. fold hh s in Aw. set (w := b2r (Bmult mode_NE h (sync m))) in *.
  assert (Aw' : Rabs (w - hh * s) <= u53 * (13 / 10 * G) + eta).
  { eapply Rle_trans; [exact Aw|]. apply Rplus_le_compat_r, Rmult_le_compat_l; lra. }
  split.
  - replace (w - c * (X * (G * sinc N))) with ((w - hh * s) + (hh * s - c * (X * (G * sinc N)))) by ring.
    eapply Rle_trans; [apply Rabs_triang|]. unfold kap in H4. lra.
  - replace w with ((w - hh * s) + hh * s) by ring. eapply Rle_trans; [apply Rabs_triang|]. lra.
Qed.

(** ** Lengths of the two halves *)
Lemma exp_sized : forall x, Rabs x <= 300 -> bpow radix2 (-480) <= exp x <= bpow radix2 480.
Proof.
  assert (U : forall x, Rabs x <= 300 -> exp x <= bpow radix2 480).
  { intros x H. assert (D : Rabs (x + x) <= 600) by (eapply Rle_trans; [apply Rabs_triang|]; lra).
    pose proof (exp_bound _ D) as B. rewrite exp_plus in B. replace (bpow radix2 960) with (bpow radix2 480 * bpow radix2 480) in B by (rewrite <- bpow_plus; reflexivity).
    destruct (Rle_or_lt (exp x) (bpow radix2 480)) as [h|h]; [exact h|]. exfalso. pose proof (bpow_gt_0 radix2 480).
    assert (bpow radix2 480 * bpow radix2 480 < exp x * exp x) by (apply Rmult_le_0_lt_compat; lra). lra. }
  intros x H. split; [|apply U, H].
  replace x with (- - x) by ring. rewrite exp_Ropp. change (-480)%Z with (- (480))%Z. rewrite bpow_opp. apply Rinv_le_contravar; [apply exp_pos|]. apply U. rewrite Rabs_Ropp. exact H.
Qed.
Lemma square_plus : forall x : f64, Bplus mode_NE (B754_zero false) (Bmult mode_NE x x) = Bmult mode_NE x x.
Proof.
  intros x. pose proof (notneg_square x) as NS. apply notneg_sign in NS.
  assert (Z : Bmult mode_NE x x <> B754_zero true).
  { intros E. pose proof (Bmult_correct 53 1024 _ _ mode_NE x x) as C.
    destruct (Rlt_bool _ _) in C.
    - destruct C as (_ & _ & C). rewrite E in C. specialize (C eq_refl). cbn in C. destruct (Bsign x); discriminate C.
    - rewrite E in C. cbn in C. unfold binary_overflow in C. destruct (xorb _ _); cbn in C; discriminate C. }
  destruct (Bmult mode_NE x x) as [s|s| |s m e B]; cbn in *; try reflexivity; [destruct s; [congruence|reflexivity]].
Qed.
Lemma length_near : forall (x y z : f64) X Y Z, fin x = true -> fin y = true -> fin z = true ->
  Rabs (b2r x - X) <= u53 * Rabs X -> Rabs (b2r y - Y) <= u53 * Rabs Y -> Rabs (b2r z - Z) <= u53 * Rabs Z ->
  let N := sqrt (X * X + Y * Y + Z * Z) in N <= bpow radix2 42 ->
  near (Bsqrt mode_NE (Bplus mode_NE (Bplus mode_NE (Bmult mode_NE z z) (Bmult mode_NE y y)) (Bmult mode_NE x x))) N.
Proof.
  intros x y z X Y Z Fx Fy Fz Ax Ay Az N BN.
  assert (E : Bsqrt mode_NE (Bplus mode_NE (Bplus mode_NE (Bmult mode_NE z z) (Bmult mode_NE y y)) (Bmult mode_NE x x)) = magnitude TVec (Vec z y x : val f64 TVec)).
  { rewrite <- (square_plus z) at 1. reflexivity. }
  rewrite E. pose proof u53_pos as PU. assert (US : u53 <= / 10 ^ 10) by (rewrite u53_val; lra).
  assert (PN : 0 <= N) by apply sqrt_pos.
  set (Nf := cnorm (exactly TVec (Vec z y x))). assert (PNf : 0 <= Nf) by apply cnorm_nonneg.
  assert (EN : N * N = X * X + Y * Y + Z * Z) by (apply sqrt_sqrt; nra).
  assert (EF : Nf * Nf = b2r z * b2r z + b2r y * b2r y + b2r x * b2r x) by (unfold Nf; rewrite cnorm_sq'; apply cnorm2_3).
  assert (SQ : forall v V, Rabs (v - V) <= u53 * Rabs V -> (1 - u53) * (1 - u53) * (V * V) <= v * v <= (1 + u53) * (1 + u53) * (V * V)).
  { intros v V H. assert (V2 : Rabs V * Rabs V = V * V) by (rewrite <- Rabs_mult; apply Rabs_pos_eq; nra).
    assert (v2 : Rabs v * Rabs v = v * v) by (rewrite <- Rabs_mult; apply Rabs_pos_eq; nra).
    pose proof (Rabs_pos V). pose proof (Rabs_pos v).
    assert (Hu : Rabs v <= (1 + u53) * Rabs V).
    { replace v with ((v - V) + V) at 1 by ring. eapply Rle_trans; [apply Rabs_triang|]. lra. }
    assert (Hd : (1 - u53) * Rabs V <= Rabs v).
    { assert (Rabs V <= Rabs v + u53 * Rabs V); [|lra]. replace V with (v + (V - v)) at 1 by ring. eapply Rle_trans; [apply Rabs_triang|]. rewrite (Rabs_minus_sym V). lra. }
    assert (P0 : 0 <= (1 - u53) * Rabs V) by (apply Rmult_le_pos; lra).
    rewrite <- V2, <- v2. split.
    - replace ((1 - u53) * (1 - u53) * (Rabs V * Rabs V)) with (((1 - u53) * Rabs V) * ((1 - u53) * Rabs V)) by ring. apply Rmult_le_compat; assumption.
    - replace ((1 + u53) * (1 + u53) * (Rabs V * Rabs V)) with (((1 + u53) * Rabs V) * ((1 + u53) * Rabs V)) by ring. apply Rmult_le_compat; assumption. }
  pose proof (SQ _ _ Ax) as Qx. pose proof (SQ _ _ Ay) as Qy. pose proof (SQ _ _ Az) as Qz.
  assert (B1 : Nf <= (1 + u53) * N).
  { apply Rsqr_incr_0_var; [|apply Rmult_le_pos; lra]. unfold Rsqr. replace ((1 + u53) * N * ((1 + u53) * N)) with ((1 + u53) * (1 + u53) * (N * N)) by ring. rewrite EN, EF. lra. }
  assert (B2 : (1 - u53) * N <= Nf).
  { apply Rsqr_incr_0_var; [|exact PNf]. unfold Rsqr. replace ((1 - u53) * N * ((1 - u53) * N)) with ((1 - u53) * (1 - u53) * (N * N)) by ring. rewrite EN, EF. lra. }
  assert (UN : 0 <= u53 * N <= / 10 ^ 10 * N) by (split; [apply Rmult_le_pos; lra|apply Rmult_le_compat_r; lra]).
  destruct (length_ok z y x Fz Fy Fx) as (F & P & A).
  { fold Nf. apply Rle_trans with (8 * N); [lra|]. replace 45%Z with (3 + 42)%Z by reflexivity. rewrite bpow_plus. change (bpow radix2 3) with 8. lra. }
  fold Nf in A. split; [exact F|]. split; [exact P|]. split; [split; assumption|].
  pose proof speck_pos. assert (UNf : u53 * Nf <= u53 * ((1 + / 10 ^ 10) * N)) by (apply Rmult_le_compat_l; lra).
  set (m := b2r _) in *. apply Rabs_le_inv in A. apply Rabs_le. lra.
Qed.

(** ** One component of the result *)
Definition hal : f64 := nlit 1 (-1).
Lemma hal_ok : fin hal = true /\ b2r hal = / 2.
Proof.
  unfold hal. change (nlit 1 (-1) : f64) with (f64_lit 1 (-1)). destruct (lit_exact 1 (-1)) as [A B].
  - unfold F2R. cbn [Fnum Fexp]. rewrite Rmult_1_l. apply generic_format_bpow. cbv; congruence.
  - unfold F2R. cbn [Fnum Fexp]. rewrite Rmult_1_l, Rabs_pos_eq by apply bpow_ge_0. apply bpow_lt; lia.
  - split; [exact A|]. rewrite B. change (bpow radix2 (-1)) with (/ 2). ring.
Qed.
Lemma front : forall a : f64, fin a = true -> Rabs (b2r a) <= 300 -> let A := exp (b2r a) in
  let q := Bmult mode_NE hal (mexp a) in fin q = true /\ Rabs (b2r q - A / 2) <= A / 2 * (eps + 2 * u53).
Proof.
  intros a F B A q. destruct (exp_sized _ B) as [A1 A2]. fold A in A1, A2. destruct (Te a F ltac:(lra)) as [Fe Ee]. fold A in Ee.
  assert (Z : sized A) by (split; [eapply Rle_trans; [|exact A1]|eapply Rle_trans; [exact A2|]]; apply bpow_le; lia).
  pose proof (sized_pos _ Z) as P. destruct (eta_sized _ Z) as [E1 _]. pose proof (sized_big _ Z) as BG.
  destruct hal_ok as [Fh Rh]. pose proof eps_pos as EP. pose proof u53_pos as PU. pose proof eta_pos.
  set (e := b2r (mexp a)) in *. assert (EA : 0 <= eps * A <= / 16 * A) by (split; [apply Rmult_le_pos|apply Rmult_le_compat_r]; lra).
  assert (Be : Rabs e <= 17 / 16 * A).
  { replace e with ((e - A) + A) by ring. eapply Rle_trans; [apply Rabs_triang|]. rewrite (Rabs_pos_eq A) by lra. lra. }
  assert (Bh : Rabs (/ 2 * e) <= 17 / 32 * A) by (rewrite Rabs_mult, Rabs_pos_eq by lra; lra).
  destruct (m_ok hal (mexp a) Fh Fe) as [Fq Aq]; [rewrite Rh; fold e; lra|]. split; [exact Fq|]. rewrite Rh in Aq. fold e q in Aq.
  assert (u53 * Rabs (/ 2 * e) <= u53 * (17 / 32 * A)) by (apply Rmult_le_compat_l; lra).
  assert (0 <= u53 * A) by (apply Rmult_le_pos; lra).
  apply Rabs_le_inv in Aq, Ee. apply Rabs_le. lra.
Qed.
Lemma component : forall (q b : f64) A G V W N, 0 <= N -> bpow radix2 (-480) <= A <= bpow radix2 480 -> 1 <= G <= bpow radix2 480 ->
  fin q = true -> Rabs (b2r q - A / 2) <= A / 2 * (eps + 2 * u53) -> fin b = true -> Rabs (b2r b) <= 301 / 100 * G ->
  Rabs (b2r b - (V + W)) <= 2 * (G * (9 / 4 * eps + 30 * u53 * (1 + N))) + 3 * (u53 * G) ->
  fin (Bmult mode_NE q b) = true /\ Rabs (b2r (Bmult mode_NE q b) - A * ((V + W) / 2)) <= A * G * (4 * eps + 38 * u53 * (1 + N)).
Proof.
  intros q b A G V W N PN [A1 A2] [G1 G2] Fq Aq Fb Bb Ab.
  assert (Z : sized A) by (split; [eapply Rle_trans; [|exact A1]|eapply Rle_trans; [exact A2|]]; apply bpow_le; lia).
  pose proof (sized_pos _ Z) as P. destruct (eta_sized _ Z) as [E1 _].
  pose proof eps_pos as EP. pose proof u53_pos as PU. pose proof eta_pos as PE.
  assert (US : u53 <= / 10 ^ 10) by (rewrite u53_val; lra).
  set (y := b2r q) in *. set (z := b2r b) in *.
  assert (PAG : 0 < A * G) by (apply Rmult_lt_0_compat; lra).
  assert (AAG : A <= A * G) by (rewrite <- (Rmult_1_r A) at 1; apply Rmult_le_compat_l; lra).
  assert (AGe : 0 <= A * G * eps <= A * G * / 16) by (split; [apply Rmult_le_pos|apply Rmult_le_compat_l]; lra).
  assert (AGu : 0 <= A * G * u53 <= A * G * / 10 ^ 10) by (split; [apply Rmult_le_pos|apply Rmult_le_compat_l]; lra).
  assert (AGn : 0 <= A * G * u53 * N) by (apply Rmult_le_pos; lra).
  assert (Eu : eta <= A * G * u53 / 1000).
  { apply Rle_trans with (u53 / 10 ^ 6 * A); [lra|]. assert (u53 * A <= u53 * (A * G)) by (apply Rmult_le_compat_l; lra). lra. }
  assert (By : Rabs y <= 54 / 100 * A).
  { replace y with ((y - A / 2) + A / 2) by ring. eapply Rle_trans; [apply Rabs_triang|]. rewrite (Rabs_pos_eq (A / 2)) by lra.
    assert (A * eps <= A * / 16) by (apply Rmult_le_compat_l; lra). assert (A * u53 <= A * / 10 ^ 10) by (apply Rmult_le_compat_l; lra). lra. }
  assert (Byz : Rabs (y * z) <= 163 / 100 * (A * G)).
  { rewrite Rabs_mult. apply Rle_trans with ((54 / 100 * A) * (301 / 100 * G)); [apply Rmult_le_compat; try apply Rabs_pos; assumption|]. lra. }
  assert (BIG : 2 * (A * G) <= bpow radix2 1000).
  { apply Rle_trans with (bpow radix2 1 * (bpow radix2 480 * bpow radix2 480)).
    - change (bpow radix2 1) with 2. apply Rmult_le_compat_l; [lra|]. apply Rmult_le_compat; lra.
    - rewrite <- !bpow_plus. apply bpow_le; lia. }
  destruct (m_ok q b Fq Fb) as [F R]; [fold y z; lra|]. split; [exact F|]. fold y z in R. set (r := b2r (Bmult mode_NE q b)) in *.
  assert (R' : Rabs (r - y * z) <= u53 * (163 / 100 * (A * G)) + eta).
  { eapply Rle_trans; [exact R|]. apply Rplus_le_compat_r, Rmult_le_compat_l; lra. }
  assert (T1 : Rabs ((y - A / 2) * z) <= A / 2 * (eps + 2 * u53) * (301 / 100 * G)).
  { rewrite Rabs_mult. apply Rmult_le_compat; try apply Rabs_pos; assumption. }
  assert (T2 : Rabs (A / 2 * (z - (V + W))) <= A / 2 * (2 * (G * (9 / 4 * eps + 30 * u53 * (1 + N))) + 3 * (u53 * G))).
  { rewrite Rabs_mult, (Rabs_pos_eq (A / 2)) by lra. apply Rmult_le_compat_l; lra. }
  replace (r - A * ((V + W) / 2)) with ((r - y * z) + (y - A / 2) * z + A / 2 * (z - (V + W))) by field.
  eapply Rle_trans; [apply Rabs_triang|]. eapply Rle_trans; [apply Rplus_le_compat_r, Rabs_triang|]. lra.
Qed.
(** A sum of two halves. *)
Definition half_of (w : f64) (G V e : R) : Prop := fin w = true /\ Rabs (b2r w - V) <= G * e /\ Rabs (b2r w) <= 3 / 2 * G.
Lemma sum_ok : forall (w z : f64) G V W e, 0 < G <= bpow radix2 480 -> half_of w G V e -> half_of z G W e ->
  fin (Bplus mode_NE w z) = true /\ Rabs (b2r (Bplus mode_NE w z)) <= 301 / 100 * G /\
  Rabs (b2r (Bplus mode_NE w z) - (V + W)) <= 2 * (G * e) + 3 * (u53 * G).
Proof.
  intros w z G V W e [P G1] (Fw & Aw & Bw) (Fz & Az & Bz). pose proof u53_pos as PU.
  assert (BIG : 4 * G <= bpow radix2 1000).
  { apply Rle_trans with (bpow radix2 2 * bpow radix2 480); [change (bpow radix2 2) with 4; lra|rewrite <- bpow_plus; apply bpow_le; lia]. }
  set (a := b2r w) in *. set (b := b2r z) in *.
  assert (S : Rabs (a + b) <= 3 * G) by (eapply Rle_trans; [apply Rabs_triang|]; lra).
  destruct (a_ok w z Fw Fz) as [F A]; [fold a b; lra|]. split; [exact F|]. fold a b in A. set (r := b2r (Bplus mode_NE w z)) in *.
  assert (A' : Rabs (r - (a + b)) <= u53 * (3 * G)) by (eapply Rle_trans; [exact A|]; apply Rmult_le_compat_l; lra).
  assert (GU : 0 <= G * u53 <= G * / 10 ^ 10) by (split; [apply Rmult_le_pos|apply Rmult_le_compat_l; [|rewrite u53_val]]; lra).
  apply Rabs_le_inv in Aw, Az, A', S. split; apply Rabs_le; lra.
Qed.
Lemma half_opp : forall (w : f64) G V e, half_of w G V e -> half_of (Bopp w) G (- V) e.
Proof.
  intros w G V e (F & A & B). split; [rewrite is_finite_Bopp; exact F|]. rewrite B2R_Bopp. split; [|rewrite Rabs_Ropp; exact B].
  replace (- b2r w - - V) with (- (b2r w - V)) by ring. rewrite Rabs_Ropp. exact A.
Qed.
Lemma half_weaken : forall (w : f64) G G' V e e', 0 <= G <= G' -> 0 <= e <= e' -> half_of w G V e -> half_of w G' V e'.
Proof.
  intros w G G' V e e' HG Hee (F & A & B). split; [exact F|]. split; [|lra]. eapply Rle_trans; [exact A|]. apply Rmult_le_compat; lra.
Qed.

Definition summed (b : f64) (G V e : R) : Prop := fin b = true /\ Rabs (b2r b) <= 301 / 100 * G /\ Rabs (b2r b - V) <= 2 * (G * e) + 3 * (u53 * G).
Lemma summed_plus : forall (w z : f64) G V W e, 0 < G <= bpow radix2 480 -> half_of w G V e -> half_of z G W e -> summed (Bplus mode_NE w z) G (V + W) e.
Proof. exact sum_ok. Qed.
Lemma summed_minus : forall (w z : f64) G V W e, 0 < G <= bpow radix2 480 -> half_of w G V e -> half_of z G W e -> summed (Bminus mode_NE w z) G (V - W) e.
Proof. intros w z G V W e HG Hw Hz. rewrite bminus_opp. apply (summed_plus w (Bopp z) G V (- W)); [exact HG|exact Hw|apply half_opp, Hz]. Qed.
Lemma summed_opp : forall (b : f64) G V e, summed b G V e -> summed (Bopp b) G (- V) e.
Proof.
  intros b G V e (F & B & A). split; [rewrite is_finite_Bopp; exact F|]. rewrite B2R_Bopp. split; [rewrite Rabs_Ropp; exact B|].
  replace (- b2r b - - V) with (- (b2r b - V)) by ring. rewrite Rabs_Ropp. exact A.
Qed.

(** ** The whole *)
Lemma three_sq : forall x y z : R, 0 <= x * x + y * y + z * z.
Proof. intros x y z. pose proof (Rle_0_sqr x). pose proof (Rle_0_sqr y). pose proof (Rle_0_sqr z). unfold Rsqr in *. lra. Qed.
Notation "x *~ y" := (Bmult mode_NE x y) (at level 40, left associativity).
Notation "x +~ y" := (Bplus mode_NE x y) (at level 50, left associativity).
Notation "x -~ y" := (Bminus mode_NE x y) (at level 50, left associativity).
Lemma exp_Mvec_shape : forall s a1 a2 a3 p q r t : f64, let M := mkMvec (Sca s) (Vec a1 a2 a3) (Biv p q r) (Tri t) in isValid_Mvec M = true ->
  let x1 := a1 -~ p in let x2 := a2 +~ Bopp q in let x3 := a3 -~ r in
  let y1 := a1 +~ p in let y2 := a2 -~ Bopp q in let y3 := a3 +~ r in
  let m := Bsqrt mode_NE (x3 *~ x3 +~ x2 *~ x2 +~ x1 *~ x1) in let n := Bsqrt mode_NE (y3 *~ y3 +~ y2 *~ y2 +~ y1 *~ y1) in
  let h := hal *~ mexp s in let g := mexp t in let k := mexp (Bopp t) in
  exp_Mvec M = mkMvec (Sca (h *~ (g *~ mcos m +~ k *~ mcos n)))
    (Vec (h *~ (g *~ x1 *~ sync m +~ k *~ y1 *~ sync n)) (h *~ (g *~ x2 *~ sync m +~ k *~ y2 *~ sync n)) (h *~ (g *~ x3 *~ sync m +~ k *~ y3 *~ sync n)))
    (Biv (h *~ (Bopp g *~ x1 *~ sync m +~ k *~ y1 *~ sync n)) (h *~ Bopp (g *~ x2 *~ sync m -~ k *~ y2 *~ sync n)) (h *~ (Bopp g *~ x3 *~ sync m +~ k *~ y3 *~ sync n)))
    (Tri (h *~ (g *~ mcos m -~ k *~ mcos n))).
Proof. intros s a1 a2 a3 p q r t M V. cbv zeta. unfold exp_Mvec, exp_Mvec_io. rewrite V. reflexivity. Qed.

Lemma exp_Mvec_accurate : forall (x : MultiVector f64) E, all_valid TMvec x -> 
  Rabs (b2r (sca_0 (mvSca x))) <= 300 -> Rabs (b2r (tri_0 (mvTri x))) <= 300 -> cnorm (exactly TMvec x) <= bpow radix2 40 ->
  is_aexp (exactly TMvec x) E ->
  all_finite TMvec (exp_Mvec x) /\
  cnorm (csub (exactly TMvec (exp_Mvec x)) E) <=
    exp (b2r (sca_0 (mvSca x)) + Rabs (b2r (tri_0 (mvTri x)))) * (12 * eps + 165 * unit_roundoff * (1 + cnorm (exactly TMvec x))).
Proof.
  intros x E V Bs Bt BM HE. change unit_roundoff with u53.
  pose proof (all_valid_isValid TMvec x V) as IV. change (isValid_Mvec x = true) in IV.
  destruct x as [[[s]] [[a1 a2 a3]] [[p q r]] [[t]]].
  set (M := mapv (fun v : f64 => b2r v) TMvec (mkMvec (Sca s) (Vec a1 a2 a3) (Biv p q r) (Tri t)) : MultiVector R).
  change (exactly TMvec _) with (den TMvec M) in BM, HE |- * at 2.
  assert (FF : fin s = true /\ fin a1 = true /\ fin a2 = true /\ fin a3 = true /\ fin p = true /\ fin q = true /\ fin r = true /\ fin t = true).
  { change (List.Forall valid_number [s; a1; a2; a3; p; q; r; t]) in V.
    assert (K : forall v, In v [s; a1; a2; a3; p; q; r; t] -> fin v = true) by (intros v h; exact (proj1 (proj1 (List.Forall_forall _ _) V v h))).
    repeat split; apply K; cbn; tauto. }
  destruct FF as (Fs & F1 & F2 & F3 & Fp & Fq & Fr & Ft).
  change (b2r (sca_0 (mvSca (mkMvec (Sca s) (Vec a1 a2 a3) (Biv p q r) (Tri t))))) with (b2r s) in *.
  change (b2r (tri_0 (mvTri (mkMvec (Sca s) (Vec a1 a2 a3) (Biv p q r) (Tri t))))) with (b2r t) in *.
  set (NM := cnorm (den TMvec M)) in *. assert (PNM : 0 <= NM) by apply cnorm_nonneg.
  pose proof eps_pos as EP. pose proof u53_pos as PU.
  change (bpow radix2 40) with 1099511627776 in BM. pose proof big_val as BV. change (bpow radix2 50) with 1125899906842624 in BV.
  assert (NM2 : NM * NM = b2r s * b2r s + (b2r a1 * b2r a1 + b2r a2 * b2r a2 + b2r a3 * b2r a3) + (b2r p * b2r p + b2r q * b2r q + b2r r * b2r r) + b2r t * b2r t).
  { unfold NM. rewrite cnorm_sq'. unfold M. cbn. ring. }
  assert (SQ : forall v V, 0 <= V -> v * v <= V * V -> Rabs v <= V).
  { intros v W PV H. apply Rsqr_le_abs_0 in H. rewrite (Rabs_pos_eq W) in H by exact PV. exact H. }
  pose proof (SQ (b2r a1) NM PNM ltac:(nra)) as C1. pose proof (SQ (b2r a2) NM PNM ltac:(nra)) as C2. pose proof (SQ (b2r a3) NM PNM ltac:(nra)) as C3.
  pose proof (SQ (b2r p) NM PNM ltac:(nra)) as Cp. pose proof (SQ (b2r q) NM PNM ltac:(nra)) as Cq. pose proof (SQ (b2r r) NM PNM ltac:(nra)) as Cr.
  assert (Fq' : fin (Bopp q) = true) by (rewrite is_finite_Bopp; exact Fq).
  assert (D2 : forall v w, Rabs v <= NM -> Rabs w <= NM -> Rabs (v + w) <= bpow radix2 1000 /\ Rabs (v - w) <= bpow radix2 1000).
  { intros v w h k. apply Rabs_le_inv in h, k. split; apply Rabs_le; lra. }
  destruct (s_ok a1 p F1 Fp (proj2 (D2 _ _ C1 Cp))) as [Fx1 Ax1].
  destruct (a_ok a1 p F1 Fp (proj1 (D2 _ _ C1 Cp))) as [Fy1 Ay1].
  destruct (s_ok a3 r F3 Fr (proj2 (D2 _ _ C3 Cr))) as [Fx3 Ax3].
  destruct (a_ok a3 r F3 Fr (proj1 (D2 _ _ C3 Cr))) as [Fy3 Ay3].
  destruct (a_ok a2 (Bopp q) F2 Fq') as [Fx2 Ax2]; [rewrite B2R_Bopp; exact (proj2 (D2 _ _ C2 Cq))|].
  destruct (s_ok a2 (Bopp q) F2 Fq') as [Fy2 Ay2]; [rewrite B2R_Bopp; unfold Rminus; rewrite Ropp_involutive; exact (proj1 (D2 _ _ C2 Cq))|].
  rewrite B2R_Bopp in Ax2, Ay2. unfold Rminus in Ay2 at 2 3. rewrite Ropp_involutive in Ay2.
  change (b2r a2 + - b2r q) with (b2r a2 - b2r q) in Ax2.
  pose proof (exp_Mvec_shape s a1 a2 a3 p q r t IV) as SH. cbv zeta in SH.
  match goal with |- context [exp_Mvec ?X] => set (RES := exp_Mvec X) end.
  match type of SH with ?l = _ => change l with RES in SH end. rewrite SH. clear SH RES.
  set (x1 := a1 -~ p) in *. set (x2 := a2 +~ Bopp q) in *. set (x3 := a3 -~ r) in *.
  set (y1 := a1 +~ p) in *. set (y2 := a2 -~ Bopp q) in *. set (y3 := a3 +~ r) in *.
  set (m := Bsqrt mode_NE (x3 *~ x3 +~ x2 *~ x2 +~ x1 *~ x1)). set (n := Bsqrt mode_NE (y3 *~ y3 +~ y2 *~ y2 +~ y1 *~ y1)).
  set (X1 := b2r a1 - b2r p) in *. set (X2 := b2r a2 - b2r q) in *. set (X3 := b2r a3 - b2r r) in *.
  set (Y1 := b2r a1 + b2r p) in *. set (Y2 := b2r a2 + b2r q) in *. set (Y3 := b2r a3 + b2r r) in *.
  set (Na := sqrt (X1 * X1 + X2 * X2 + X3 * X3)). set (Nb := sqrt (Y1 * Y1 + Y2 * Y2 + Y3 * Y3)).
  assert (PNa : 0 <= Na) by apply sqrt_pos. assert (PNb : 0 <= Nb) by apply sqrt_pos.
  assert (SNa : Na * Na = X1 * X1 + X2 * X2 + X3 * X3) by (apply sqrt_sqrt, three_sq).
  assert (SNb : Nb * Nb = Y1 * Y1 + Y2 * Y2 + Y3 * Y3) by (apply sqrt_sqrt, three_sq).
  assert (BNa : Na <= 3 / 2 * NM).
  { rewrite <- (Rabs_pos_eq Na) by exact PNa. apply SQ; [lra|]. rewrite SNa. replace (3 / 2 * NM * (3 / 2 * NM)) with (9 / 4 * (NM * NM)) by field. rewrite NM2. unfold X1, X2, X3.
    pose proof (three_sq (b2r a1 + b2r p) (b2r a2 + b2r q) (b2r a3 + b2r r)). pose proof (three_sq (b2r a1) (b2r a2) (b2r a3)). pose proof (three_sq (b2r p) (b2r q) (b2r r)). pose proof (three_sq (b2r s) (b2r t) 0). lra. }
  assert (BNb : Nb <= 3 / 2 * NM).
  { rewrite <- (Rabs_pos_eq Nb) by exact PNb. apply SQ; [lra|]. rewrite SNb. replace (3 / 2 * NM * (3 / 2 * NM)) with (9 / 4 * (NM * NM)) by field. rewrite NM2. unfold Y1, Y2, Y3.
    pose proof (three_sq (b2r a1 - b2r p) (b2r a2 - b2r q) (b2r a3 - b2r r)). pose proof (three_sq (b2r a1) (b2r a2) (b2r a3)). pose proof (three_sq (b2r p) (b2r q) (b2r r)). pose proof (three_sq (b2r s) (b2r t) 0). lra. }
  assert (B42 : 3 / 2 * NM <= bpow radix2 42) by (change (bpow radix2 42) with 4398046511104; lra).
  pose proof (length_near x1 x2 x3 X1 X2 X3 Fx1 Fx2 Fx3 Ax1 Ax2 Ax3) as Da. cbv zeta in Da. fold Na m in Da. specialize (Da ltac:(lra)).
  pose proof (length_near y1 y2 y3 Y1 Y2 Y3 Fy1 Fy2 Fy3 Ay1 Ay2 Ay3) as Db. cbv zeta in Db. fold Nb n in Db. specialize (Db ltac:(lra)).
  assert (XB : Rabs X1 <= Na /\ Rabs X2 <= Na /\ Rabs X3 <= Na) by (repeat split; apply SQ; try lra; rewrite SNa; pose proof (Rle_0_sqr X1); pose proof (Rle_0_sqr X2); pose proof (Rle_0_sqr X3); unfold Rsqr in *; lra).
  assert (YB : Rabs Y1 <= Nb /\ Rabs Y2 <= Nb /\ Rabs Y3 <= Nb) by (repeat split; apply SQ; try lra; rewrite SNb; pose proof (Rle_0_sqr Y1); pose proof (Rle_0_sqr Y2); pose proof (Rle_0_sqr Y3); unfold Rsqr in *; lra).
  (* exponentials *)
  destruct (exp_sized _ Bt) as [G1 G2]. assert (Bt' : Rabs (b2r (Bopp t)) <= 300) by (rewrite B2R_Bopp, Rabs_Ropp; exact Bt).
  destruct (exp_sized _ Bt') as [K1 K2].
  assert (SG : sized (exp (b2r t))) by (split; [eapply Rle_trans; [|exact G1]|eapply Rle_trans; [exact G2|]]; apply bpow_le; lia).
  assert (SK : sized (exp (b2r (Bopp t)))) by (split; [eapply Rle_trans; [|exact K1]|eapply Rle_trans; [exact K2|]]; apply bpow_le; lia).
  assert (Ft' : fin (Bopp t) = true) by (rewrite is_finite_Bopp; exact Ft).
  assert (WD : forall v : R, Rabs v <= 300 -> Rabs v <= 600) by (intros; lra).
  destruct (Te t Ft (WD _ Bt)) as [Fg Ag]. destruct (Te (Bopp t) Ft' (WD _ Bt')) as [Fk Ak].
  set (g := mexp t) in *. set (k := mexp (Bopp t)) in *. rewrite B2R_Bopp in Ak, SK, K1, K2. set (G := exp (b2r t)) in *. set (K := exp (- b2r t)) in *.
  assert (Sg : stands g 1 G) by (split; [exact Fg|split; [apply Rabs_R1|rewrite Rmult_1_l; exact Ag]]).
  assert (Sk : stands k 1 K) by (split; [exact Fk|split; [apply Rabs_R1|rewrite Rmult_1_l; exact Ak]]).
  assert (Sg' : stands (Bopp g) (-1) G).
  { split; [rewrite is_finite_Bopp; exact Fg|]. split; [rewrite Rabs_left by lra; ring|]. rewrite B2R_Bopp. replace (- b2r g - -1 * G) with (- (b2r g - G)) by ring. rewrite Rabs_Ropp. exact Ag. }
  set (GM := exp (Rabs (b2r t))).
  assert (MONO : forall a b, a <= b -> exp a <= exp b).
  { intros a b h. destruct (Rle_lt_or_eq_dec _ _ h) as [l| ->]; [left; apply exp_increasing, l|lra]. }
  assert (GM1 : 1 <= GM <= bpow radix2 480).
  { split; [rewrite <- exp_0; apply MONO, Rabs_pos|]. apply exp_sized. rewrite Rabs_Rabsolu. exact Bt. }
  assert (GG : 0 <= G <= GM) by (split; [left; apply exp_pos|apply MONO, Rle_abs]).
  assert (KK : 0 <= K <= GM) by (split; [left; apply exp_pos|apply MONO; rewrite <- Rabs_Ropp; apply Rle_abs]).
  set (N := 3 / 2 * NM) in *. set (e := 9 / 4 * eps + 30 * u53 * (1 + N)).
  assert (UNN : forall N' c, 0 <= N' <= N -> 0 <= c <= 30 -> 0 <= 9 / 4 * eps + c * u53 * (1 + N') <= e).
  { intros N' c h1 h2. unfold e. assert (0 <= u53 * N') by (apply Rmult_le_pos; lra). assert (u53 * N' <= u53 * N) by (apply Rmult_le_compat_l; lra).
    assert (0 <= u53 * (1 + N')) by lra. assert (c * (u53 * (1 + N')) <= 30 * (u53 * (1 + N'))) by (apply Rmult_le_compat_r; lra).
    assert (0 <= c * (u53 * (1 + N'))) by (apply Rmult_le_pos; lra). split; lra. }
  assert (HC1 : half_of (g *~ mcos m) GM (G * cos Na) e).
  { eapply half_weaken; [exact GG|apply (UNN Na 14); lra|exact (half_cos g G m Na SG Sg Da)]. }
  assert (HC2 : half_of (k *~ mcos n) GM (K * cos Nb) e).
  { eapply half_weaken; [exact KK|apply (UNN Nb 14); lra|exact (half_cos k K n Nb SK Sk Db)]. }
  assert (HX : forall g' c x X, stands g' c G -> fin x = true -> Rabs X <= Na -> Rabs (b2r x - X) <= u53 * Rabs X -> half_of (g' *~ x *~ sync m) GM (c * (X * (G * sinc Na))) e).
  { intros g' c x X h1 h2 h3 h4. eapply half_weaken; [exact GG|apply (UNN Na 30); lra|exact (half_sin g' c G m Na x X SG h1 Da h2 h3 h4)]. }
  assert (HY : forall x X, fin x = true -> Rabs X <= Nb -> Rabs (b2r x - X) <= u53 * Rabs X -> half_of (k *~ x *~ sync n) GM (1 * (X * (K * sinc Nb))) e).
  { intros x X h2 h3 h4. eapply half_weaken; [exact KK|apply (UNN Nb 30); lra|exact (half_sin k 1 K n Nb x X SK Sk Db h2 h3 h4)]. }
  destruct (front s Fs Bs) as [Fh Ah]. cbv zeta in Fh, Ah. set (h := hal *~ mexp s) in *. set (A := exp (b2r s)) in *.
  pose proof (exp_sized _ Bs) as BA. fold A in BA.
  assert (GMp : 0 < GM <= bpow radix2 480) by lra.
  assert (FIN : forall b W, summed b GM W e -> fin (h *~ b) = true /\ Rabs (b2r (h *~ b) - A * (W / 2)) <= A * GM * (4 * eps + 38 * u53 * (1 + N))).
  { intros b W (Fb & Bb & Ab). replace (A * (W / 2)) with (A * ((W + 0) / 2)) by field.
    apply component; try assumption; [unfold N; lra|rewrite Rplus_0_r; exact Ab]. }
  set (B := A * GM * (4 * eps + 38 * u53 * (1 + N))) in *.
  assert (PB : 0 <= B).
  { unfold B. assert (0 <= u53 * N) by (apply Rmult_le_pos; unfold N; lra). apply Rmult_le_pos; [apply Rmult_le_pos; [left; apply exp_pos|lra]|lra]. }
  destruct XB as (XB1 & XB2 & XB3). destruct YB as (YB1 & YB2 & YB3).
  destruct (FIN _ _ (summed_plus _ _ _ _ _ _ GMp HC1 HC2)) as [R0 Q0].
  destruct (FIN _ _ (summed_minus _ _ _ _ _ _ GMp HC1 HC2)) as [R7 Q7].
  destruct (FIN _ _ (summed_plus _ _ _ _ _ _ GMp (HX g 1 x1 X1 Sg Fx1 XB1 Ax1) (HY y1 Y1 Fy1 YB1 Ay1))) as [R1 Q1].
  destruct (FIN _ _ (summed_plus _ _ _ _ _ _ GMp (HX g 1 x2 X2 Sg Fx2 XB2 Ax2) (HY y2 Y2 Fy2 YB2 Ay2))) as [R2 Q2].
  destruct (FIN _ _ (summed_plus _ _ _ _ _ _ GMp (HX g 1 x3 X3 Sg Fx3 XB3 Ax3) (HY y3 Y3 Fy3 YB3 Ay3))) as [R3 Q3].
  destruct (FIN _ _ (summed_plus _ _ _ _ _ _ GMp (HX (Bopp g) (-1) x1 X1 Sg' Fx1 XB1 Ax1) (HY y1 Y1 Fy1 YB1 Ay1))) as [R4 Q4].
  destruct (FIN _ _ (summed_opp _ _ _ _ (summed_minus _ _ _ _ _ _ GMp (HX g 1 x2 X2 Sg Fx2 XB2 Ax2) (HY y2 Y2 Fy2 YB2 Ay2)))) as [R5 Q5].
  destruct (FIN _ _ (summed_plus _ _ _ _ _ _ GMp (HX (Bopp g) (-1) x3 X3 Sg' Fx3 XB3 Ax3) (HY y3 Y3 Fy3 YB3 Ay3))) as [R6 Q6].
  split.
  { repeat (apply Forall_cons || apply List.Forall_nil); assumption. }
  pose proof (is_aexp_aexp M) as HA.
  rewrite !cnorm_vec in HA. change (sqrt _) with Na in HA at 1. change (sqrt _) with Nb in HA at 1.
  assert (EE : ceq E (aexp (sinc Na) (sinc Nb) M)).
  { intros j. rewrite <- (is_series_unique _ _ (HE j)). exact (is_series_unique _ _ (HA j)). }
  assert (AE : forall j, Rabs (csub (exactly TMvec (mkMvec (Sca (h *~ (g *~ mcos m +~ k *~ mcos n)))
    (Vec (h *~ (g *~ x1 *~ sync m +~ k *~ y1 *~ sync n)) (h *~ (g *~ x2 *~ sync m +~ k *~ y2 *~ sync n)) (h *~ (g *~ x3 *~ sync m +~ k *~ y3 *~ sync n)))
    (Biv (h *~ (Bopp g *~ x1 *~ sync m +~ k *~ y1 *~ sync n)) (h *~ Bopp (g *~ x2 *~ sync m -~ k *~ y2 *~ sync n)) (h *~ (Bopp g *~ x3 *~ sync m +~ k *~ y3 *~ sync n)))
    (Tri (h *~ (g *~ mcos m -~ k *~ mcos n))))) E j) <= B).
  { intros j. unfold csub. rewrite (EE j).
    assert (P1 : exp (b2r s + b2r t) = A * G) by apply exp_plus.
    assert (P2 : exp (b2r s - b2r t) = A * K) by apply exp_plus.
    assert (La : cnorm (den TVec (part_minus M)) = Na) by apply cnorm_vec.
    assert (Lb : cnorm (den TVec (part_plus M)) = Nb) by apply cnorm_vec.
    unfold aexp. cbv zeta. rewrite La, Lb.
    change (sca_0 (mvSca M)) with (b2r s). change (tri_0 (mvTri M)) with (b2r t). rewrite P1, P2.
    unfold part_minus, part_plus.
    change (vec_0 (mvVec M)) with (b2r a1). change (vec_1 (mvVec M)) with (b2r a2). change (vec_2 (mvVec M)) with (b2r a3).
    change (biv_0 (mvBiv M)) with (b2r p). change (biv_1 (mvBiv M)) with (b2r q). change (biv_2 (mvBiv M)) with (b2r r).
    cbn [vec_0 vec_1 vec_2]. fold X1 X2 X3 Y1 Y2 Y3.
    clear - Q0 Q1 Q2 Q3 Q4 Q5 Q6 Q7.
    dblade j; unfold exactly; cbn [den den8 mapv].
    all: match goal with
      | [ Q : Rabs ?v <= ?bb |- Rabs ?w <= ?bb ] => replace w with v by (cbn -[A G K X1 X2 X3 Y1 Y2 Y3 Na Nb Bmult Bplus Bminus Bopp B2R sync mcos cos sinc]; field); exact Q
      | [ Q : Rabs ?v <= ?bb |- Rabs ?w <= ?bb ] => replace w with (- v) by (cbn -[A G K X1 X2 X3 Y1 Y2 Y3 Na Nb Bmult Bplus Bminus Bopp B2R sync mcos cos sinc]; field); rewrite Rabs_Ropp; exact Q
      end. }
  pose proof (norm_of_bound _ B PB AE) as FB. eapply Rle_trans; [exact FB|].
  unfold B. rewrite exp_plus. fold A GM. 
  assert (PAG : 0 <= A * GM) by (apply Rmult_le_pos; [left; apply exp_pos|lra]).
  replace (17 / 6 * (A * GM * (4 * eps + 38 * u53 * (1 + N)))) with (A * GM * (17 / 6 * (4 * eps + 38 * u53 * (1 + N)))) by ring.
  apply Rmult_le_compat_l; [exact PAG|]. unfold N. assert (0 <= u53 * NM) by (apply Rmult_le_pos; lra). lra.
Qed.
End Library.
