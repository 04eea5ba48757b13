(** * Accuracy of exp after log, and of the square root, on binary64: proofs. *)

Require Import Reals ZArith List Bool Lra Lia.
From Flocq Require Import Core Relative BinarySingleNaN.
Require Import Verif.Num Verif.Types Verif.Priv Verif.OpsUni Verif.OpsAdd Verif.OpsSub
  Verif.OpsMul Verif.Const Verif.Validity Verif.Func Verif.SpecCl Verif.RealInst Verif.AlgTac Verif.AlgMul Verif.AlgFacts Verif.SpecFunc
  Verif.FuncFacts Verif.SpecExp Verif.ExpFacts Verif.ExpThm Verif.LogThm Verif.Rel Verif.B64 Verif.B64Facts Verif.SpecValid Verif.ValidFacts
  Verif.SpecRound Verif.ArrErr Verif.IntFacts Verif.ErrFacts Verif.SpecAcc Verif.BoundFacts Verif.AccFacts Verif.NormFacts Verif.ExpAcc Verif.LogAcc.
Import ListNotations.
Local Open Scope R_scope.

Lemma circle_small : forall a b, -1 <= a <= 1 -> 0 <= b <= 11 / 10 -> sqrt (a * a + b * b) <= 2.
Proof. intros a b Ha Hb. rewrite <- (sqrt_square 2) by lra. apply sqrt_le_1_alt. nra. Qed.
Lemma sine_lower : forall r t, 0 <= r <= 2 -> 0 <= t <= PI -> / 8589934592 <= r * sin t -> / 17179869184 <= t.
Proof.
  intros r t Hr Ht H. assert (S : sin t <= t). { pose proof (sin_le_abs t) as Q. rewrite (Rabs_pos_eq t) in Q by lra. pose proof (Rle_abs (sin t)). lra. }
  assert (S0 : 0 <= sin t) by (apply sin_ge_0; lra). nra.
Qed.
(** ** First components *)
Lemma nonzero_ge : forall v : f64, Rabs (b2r v) <= eta -> b2r v = 0.
Proof.
  intros v H. destruct v as [sv|sv| |sv mv ev Bv]; try reflexivity. exfalso.
  pose proof (abs_B2R_ge_emin 53 1024 (B754_finite sv mv ev Bv) eq_refl) as Q.
  assert (bpow radix2 (-1075) < bpow radix2 (-1074)) by (apply bpow_lt; lia).
  change (SpecFloat.emin 53 1024) with (-1074)%Z in Q. change eta with (bpow radix2 (-1075)) in H. lra.
Qed.
Lemma rel_normal_abs : forall x, bpow radix2 (-1000) <= Rabs x -> Rabs x / 2 <= Rabs (rnd64 x).
Proof.
  intros x H. rewrite <- round_NE_abs by (apply (fexp_correct 53 1024); reflexivity).
  pose proof (rel_normal _ H) as K. pose proof (bpow_gt_0 radix2 (-1000)). rewrite u53_val in K. lra.
Qed.
Lemma mult_first : forall (a v : f64) e, (-960 <= e)%Z -> fin a = true -> fin v = true -> bpow radix2 (-36) <= Rabs (b2r a) <= 4 -> Rabs (b2r v) <= 4 ->
  b2r v = 0 \/ bpow radix2 e <= Rabs (b2r v) -> let p : f64 := Bmult mode_NE a v in b2r p = 0 \/ bpow radix2 (e - 37) <= Rabs (b2r p).
Proof.
  intros a v e He Fa Fv Ha Hv H p. pose proof (Rabs_pos (b2r v)) as Pv. pose proof (Rabs_pos (b2r a)) as Pa.
  destruct (bmult_ok a v Fa Fv) as [_ Rp].
  { apply (rnd_lt _ 4); [lia|]. rewrite Rabs_mult. change (bpow radix2 4) with 16. nra. }
  unfold p. rewrite Rp. destruct H as [H|H].
  - left. rewrite H, Rmult_0_r. apply round_0. apply valid_rnd_N.
  - right. assert (M : bpow radix2 (e - 36) <= Rabs (b2r a * b2r v)).
    { replace (e - 36)%Z with (-36 + e)%Z by ring. rewrite bpow_plus, Rabs_mult. apply Rmult_le_compat; try apply bpow_ge_0; lra. }
    eapply Rle_trans; [|apply rel_normal_abs; eapply Rle_trans; [apply bpow_le|exact M]; lia].
    replace (e - 37)%Z with (e - 36 + -1)%Z by ring. rewrite bpow_plus. change (bpow radix2 (-1)) with (/ 2). lra.
Qed.
Lemma dir_first : forall t (x : val f64 t) k (v : f64) e, (-1000 <= e <= 0)%Z -> all_finite t x ->
  bpow radix2 (-480) <= cnorm (exactly t x) <= bpow radix2 480 -> exactly t (direction t x) k = b2r v ->
  exactly t x k = 0 \/ bpow radix2 e * cnorm (exactly t x) <= Rabs (exactly t x k) ->
  b2r v = 0 \/ bpow radix2 (e - 1) <= Rabs (b2r v).
Proof.
  intros t x k v e He F H Hv HX. destruct (direction_accurate t x F H) as [_ E]. specialize (E k). rewrite Hv in E.
  set (N := cnorm (exactly t x)) in *. assert (PN : 0 < N) by (eapply Rlt_le_trans; [apply bpow_gt_0|apply H]).
  destruct HX as [HX|HX].
  - left. apply nonzero_ge. rewrite HX, Rabs_R0 in E. unfold Rdiv in E. rewrite Rmult_0_l, Rmult_0_r, Rminus_0_r, Rplus_0_l in E. exact E.
  - right. assert (Q : bpow radix2 e <= Rabs (exactly t x k) / N).
    { apply Rmult_le_reg_r with N; [exact PN|]. unfold Rdiv. rewrite Rmult_assoc, Rinv_l, Rmult_1_r by lra. exact HX. }
    assert (A : Rabs (exactly t x k / N) = Rabs (exactly t x k) / N).
    { unfold Rdiv. rewrite Rabs_mult, (Rabs_pos_eq (/ N)); [reflexivity|left; apply Rinv_0_lt_compat; exact PN]. }
    assert (K : eta <= u53 / 1000 * (Rabs (exactly t x k) / N)).
    { apply eta_rel. eapply Rle_trans; [apply bpow_le|exact Q]; lia. }
    replace (e - 1)%Z with (e + -1)%Z by ring. rewrite bpow_plus. change (bpow radix2 (-1)) with (/ 2).
    assert (B : Rabs (exactly t x k) / N <= Rabs (b2r v) + Rabs (b2r v - exactly t x k / N)).
    { rewrite <- A. replace (exactly t x k / N) with (b2r v + - (b2r v - exactly t x k / N)) at 1 by ring.
      eapply Rle_trans; [apply Rabs_triang|]. rewrite Rabs_Ropp. lra. }
    pose proof (bpow_gt_0 radix2 e). rewrite u53_val in *. lra.
Qed.

(** ** Bivectors that the exponential accepts *)
Definition exp_ready (x : BiVector f64) : Prop :=
  x = zero_Biv \/ all_finite TBiv x /\ bpow radix2 (-35) <= cnorm (exactly TBiv x) <= 4 /\
    (b2r (biv_0 x) = 0 \/ bpow radix2 (-945) <= Rabs (b2r (biv_0 x))).
Definition exp_ready' (x : BiVector f64) : Prop :=
  x = zero_Biv \/ all_finite TBiv x /\ bpow radix2 (-40) <= cnorm (exactly TBiv x) <= 5 /\
    (b2r (biv_0 x) = 0 \/ bpow radix2 (-950) <= Rabs (b2r (biv_0 x))).
Lemma ready_ready : forall x, exp_ready x -> exp_ready' x.
Proof.
  intros x [H|(F & H & Z)]; [left; exact H|right]. split; [exact F|]. split.
  - split; [|lra]. eapply Rle_trans; [apply bpow_le|apply H]; lia.
  - destruct Z as [Z|Z]; [left; exact Z|right]. eapply Rle_trans; [apply bpow_le|exact Z]; lia.
Qed.
Lemma ready_domain : forall x, exp_ready' x -> x = zero_Biv \/ exp_domain x.
Proof.
  intros x [H|(F & H & Z)]; [left; exact H|right]. split; [exact F|]. split.
  - split; [eapply Rle_trans; [apply bpow_le|apply H]; lia|]. apply Rle_trans with (bpow radix2 3); [change (bpow radix2 3) with 8; lra|apply bpow_le; lia].
  - destruct Z as [Z|Z]; [left; exact Z|right]. split; [eapply Rle_trans; [apply bpow_le|exact Z]; lia|].
    eapply Rle_trans; [|exact Z]. replace (-950)%Z with (-953 + 3)%Z by reflexivity. rewrite bpow_plus.
    apply Rmult_le_compat; [apply bpow_ge_0|apply cnorm_nonneg|apply bpow_le; lia|change (bpow radix2 3) with 8; lra].
Qed.
Lemma turned_ready : forall (b : BiVector f64) (a : f64) t eps, all_finite TBiv b ->
  bpow radix2 (-480) <= cnorm (exactly TBiv b) <= bpow radix2 480 -> fin a = true -> bpow radix2 (-34) <= t <= PI ->
  Rabs (b2r a - t) <= eps -> eps <= bpow radix2 (-40) -> b2r (biv_0 b) = 0 \/ bpow radix2 (-903) * cnorm (exactly TBiv b) <= Rabs (b2r (biv_0 b)) ->
  exp_ready (scale TBiv a (direction TBiv b)).
Proof.
  intros b a t eps F H Fa Ht Ea He Hb. right. pose proof (bpow_gt_0 radix2 (-34)) as P34. pose proof PI_upper as PU. pose proof u53_pos.
  assert (He' : eps <= / 8192) by (eapply Rle_trans; [exact He|]; change (bpow radix2 (-40)) with (/ 1099511627776); lra).
  change (bpow radix2 (-40)) with (/ 1099511627776) in He. change (bpow radix2 (-34)) with (/ 17179869184) in *.
  destruct (half_turn b a t eps F H Fa ltac:(lra) Ea He') as [G K]. split; [exact G|].
  assert (PP : 0 < cnorm (exactly TBiv b)) by (eapply Rlt_le_trans; [apply bpow_gt_0|apply H]).
  split.
  - set (x := exactly TBiv (scale TBiv a (direction TBiv b))) in *. set (y := cscale (t / cnorm (exactly TBiv b)) (exactly TBiv b)) in *.
    assert (Ny : cnorm y = t).
    { unfold y. rewrite cnorm_scale, Rabs_pos_eq; [field; lra|]. apply Rmult_le_pos; [lra|left; apply Rinv_0_lt_compat; lra]. }
    pose proof (norm_le_sub x y) as A1. pose proof (norm_le_sub y x) as A2.
    rewrite (cnorm_ceq (csub y x) (cscale (-1) (csub x y))) in A2 by (intros k; unfold csub, cscale; ring).
    rewrite cnorm_scale, Rabs_left in A2 by lra. change (bpow radix2 (-35)) with (/ 34359738368). rewrite u53_val in *. lra.
  - destruct (direction_accurate TBiv b F H) as [Fd _]. pose proof (direction_unit TBiv b F H) as Du. apply Rabs_le_inv in Du.
    change (biv_0 (scale TBiv a (direction TBiv b))) with (Bmult mode_NE a (biv_0 (direction TBiv b))).
    replace (-945)%Z with (-908 - 37)%Z by reflexivity. apply mult_first; [lia|exact Fa| | | |].
    + destruct (direction TBiv b) as [[d1 d2 d3]]. inversion Fd; assumption.
    + change (bpow radix2 (-36)) with (/ 68719476736). apply Rabs_le_inv in Ea. rewrite Rabs_pos_eq by lra. lra.
    + rewrite <- biv_comp. eapply Rle_trans; [apply comp_le_norm|]. rewrite u53_val in *. lra.
    + destruct (dir_first TBiv b bE23 (biv_0 (direction TBiv b)) (-903) ltac:(lia) F H (biv_comp _)) as [h|h].
      * rewrite biv_comp. exact Hb.
      * left; exact h.
      * right. eapply Rle_trans; [apply bpow_le|exact h]; lia.
Qed.

(** ** Halving *)
Definition half : f64 := f64_lit 1 (-1).
Lemma half_ok : fin half = true /\ b2r half = / 2.
Proof.
  destruct (lit_exact 1 (-1)) as [A B].
  - rewrite F2R_bpow. apply fmt_bpow; lia.
  - rewrite F2R_bpow, Rabs_pos_eq by apply bpow_ge_0. apply bpow_lt; lia.
  - split; [exact A|]. unfold half. rewrite B. change (bpow radix2 (-1)) with (/ 2). ring.
Qed.
Lemma rnd_half : forall v, generic_format radix2 fexp64 v -> Rabs (rnd64 (/ 2 * v) - / 2 * v) <= eta.
Proof.
  intros v G. destruct (Req_dec v 0) as [->|Nz].
  { rewrite Rmult_0_r, round_0 by apply valid_rnd_N. rewrite Rminus_0_r, Rabs_R0. apply bpow_ge_0. }
  set (e := cexp radix2 fexp64 v).
  assert (Ee : e = Z.max (mag radix2 v - 53) (-1074)) by reflexivity.
  destruct (Z_lt_le_dec (-1074) e) as [h|h].
  - rewrite rnd_fmt; [rewrite Rminus_diag_eq, Rabs_R0 by reflexivity; apply bpow_ge_0|].
    apply generic_format_FLT. unfold generic_format in G. fold e in G.
    exists (Float radix2 (Ztrunc (scaled_mantissa radix2 fexp64 v)) (e - 1)).
    + rewrite G at 1. unfold F2R. cbn [Fnum Fexp]. replace (e - 1)%Z with (-1 + e)%Z by ring. rewrite bpow_plus. change (bpow radix2 (-1)) with (/ 2). ring.
    + cbn [Fnum]. apply lt_IZR. rewrite abs_IZR.
      rewrite <- (scaled_mantissa_generic radix2 fexp64 v) by (unfold generic_format; fold e; exact G).
      unfold scaled_mantissa. fold e. rewrite Rabs_mult, (Rabs_pos_eq (bpow radix2 (- e))) by apply bpow_ge_0.
      apply Rmult_lt_reg_r with (bpow radix2 e); [apply bpow_gt_0|]. rewrite Rmult_assoc, <- bpow_plus.
      replace (- e + e)%Z with 0%Z by ring. rewrite Rmult_1_r. change (IZR (radix2 ^ 53)) with (bpow radix2 53). rewrite <- bpow_plus.
      eapply Rlt_le_trans; [apply bpow_mag_gt|]. apply bpow_le. lia.
    + cbn [Fexp]. change (SpecFloat.emin 53 1024) with (-1074)%Z. lia.
  - pose proof (error_le_half_ulp radix2 fexp64 (fun x => negb (Z.even x)) (/ 2 * v)) as E.
    eapply Rle_trans; [exact E|]. rewrite ulp_neq_0 by lra. unfold cexp. change (fexp64 (mag radix2 (/ 2 * v))) with (Z.max (mag radix2 (/ 2 * v) - 53) (-1074)).
    assert (M : (mag radix2 (/ 2 * v) <= -1021)%Z).
    { apply mag_le_bpow; [lra|]. rewrite Rabs_mult, (Rabs_pos_eq (/ 2)) by lra.
      pose proof (bpow_mag_gt radix2 v) as Q. assert (Rabs v < bpow radix2 (-1021)) by (eapply Rlt_le_trans; [exact Q|apply bpow_le; lia]).
      pose proof (Rabs_pos v). lra. }
    rewrite Z.max_r by lia. change eta with (bpow radix2 (-1 + -1074)). rewrite bpow_plus. change (bpow radix2 (-1)) with (/ 2). lra.
Qed.
Lemma half_num : forall v : f64, fin v = true -> fin (Bmult mode_NE half v) = true /\ Rabs (b2r (Bmult mode_NE half v) - / 2 * b2r v) <= eta.
Proof.
  intros v F. destruct half_ok as [Fh Rh]. destruct (bmult_ok half v Fh F) as [G E].
  - rewrite Rh. apply Rle_lt_trans with (Rabs (b2r v)); [|apply abs_B2R_lt_emax].
    apply rnd_le_format; [apply generic_format_abs, fmt_b2r|]. rewrite Rabs_mult, (Rabs_pos_eq (/ 2)) by lra. pose proof (Rabs_pos (b2r v)). lra.
  - split; [exact G|]. rewrite E, Rh. apply rnd_half, fmt_b2r.
Qed.
Lemma half_biv : forall b : BiVector f64, all_finite TBiv b -> all_finite TBiv (scale TBiv half b) /\
  cnorm (csub (exactly TBiv (scale TBiv half b)) (cscale (/ 2) (exactly TBiv b))) <= 3 * eta.
Proof.
  intros [[x y z]] F. unfold all_finite in F. cbn in F. inversion F as [|? ? Fx F1]; subst. inversion F1 as [|? ? Fy F2]; subst. inversion F2 as [|? ? Fz _]; subst.
  destruct (half_num x Fx) as [Gx Ex]. destruct (half_num y Fy) as [Gy Ey]. destruct (half_num z Fz) as [Gz Ez].
  assert (E : scale TBiv half (mkBiv (A3 x y z)) = Biv (Bmult mode_NE half x) (Bmult mode_NE half y) (Bmult mode_NE half z)) by reflexivity.
  rewrite E. clear E. revert Gx Gy Gz Ex Ey Ez. generalize (Bmult mode_NE half x) (Bmult mode_NE half y) (Bmult mode_NE half z). intros hx hy hz Gx Gy Gz Ex Ey Ez.
  split; [unfold all_finite; cbn; repeat constructor; assumption|]. pose proof eta_pos.
  eapply Rle_trans; [apply (norm_of_bound _ eta)|lra]; [lra|].
  assert (Ey' : Rabs (- b2r hy - / 2 * - b2r y) <= eta) by (replace (- b2r hy - / 2 * - b2r y) with (- (b2r hy - / 2 * b2r y)) by ring; rewrite Rabs_Ropp; exact Ey).
  assert (Z : Rabs (0 - / 2 * 0) <= eta) by (rewrite Rmult_0_r, Rminus_0_r, Rabs_R0; lra).
  intros k. unfold csub, cscale, exactly. dblade k; first [exact Z | exact Ex | exact Ey | exact Ez | exact Ey'].
Qed.
Lemma half_ready : forall x, exp_ready x -> exp_ready' (scale TBiv half x).
Proof.
  intros x [->|(F & H & Z)]; [left; vm_compute; reflexivity|right].
  destruct (half_biv x F) as [G K]. split; [exact G|]. pose proof eta_pos. pose proof eta_small.
  set (y := exactly TBiv (scale TBiv half x)) in *. set (X := exactly TBiv x) in *.
  pose proof (norm_le_sub y (cscale (/ 2) X)) as A1. pose proof (norm_le_sub (cscale (/ 2) X) y) as A2.
  rewrite (cnorm_ceq (csub (cscale (/ 2) X) y) (cscale (-1) (csub y (cscale (/ 2) X)))) in A2 by (intros k; unfold csub, cscale; ring).
  rewrite !cnorm_scale, (Rabs_left (-1)), (Rabs_pos_eq (/ 2)) in A2 by lra. rewrite cnorm_scale, (Rabs_pos_eq (/ 2)) in A1 by lra.
  change (bpow radix2 (-35)) with (/ 34359738368) in H. 
  split; [change (bpow radix2 (-40)) with (/ 1099511627776); rewrite u53_val in *; lra|].
  change (biv_0 (scale TBiv half x)) with (Bmult mode_NE half (biv_0 x)).
  assert (F0 : fin (biv_0 x) = true) by (destruct x as [[x1 x2 x3]]; inversion F; assumption).
  destruct (half_num (biv_0 x) F0) as [_ E]. destruct Z as [Z|Z].
  - left. rewrite Z, Rmult_0_r, Rminus_0_r in E. apply nonzero_ge, E.
  - right. assert (Ke : eta <= u53 / 1000 * Rabs (b2r (biv_0 x))) by (apply eta_rel; eapply Rle_trans; [apply bpow_le|exact Z]; lia).
    set (a := b2r (biv_0 x)) in *. set (h := b2r (Bmult mode_NE half (biv_0 x))) in *.
    assert (B : / 2 * Rabs a <= Rabs h + Rabs (h - / 2 * a)).
    { rewrite <- (Rabs_pos_eq (/ 2)) at 1 by lra. rewrite <- Rabs_mult. replace (/ 2 * a) with (h + - (h - / 2 * a)) at 1 by ring.
      eapply Rle_trans; [apply Rabs_triang|]. rewrite Rabs_Ropp. lra. }
    apply Rle_trans with (bpow radix2 (-945 + -2)); [apply bpow_le; lia|]. rewrite bpow_plus. change (bpow radix2 (-2)) with (/ 4). rewrite u53_val in *. lra.
Qed.

Section Library.
Context {L : Libm f64}.

Lemma log_ready : forall eps, atan2_within eps L -> 0 <= eps <= bpow radix2 (-40) -> forall s plane, root_domain s plane ->
  exp_ready (spinBiv (logG2 s plane)).
Proof.
  intros eps TA [He0 He] s plane (D & Z1 & Fp & Hp & Z2). rewrite (log_shape s plane D). cbv zeta. cbn [spinBiv].
  destruct D as (F & H & _).
  assert (H' : bpow radix2 (-480) <= cnorm (exactly TSpin s) <= bpow radix2 480).
  { split; [|apply H]. eapply Rle_trans; [apply bpow_le|apply H]; lia. }
  destruct (direction_accurate TSpin s F H') as [Fd _].
  assert (C1 : exactly TSpin s bE23 = b2r (biv_0 (spinBiv s))) by (destruct s as [[[c]] [[x y z]]]; reflexivity).
  assert (C2 : forall d : Spinor f64, exactly TSpin d bE23 = b2r (biv_0 (spinBiv d))) by (intros [[[c]] [[x y z]]]; reflexivity).
  pose proof (dir_first TSpin s bE23 (biv_0 (spinBiv (direction TSpin s))) (-900) ltac:(lia) F H' (C2 _)) as DF. rewrite C1 in DF. specialize (DF Z1).
  pose proof (branch_biv s F H) as BB. set (d := direction TSpin s) in *.
  destruct (spin_parts_finite d Fd) as [Fc Fb]. set (c := sca_0 (spinSca d)) in *. set (b := spinBiv d) in *.
  destruct almost_one as [Fo Ro]. cbv zeta in Fo, Ro. pose proof u53_pos as Pu. pose proof PI_upper as PU.
  assert (P4 : 4 * u53 <= bpow radix2 (-40)) by (rewrite u53_val; change (bpow radix2 (-40)) with (/ 1099511627776); lra).
  assert (PL : 3 <= PI) by (pose proof PI2_3_2; lra).
  destruct (nltb (1 - lim_epsilon)%num c) eqn:K1; [left; reflexivity|].
  destruct (nltb c (- (1 - lim_epsilon))%num) eqn:K2.
  - destruct turnHalf_near as [Ft Et]. apply (turned_ready plane c_turnHalf PI (4 * u53)); auto.
    + change (bpow radix2 (-34)) with (/ 17179869184). lra.
    + destruct Z2 as [Z2|Z2]; [left; exact Z2|right]. eapply Rle_trans; [|exact Z2]. apply Rmult_le_compat_r; [apply cnorm_nonneg|apply bpow_le; lia].
  - assert (L1 : b2r c <= 1 - 2 * u53).
    { change (Bltb ((1 - lim_epsilon)%num : f64) c = false) in K1. rewrite Bltb_correct in K1 by assumption. apply lt_false in K1. lra. }
    assert (L2 : - (1 - 2 * u53) <= b2r c).
    { change (Bltb c (Bopp ((1 - lim_epsilon)%num : f64)) = false) in K2. rewrite Bltb_correct in K2 by (rewrite ?is_finite_Bopp; assumption).
      apply lt_false in K2. rewrite B2R_Bopp in K2. lra. }
    destruct (BB ltac:(apply Rabs_le; lra)) as [B1 B2]. set (P := cnorm (exactly TBiv b)) in *.
    assert (PR : bpow radix2 (-480) <= P <= bpow radix2 480).
    { split; [eapply Rle_trans; [apply bpow_le|exact B1]; lia|]. apply Rle_trans with (bpow radix2 1); [change (bpow radix2 1) with 2; rewrite u53_val in B2; lra|apply bpow_le; lia]. }
    destruct (magnitude_facts TBiv b Fb PR) as [Fg Eg]. fold P in Eg. set (g := magnitude TBiv b) in *.
    change (bpow radix2 (-32)) with (/ 4294967296) in B1. apply Rabs_le_inv in Eg.
    assert (Pg : / 8589934592 <= b2r g <= 11 / 10) by (rewrite u53_val in *; lra).
    destruct (TA g c Fg Fc ltac:(lra)) as [Fa (t & Ht & Ea & Ec1 & Es1)]. cbv zeta in Ec1, Es1.
    set (r := sqrt (b2r c * b2r c + b2r g * b2r g)) in Ec1, Es1.
    assert (Hr : 0 <= r <= 2).
    { split; [apply sqrt_pos|]. apply circle_small; lra. }
    clearbody r.
    apply (turned_ready b (matan2 g c) t eps); auto.
    + change (bpow radix2 (-34)) with (/ 17179869184). split; [|lra].
      apply (sine_lower r); [lra|lra|]. rewrite <- Es1. lra.
    + fold P. destruct DF as [DF|DF]; [left; exact DF|right]. eapply Rle_trans; [|exact DF].
      replace (-900 - 1)%Z with (-903 + 2)%Z by reflexivity. rewrite bpow_plus. apply Rmult_le_compat_l; [apply bpow_ge_0|].
      change (bpow radix2 2) with 4. rewrite u53_val in B2. lra.
Qed.

Lemma exp_zero_biv : exp_Biv (zero_Biv : BiVector f64) = one TSpin.
Proof.
  unfold exp_Biv. cbv zeta. change (snd (pairMagDirFrom TBiv (zero_Biv : BiVector f64))) with (direction TBiv (zero_Biv : BiVector f64)).
  assert (A : isValid_Biv (zero_Biv : BiVector f64) = true) by (vm_compute; reflexivity).
  assert (B : isValid_Biv (direction TBiv (zero_Biv : BiVector f64)) = false) by (vm_compute; reflexivity).
  rewrite A, B. reflexivity.
Qed.
Lemma one_finite : all_finite TSpin (one TSpin : Spinor f64).
Proof. destruct one_ok as [F _]. unfold all_finite. repeat constructor. Qed.
Lemma zero_exactly : ceq (exactly TBiv (zero_Biv : BiVector f64)) czero.
Proof. intros k. unfold exactly, czero. dblade k; cbv -[Rplus Rmult Ropp R0 IZR]; ring. Qed.

Lemma exp_ready_accurate : forall eps, trig_within eps L -> exp_within eps L -> eps <= / 16 -> forall (c : f64) (x : BiVector f64) E,
  exp_ready' x -> fin c = true -> Rabs (b2r c) <= 600 -> is_cexp (exactly TSpin (mkSpin (Sca c) x)) E ->
  let s := mkSpin (Sca c) x in
  all_finite TSpin (exp_Spin s) /\
  cnorm (csub (exactly TSpin (exp_Spin s)) E) <= exp (b2r c) * (4 * eps + 20 * u53 * (1 + cnorm (exactly TBiv x))) + 3 * eta.
Proof.
  intros eps T Te He c x E R Fc Hc HE s.
  destruct (ready_domain x R) as [Z|D]; [|exact (exp_Spin_accurate eps T Te He s E D Fc Hc HE)].
  subst x. destruct (Te c Fc Hc) as [Fe Ee]. pose proof (exp_pos (b2r c)) as Px. pose proof (exp_bound _ Hc) as Bx.
  assert (S : exp_Spin s = scale TSpin (mexp c) (one TSpin)) by (unfold s, exp_Spin; cbn [spinBiv spinSca]; rewrite exp_zero_biv; reflexivity).
  rewrite S. set (v := exp (b2r c)) in *. set (e := b2r (mexp c)) in *. pose proof u53_pos. pose proof eta_pos.
  assert (Eps : 0 <= eps).
  { destruct (Rle_or_lt 0 eps) as [h|h]; [exact h|]. exfalso. pose proof (Rabs_pos (e - v)). nra. }
  assert (N1 : cnorm (exactly TSpin (one TSpin)) = 1) by (rewrite (cnorm_ceq _ _ one_exactly); apply cone_norm).
  assert (Ae : Rabs e <= 17 / 16 * v).
  { replace e with ((e - v) + v) by ring. eapply Rle_trans; [apply Rabs_triang|]. rewrite (Rabs_pos_eq v) by lra. nra. }
  destruct (scale_error TSpin (mexp c) (one TSpin) Fe one_finite) as [G K].
  { fold e. rewrite N1, Rmult_1_r. apply Rle_trans with (bpow radix2 2 * bpow radix2 960); [change (bpow radix2 2) with 4; lra|]. rewrite <- bpow_plus. apply bpow_le; lia. }
  split; [exact G|]. fold e in K. rewrite N1, Rmult_1_r in K. rewrite (cnorm_ceq _ _ zero_exactly).
  assert (N0 : cnorm czero = 0) by (unfold cnorm; replace (cnorm2 czero) with 0; [apply sqrt_0|unfold cnorm2, czero; cbn; ring]). rewrite N0.
  assert (Q : ceq E (cscale v cone)).
  { apply (is_cexp_unique (exactly TSpin (mkSpin (Sca c) zero_Biv))); [exact HE|].
    apply (is_cexp_ceq (cscale (b2r c) cone) _ (cscale v cone)); [|reflexivity|apply cexp_scalar].
    intros k. rewrite (spin_split c zero_Biv k). unfold cadd. rewrite (zero_exactly k). unfold czero. ring. }
  set (Y := exactly TSpin (scale TSpin (mexp c) (one TSpin))) in *.
  rewrite (cnorm_ceq (csub Y E) (cadd (csub Y (cscale e (exactly TSpin (one TSpin)))) (cscale (e - v) cone))).
  2:{ intros k. unfold csub, cadd, cscale. rewrite (Q k), (one_exactly k). unfold cscale. ring. }
  eapply Rle_trans; [apply cnorm_triangle|]. rewrite cnorm_scale, cone_norm, Rmult_1_r.
  assert (u53 * Rabs e <= u53 * (17 / 16 * v)) by (apply Rmult_le_compat_l; lra).
  assert (0 <= v * eps) by (apply Rmult_le_pos; lra). assert (0 <= u53 * v) by (apply Rmult_le_pos; lra). nra.
Qed.

(** ** exp after log *)
Lemma log_scalar : forall eps N l, 0 <= eps <= bpow radix2 (-40) -> bpow radix2 (-51) <= N <= bpow radix2 480 ->
  Rabs (l - ln N) <= eps * (2 + Rabs (ln N)) + 9 * u53 -> Rabs l <= 500 /\ exp l <= N * (1 + / 1000000) /\ N * (1 - / 1000000) <= exp l.
Proof.
  intros eps N l [He0 He] H E. pose proof (ln_range N H) as R. pose proof (Rabs_pos (ln N)) as P.
  assert (PN : 0 < N) by (eapply Rlt_le_trans; [apply bpow_gt_0|apply H]).
  change (bpow radix2 (-40)) with (/ 1099511627776) in He.
  assert (B : eps * (2 + Rabs (ln N)) <= / 1099511627776 * 482) by (apply Rmult_le_compat; lra).
  assert (E' : Rabs (l - ln N) <= / 2000000) by (rewrite u53_val in E; lra). split.
  - replace l with ((l - ln N) + ln N) by ring. eapply Rle_trans; [apply Rabs_triang|]. lra.
  - assert (X : exp l = N * exp (l - ln N)).
    { rewrite <- (exp_ln N) at 1 by exact PN. rewrite <- exp_plus. f_equal. ring. }
    pose proof (exp_near _ _ E' ltac:(lra)) as K. apply Rabs_le_inv in K. rewrite X. split; apply Rmult_le_compat_l; lra.
Qed.
Lemma log_spin : forall (s : Spinor f64) plane, log_domain s ->
  logG2 s plane = mkSpin (Sca (mlog (magnitude TSpin s))) (spinBiv (logG2 s plane)).
Proof. intros s plane D. rewrite (log_shape s plane D). reflexivity. Qed.
Lemma eta_norm : forall N, bpow radix2 (-60) <= N -> 100 * eta <= u53 * N.
Proof.
  intros N H. assert (PN : 0 < N) by (eapply Rlt_le_trans; [apply bpow_gt_0|exact H]). pose proof u53_pos.
  assert (eta <= u53 / 1000 * N) by (apply eta_rel; eapply Rle_trans; [apply bpow_le|exact H]; lia).
  assert (0 < u53 * N) by (apply Rmult_lt_0_compat; assumption). lra.
Qed.

Lemma exp_log_accurate : forall eps, trig_within eps L -> exp_within eps L -> log_within eps L -> atan2_within eps L ->
  eps <= bpow radix2 (-40) -> forall s plane, root_domain s plane ->
  let S := exactly TSpin s in let N := cnorm S in let r := exp_Spin (logG2 s plane) in let err := eps * (9 + 2 * Rabs (ln N)) in
  all_finite TSpin r /\ cnorm (csub (exactly TSpin r) S) <= N * (err + bpow radix2 (-21)) /\
  (bpow radix2 (-23) * N <= cnorm (exactly TBiv (spinBiv s)) -> cnorm (csub (exactly TSpin r) S) <= N * (err + 256 * unit_roundoff)).
Proof.
  intros eps T Te TL TA He s plane D S N r err. change unit_roundoff with u53.
  assert (He0 : 0 <= eps).
  { destruct (cos_within _ _ T (none_ : f64)) as [_ Q]; [apply one_ok|]. eapply Rle_trans; [apply Rabs_pos|exact Q]. }
  assert (He' : eps <= / 8192) by (eapply Rle_trans; [exact He|]; change (bpow radix2 (-40)) with (/ 1099511627776); lra).
  pose proof (log_ready eps TA (conj He0 He) s plane D) as R. destruct D as (D & _ & Fp & Hp & _).
  destruct (cexp_exists (exactly TSpin (logG2 s plane))) as [E HE].
  destruct (log_accurate eps TL TA He' s plane E D Fp Hp HE) as (Fl & Sl & Bl & A1 & A2). fold S N in Sl, A1, A2.
  change unit_roundoff with u53 in *.
  pose proof (log_spin s plane D) as SH. set (x := spinBiv (logG2 s plane)) in *.
  unfold r. rewrite SH in *. clear SH. set (l := mlog (magnitude TSpin s)) in *. cbn [spinSca] in *. change (sca_0 (Sca l)) with l in *.
  destruct D as (F & H & _). fold S N in H. destruct (log_scalar eps N (b2r l) (conj He0 He) H Sl) as (Ll & Ul & _).
  destruct (spin_parts_finite _ Fl) as [Fl' _]. change (fin l = true) in Fl'.
  destruct (exp_ready_accurate eps T Te ltac:(lra) l x E (ready_ready _ R) Fl' ltac:(lra) HE) as [G K]. cbv zeta in G, K.
  split; [exact G|].
  assert (PN : 0 < N) by (eapply Rlt_le_trans; [apply bpow_gt_0|apply H]).
  pose proof (eta_norm N ltac:(eapply Rle_trans; [apply bpow_le|apply H]; lia)) as EN.
  pose proof u53_pos as Pu. pose proof PI_upper. pose proof eta_pos. set (LN := Rabs (ln N)) in *. assert (PLN : 0 <= LN) by apply Rabs_pos.
  assert (Bx : cnorm (exactly TBiv x) <= 315 / 100) by (rewrite u53_val in *; lra).
  assert (Q : exp (b2r l) * (4 * eps + 20 * u53 * (1 + cnorm (exactly TBiv x))) <= N * (1 + / 1000000) * (4 * eps + 83 * u53)).
  { apply Rmult_le_compat; [left; apply exp_pos| |exact Ul|].
    - pose proof (cnorm_nonneg (exactly TBiv x)). assert (0 <= 20 * u53 * (1 + cnorm (exactly TBiv x))) by (apply Rmult_le_pos; lra). lra.
    - assert (20 * u53 * (1 + cnorm (exactly TBiv x)) <= 20 * u53 * (415 / 100)) by (apply Rmult_le_compat_l; lra). lra. }
  assert (GEN : forall q, cnorm (csub E S) <= N * (eps * (4 + 2 * LN) + q) -> cnorm (csub (exactly TSpin (exp_Spin (mkSpin (Sca l) x))) S) <= N * (err + (q + 90 * u53))).
  { intros q Hq. eapply Rle_trans; [apply (norm_sub_le _ E)|].
    assert (0 <= N * eps) by (apply Rmult_le_pos; lra). assert (0 <= N * u53) by (apply Rmult_le_pos; lra). unfold err. lra. }
  split.
  - eapply Rle_trans; [apply GEN, A1|]. apply Rmult_le_compat_l; [lra|].
    assert (90 * u53 + bpow radix2 (-22) <= bpow radix2 (-21)) by (rewrite u53_val; change (bpow radix2 (-21)) with (/ 2097152); change (bpow radix2 (-22)) with (/ 4194304); lra). lra.
  - intros h. eapply Rle_trans; [apply GEN, A2, h|]. apply Rmult_le_compat_l; lra.
Qed.

(** ** Square root *)
Lemma half_lip : forall (x y : BiVector f64) EX EY, is_cexp (exactly TBiv x) EX -> is_cexp (cscale (/ 2) (exactly TBiv y)) EY ->
  cnorm (csub EX EY) <= cnorm (csub (exactly TBiv x) (cscale (/ 2) (exactly TBiv y))) /\ cnorm EY = 1 /\ rev_scalar EY /\
  EY bS = cos (/ 2 * cnorm (exactly TBiv y)).
Proof.
  intros x y EX EY HX HY. set (z := mapv (fun v : f64 => / 2 * b2r v) TBiv y).
  assert (Z : ceq (den TBiv z) (cscale (/ 2) (exactly TBiv y))).
  { intros k. unfold z, exactly, cscale. destruct y as [[b1 b2 b3]]. dblade k; cbv -[B2R Rmult Rplus Ropp R0 IZR Rinv]; ring. }
  assert (HZ : is_cexp (den TBiv z) EY) by (apply (is_cexp_ceq (cscale (/ 2) (exactly TBiv y)) _ EY); [symmetry; exact Z|reflexivity|exact HY]).
  assert (NZ : cnorm (den TBiv z) = / 2 * cnorm (exactly TBiv y)) by (rewrite (cnorm_ceq _ _ Z), cnorm_scale, Rabs_pos_eq by lra; reflexivity).
  assert (Q : ceq EY (cadd (cscale (cos (cnorm (den TBiv z))) cone) (cscale (sinc (cnorm (den TBiv z))) (den TBiv z)))).
  { apply (is_cexp_unique (den TBiv z)); [exact HZ|]. apply cexp_square, biv_sq. }
  split; [|split; [|split]].
  - eapply Rle_trans; [apply (cexp_lip (mapv (fun v : f64 => b2r v) TBiv x) z EX EY HX HZ)|]. right. apply cnorm_ceq.
    intros k. unfold csub. rewrite (Z k). reflexivity.
  - rewrite (cnorm_ceq _ _ Q). unfold cnorm at 1. rewrite cnorm2_rotor, <- cnorm_sq.
    set (m := cnorm (den TBiv z)). replace (sinc m * sinc m * (m * m)) with ((m * sinc m) * (m * sinc m)) by ring.
    rewrite sinc_mul. pose proof (sin2_cos2 m) as h. unfold Rsqr in h.
    replace (cos m * cos m + sin m * sin m) with 1 by lra. apply sqrt_1.
  - assert (P : ceq EY (den TSpin (mkSpin (Sca (cos (cnorm (den TBiv z)))) (mapv (fun v => sinc (cnorm (den TBiv z)) * v) TBiv z)))).
    { rewrite Q. generalize (cos (cnorm (den TBiv z))) (sinc (cnorm (den TBiv z))). intros c k. clear. destruct z as [[b1 b2 b3]].
      intros i. unfold cadd, cscale, cone. dblade i; cbv -[Rmult Rplus Ropp R0 IZR]; ring. }
    unfold rev_scalar in *. rewrite P. apply (unmixed_rev TSpin). reflexivity.
  - rewrite (Q bS), NZ. unfold cadd, cscale. replace (cone bS) with 1 by reflexivity. replace (den TBiv z bS) with 0 by reflexivity. ring.
Qed.

Lemma exp_tiny : forall a b, Rabs (a - b) <= eta -> Rabs (exp a - exp b) <= 2 * eta * exp b.
Proof.
  intros a b H. pose proof eta_small. pose proof u53_pos. pose proof eta_pos. pose proof (exp_pos b) as Pb.
  assert (E : exp a = exp b * exp (a - b)) by (rewrite <- exp_plus; f_equal; ring).
  pose proof (exp_near _ _ H ltac:(rewrite u53_val in *; lra)) as K.
  rewrite E. replace (exp b * exp (a - b) - exp b) with (exp b * (exp (a - b) - 1)) by ring. rewrite Rabs_mult, Rabs_pos_eq by lra.
  rewrite Rmult_comm. apply Rmult_le_compat_r; lra.
Qed.
(** The square of a value close to [f], [f] a scaled rotor. *)
Lemma square_error : forall (q : Spinor f64) F w r, rev_scalar F -> cnorm F = w -> cnorm (csub (exactly TSpin q) F) <= w * r ->
  cnorm (csub (gp (exactly TSpin q) (exactly TSpin q)) (gp F F)) <= w * w * (r * (2 + r)).
Proof.
  intros q F w r RF NF H. set (Q := exactly TSpin q) in *. assert (Pw : 0 <= w) by (rewrite <- NF; apply cnorm_nonneg).
  rewrite (cnorm_ceq _ (cadd (gp Q (csub Q F)) (gp (csub Q F) F))).
  2:{ assert (Ll : forall a b c, ceq (gp a (csub b c)) (csub (gp a b) (gp a c))).
      { intros a b c k. dblade k; unfold csub, gp, rsum; cbn; ring. }
      assert (R : forall a b c, ceq (gp (csub a b) c) (csub (gp a c) (gp b c))).
      { intros a b c k. dblade k; unfold csub, gp, rsum; cbn; ring. }
      intros k. unfold cadd. rewrite (Ll Q Q F k), (R Q F F k). unfold csub. ring. }
  eapply Rle_trans; [apply cnorm_triangle|].
  rewrite (norm_gp_l Q) by (apply exactly_rev_scalar; reflexivity). rewrite (norm_gp_r _ F) by exact RF. rewrite NF.
  pose proof (norm_le_sub Q F) as NQ. rewrite NF in NQ. pose proof (cnorm_nonneg (csub Q F)) as Pd. pose proof (cnorm_nonneg Q).
  assert (A : cnorm Q * cnorm (csub Q F) <= (w + w * r) * (w * r)) by (apply Rmult_le_compat; lra).
  assert (B : cnorm (csub Q F) * w <= w * r * w) by (apply Rmult_le_compat_r; lra). lra.
Qed.
Lemma rev_scalar_scale : forall r a, rev_scalar a -> rev_scalar (cscale r a).
Proof.
  intros r a [A B].
  assert (C : cnorm2 (cscale r a) = r * r * cnorm2 a) by (unfold cnorm2, cscale; cbn; ring).
  assert (V : ceq (crev (cscale r a)) (cscale r (crev a))).
  { intros k. dblade k; unfold crev, cscale; cbn; ring. }
  split; rewrite V, gp_scale_l, gp_scale_r, ?A, ?B, C; intros k; unfold cscale; ring.
Qed.
Lemma tol_ok : let t : f64 := (nlit 4 0 * lim_epsilon)%num in fin t = true /\ b2r t = bpow radix2 (-50).
Proof.
  assert (E : (nlit 4 0 * lim_epsilon)%num = f64_lit 1 (-50)) by (apply B2SF_inj; vm_compute; reflexivity).
  cbv zeta. rewrite E. destruct (lit_exact 1 (-50)) as [A B].
  - rewrite F2R_bpow. apply fmt_bpow; lia.
  - rewrite F2R_bpow, Rabs_pos_eq by apply bpow_ge_0. apply bpow_lt; lia.
  - split; [exact A|]. rewrite B. ring.
Qed.
Lemma sqrt_shape : forall (s : Spinor f64) plane, log_domain s -> bpow radix2 (-49) <= cnorm (exactly TSpin s) ->
  let l := mlog (magnitude TSpin s) in
  sqrtG2 s plane = exp_Spin (mkSpin (Sca (Bmult mode_NE half l)) (scale TBiv half (spinBiv (logG2 s plane)))).
Proof.
  intros s plane D HN l. pose proof (log_spin s plane D) as SH. fold l in SH. destruct D as (F & H & V1 & V2).
  assert (H' : bpow radix2 (-480) <= cnorm (exactly TSpin s) <= bpow radix2 480).
  { split; [|apply H]. eapply Rle_trans; [apply bpow_le|apply H]; lia. }
  destruct (magnitude_facts TSpin s F H') as [Fm Em]. 
  assert (V : isValid_Spin s = true).
  { unfold isValid_Spin, isValid_Sca, isValid_Biv. apply andb_true_intro. split; apply isValid_number; assumption. }
  unfold sqrtG2. rewrite V. cbv zeta. destruct tol_ok as [Ft Rt]. cbv zeta in Ft, Rt.
  assert (G : nltb (magnitude TSpin s) (nlit 4 0 * lim_epsilon)%num = false).
  { change (Bltb (magnitude TSpin s) ((nlit 4 0 * lim_epsilon)%num : f64) = false). rewrite Bltb_correct by assumption. apply Rlt_bool_false. rewrite Rt.
    change (bpow radix2 (-49)) with (/ 562949953421312) in HN. change (bpow radix2 (-50)) with (/ 1125899906842624).
    rewrite u53_val in Em. apply Rabs_le_inv in Em. lra. }
  match goal with |- (if ?c then _ else _) = _ => replace c with false by (symmetry; exact G) end.
  set (x := spinBiv (logG2 s plane)) in *. rewrite SH. reflexivity.
Qed.

Lemma cos_past_right : forall m d, 0 <= m -> m <= PI / 2 + d -> 0 <= d <= 1 -> - d <= cos m.
Proof.
  intros m d Pm H Hd. pose proof PI_RGT_0. destruct (Rle_or_lt m (PI / 2)) as [h|h].
  - pose proof (cos_ge_0 m ltac:(lra) h). lra.
  - pose proof (cos_lip m (PI / 2)) as K. rewrite cos_PI2, Rminus_0_r, (Rabs_pos_eq (m - PI / 2)) in K by lra. apply Rabs_le_inv in K. lra.
Qed.

Lemma sqrt_accurate : forall eps, trig_within eps L -> exp_within eps L -> log_within eps L -> atan2_within eps L ->
  eps <= bpow radix2 (-40) -> forall s plane, root_domain s plane -> bpow radix2 (-49) <= cnorm (exactly TSpin s) ->
  let S := exactly TSpin s in let N := cnorm S in let Q := exactly TSpin (sqrtG2 s plane) in let err := eps * (13 + 2 * Rabs (ln N)) in
  all_finite TSpin (sqrtG2 s plane) /\ cnorm (csub (gp Q Q) S) <= N * (err + bpow radix2 (-21)) /\
  (bpow radix2 (-23) * N <= cnorm (exactly TBiv (spinBiv s)) -> cnorm (csub (gp Q Q) S) <= N * (err + 256 * unit_roundoff)) /\
  - sqrt N * (5 * eps + 128 * unit_roundoff) <= B2R (sca_0 (spinSca (sqrtG2 s plane))).
Proof.
  intros eps T Te TL TA He s plane D HN S N Q err. change unit_roundoff with u53.
  assert (He0 : 0 <= eps).
  { destruct (cos_within _ _ T (none_ : f64)) as [_ K]; [apply one_ok|]. eapply Rle_trans; [apply Rabs_pos|exact K]. }
  assert (He' : eps <= / 8192) by (eapply Rle_trans; [exact He|]; change (bpow radix2 (-40)) with (/ 1099511627776); lra).
  pose proof (log_ready eps TA (conj He0 He) s plane D) as R. destruct D as (D & _ & Fp & Hp & _).
  destruct (cexp_exists (exactly TSpin (logG2 s plane))) as [E HE].
  destruct (log_accurate eps TL TA He' s plane E D Fp Hp HE) as (Fl & Sl & Bl & A1 & A2). fold S N in Sl, A1, A2.
  change unit_roundoff with u53 in *.
  pose proof (sqrt_shape s plane D HN) as SQ. cbv zeta in SQ.
  pose proof (log_spin s plane D) as SH. set (x := spinBiv (logG2 s plane)) in *.
  unfold Q in *. rewrite SQ in *. clear SQ Q. rewrite SH in *. clear SH. set (l := mlog (magnitude TSpin s)) in *. cbn [spinSca] in Sl. change (sca_0 (Sca l)) with l in Sl.
  destruct D as (F & H & _). fold S N in H, HN. destruct (log_scalar eps N (b2r l) (conj He0 He) H Sl) as (Ll & Ul & _).
  destruct (spin_parts_finite _ Fl) as [Fl' Fx]. change (fin l = true) in Fl'. change (all_finite TBiv x) in Fx.
  destruct (half_num l Fl') as [Fc Ec]. set (c := Bmult mode_NE half l) in *.
  destruct (half_biv x Fx) as [Fy Ey]. pose proof (half_ready x R) as Ry. set (y := scale TBiv half x) in *.
  pose proof u53_pos as Pu. pose proof eta_small as Es. pose proof eta_pos as Pe. pose proof PI_upper as PU.
  assert (Lc : Rabs (b2r c) <= 600).
  { replace (b2r c) with ((b2r c - / 2 * b2r l) + / 2 * b2r l) by ring. eapply Rle_trans; [apply Rabs_triang|].
    rewrite (Rabs_mult (/ 2)), (Rabs_pos_eq (/ 2)) by lra. rewrite u53_val in *. lra. }
  destruct (cexp_exists (exactly TSpin (mkSpin (Sca c) y))) as [E' HE'].
  destruct (exp_ready_accurate eps T Te ltac:(lra) c y E' Ry Fc Lc HE') as [G K]. cbv zeta in G, K.
  set (q := exp_Spin (mkSpin (Sca c) y)) in *. set (Q := exactly TSpin q) in *. split; [exact G|].
  change (cnorm (csub Q E') <= exp (b2r c) * (4 * eps + 20 * u53 * (1 + cnorm (exactly TBiv y))) + 3 * eta) in K.
  destruct (cexp_exists (exactly TBiv y)) as [Eb' HEb']. pose proof (cexp_spin c y E' Eb' HE' HEb') as QE'. pose proof (cexp_biv_norm y Eb' HEb') as NEb'.
  destruct (cexp_exists (cscale (/ 2) (exactly TBiv x))) as [Fb HFb].
  destruct (half_lip y x Eb' Fb HEb' HFb) as (Lip & NFb & RFb & SFb).
  set (w := exp (/ 2 * b2r l)). assert (Pw : 0 < w) by apply exp_pos.
  assert (W2 : w * w = exp (b2r l)) by (unfold w; rewrite <- exp_plus; f_equal; field).
  set (FF := cscale w Fb).
  assert (RF : rev_scalar FF) by (apply rev_scalar_scale, RFb).
  assert (NF : cnorm FF = w) by (unfold FF; rewrite cnorm_scale, NFb, Rabs_pos_eq; lra).
  assert (EF : ceq (gp FF FF) E).
  { unfold FF. rewrite gp_scale_l, gp_scale_r.
    assert (X2 : is_cexp (exactly TBiv x) (gp Fb Fb)).
    { apply (is_cexp_ceq (cadd (cscale (/ 2) (exactly TBiv x)) (cscale (/ 2) (exactly TBiv x))) _ (gp Fb Fb)); [|reflexivity|].
      - intros k. unfold cadd, cscale. field.
      - apply cexp_add; [reflexivity|exact HFb|exact HFb]. }
    rewrite (cexp_spin l x E _ HE X2), <- W2. intros k. unfold cscale. ring. }
  pose proof (exp_tiny _ _ Ec) as Tc. fold w in Tc.
  assert (Dq : cnorm (csub Q FF) <= w * (401 / 100 * eps + 54 * u53)).
  { assert (Nx : cnorm (exactly TBiv x) <= 315 / 100) by (rewrite u53_val in *; lra).
    assert (Ny : cnorm (exactly TBiv y) <= 16 / 10).
    { pose proof (norm_le_sub (exactly TBiv y) (cscale (/ 2) (exactly TBiv x))) as Z. rewrite cnorm_scale, (Rabs_pos_eq (/ 2)) in Z by lra. rewrite u53_val in *. lra. }
    assert (Uc : exp (b2r c) <= w * (1 + / 1000000)) by (apply Rabs_le_inv in Tc; rewrite u53_val in *; nra).
    assert (K1 : exp (b2r c) * (4 * eps + 20 * u53 * (1 + cnorm (exactly TBiv y))) <= w * (1 + / 1000000) * (4 * eps + 52 * u53)).
    { apply Rmult_le_compat; [left; apply exp_pos| |exact Uc|].
      - pose proof (cnorm_nonneg (exactly TBiv y)). assert (0 <= 20 * u53 * (1 + cnorm (exactly TBiv y))) by (apply Rmult_le_pos; lra). lra.
      - assert (20 * u53 * (1 + cnorm (exactly TBiv y)) <= 20 * u53 * (26 / 10)) by (apply Rmult_le_compat_l; lra). lra. }
    assert (K2 : cnorm (csub E' FF) <= w * (5 * eta)).
    { rewrite (cnorm_ceq _ (cadd (cscale (exp (b2r c) - w) Eb') (cscale w (csub Eb' Fb)))).
      2:{ intros k. unfold csub at 1. rewrite (QE' k). unfold FF, cadd, csub, cscale. ring. }
      eapply Rle_trans; [apply cnorm_triangle|]. rewrite !cnorm_scale, NEb', (Rabs_pos_eq w) by lra.
      assert (w * cnorm (csub Eb' Fb) <= w * (3 * eta)) by (apply Rmult_le_compat_l; lra). lra. }
    assert (EN : 3 * eta <= w * (u53 / 10)).
    { assert (LW : / 1000000 * bpow radix2 (-60) <= w).
      { unfold w. assert (X1 : bpow radix2 (-60) <= N) by (eapply Rle_trans; [apply bpow_le|exact HN]; lia).
        apply Rnot_lt_le. intros h. change (bpow radix2 (-60)) with (/ 1152921504606846976) in *. fold w in h.
        change (bpow radix2 (-49)) with (/ 562949953421312) in HN.
        destruct (log_scalar eps N (b2r l) (conj He0 He) H Sl) as (_ & _ & LB). rewrite <- W2 in LB. nra. }
      assert (eta <= u53 / 1000 * (/ 1000000 * bpow radix2 (-60))).
      { apply eta_rel. apply Rle_trans with (bpow radix2 (-20) * bpow radix2 (-60)); [rewrite <- bpow_plus; apply bpow_le; lia|].
        apply Rmult_le_compat_r; [apply bpow_ge_0|]. change (bpow radix2 (-20)) with (/ 1048576). lra. }
      assert (u53 / 1000 * (/ 1000000 * bpow radix2 (-60)) <= u53 / 1000 * w) by (apply Rmult_le_compat_l; lra). 
      assert (0 < u53 * w) by (apply Rmult_lt_0_compat; assumption). lra. }
    eapply Rle_trans; [apply (norm_sub_le _ E')|].
    assert (w * (5 * eta) <= w * (u53 / 10)) by (apply Rmult_le_compat_l; lra).
    assert (0 <= w * eps) by (apply Rmult_le_pos; lra). assert (0 < w * u53) by (apply Rmult_lt_0_compat; assumption). lra. }
  pose proof (square_error q FF w _ RF NF Dq) as SE. fold Q in SE. rewrite W2 in SE.
  assert (PN : 0 < N) by (eapply Rlt_le_trans; [apply bpow_gt_0|apply H]).
  set (LN := Rabs (ln N)) in *. assert (PLN : 0 <= LN) by apply Rabs_pos.
  assert (SE' : cnorm (csub (gp Q Q) E) <= N * (81 / 10 * eps + 110 * u53)).
  { rewrite (cnorm_ceq _ (csub (gp Q Q) (gp FF FF))) by (intros k; unfold csub; rewrite (EF k); reflexivity).
    eapply Rle_trans; [exact SE|]. set (r := 401 / 100 * eps + 54 * u53) in *.
    assert (Pr : 0 <= r) by (unfold r; lra).
    assert (r <= / 1000000) by (unfold r; change (bpow radix2 (-40)) with (/ 1099511627776) in He; rewrite u53_val; lra).
    apply Rle_trans with (N * (1 + / 1000000) * (r * (2 + / 1000000))).
    - apply Rmult_le_compat; [left; apply exp_pos|apply Rmult_le_pos; lra|exact Ul|apply Rmult_le_compat_l; lra].
    - rewrite Rmult_assoc. apply Rmult_le_compat_l; [lra|]. unfold r. lra. }
  assert (GEN : forall v, cnorm (csub E S) <= N * (eps * (4 + 2 * LN) + v) -> cnorm (csub (gp Q Q) S) <= N * (err + (v + 110 * u53))).
  { intros v Hv. eapply Rle_trans; [apply (norm_sub_le _ E)|].
    assert (0 <= N * eps) by (apply Rmult_le_pos; lra). unfold err. lra. }
  split; [|split].
  - eapply Rle_trans; [apply GEN, A1|]. apply Rmult_le_compat_l; [lra|].
    assert (110 * u53 + bpow radix2 (-22) <= bpow radix2 (-21)) by (rewrite u53_val; change (bpow radix2 (-21)) with (/ 2097152); change (bpow radix2 (-22)) with (/ 4194304); lra). lra.
  - intros h. eapply Rle_trans; [apply GEN, A2, h|]. apply Rmult_le_compat_l; lra.
  - assert (CS : - (eps / 2 + 32 * u53) <= cos (/ 2 * cnorm (exactly TBiv x))).
    { apply cos_past_right; [pose proof (cnorm_nonneg (exactly TBiv x)); lra|lra|]. rewrite u53_val; lra. }
    pose proof (comp_le_norm (csub Q FF) bS) as CL. unfold csub at 1 in CL.
    assert (F0 : FF bS = w * cos (/ 2 * cnorm (exactly TBiv x))) by (unfold FF, cscale; rewrite SFb; reflexivity).
    assert (LB : - (w * (46 / 10 * eps + 90 * u53)) <= Q bS).
    { pose proof (Rle_trans _ _ _ CL Dq) as Z. apply Rabs_le_inv in Z.
      assert (w * - (eps / 2 + 32 * u53) <= w * cos (/ 2 * cnorm (exactly TBiv x))) by (apply Rmult_le_compat_l; lra).
      rewrite F0 in Z. assert (0 <= w * eps) by (apply Rmult_le_pos; lra). assert (0 < w * u53) by (apply Rmult_lt_0_compat; assumption). lra. }
    match goal with |- ?a <= _ => change (a <= Q bS) end. eapply Rle_trans; [|exact LB].
    assert (WS : w <= sqrt N * (1 + / 1000000)).
    { apply Rsqr_incr_0_var; [|apply Rmult_le_pos; [apply sqrt_pos|lra]]. unfold Rsqr. rewrite W2.
      replace (sqrt N * (1 + / 1000000) * (sqrt N * (1 + / 1000000))) with ((sqrt N * sqrt N) * ((1 + / 1000000) * (1 + / 1000000))) by ring.
      rewrite sqrt_sqrt by lra. eapply Rle_trans; [exact Ul|]. apply Rmult_le_compat_l; lra. }
    assert (w * (46 / 10 * eps + 90 * u53) <= sqrt N * (1 + / 1000000) * (46 / 10 * eps + 90 * u53)) by (apply Rmult_le_compat_r; lra).
    pose proof (sqrt_pos N). 
    assert (0 <= sqrt N * eps) by (apply Rmult_le_pos; lra). assert (0 <= sqrt N * u53) by (apply Rmult_le_pos; lra). lra.
Qed.
End Library.

(** ** Examples *)
Lemma small_int : forall n, (-8 <= n <= 8)%Z -> fin (f64_lit n 0) = true /\ b2r (f64_lit n 0) = IZR n.
Proof.
  intros n Hn. assert (E : F2R (Float radix2 n 0) = IZR n) by (unfold F2R; cbn; ring).
  destruct (lit_exact n 0) as [A B]; rewrite ?E; [apply int_format; lia|apply int_lt; lia|]. rewrite B. auto.
Qed.

Lemma example_root_domain :
  root_domain (mkSpin (Sca (f64_lit 3 0)) (Biv (f64_lit 4 0) (f64_lit 0 0) (f64_lit 0 0))) (Biv (f64_lit 0 0) (f64_lit 1 0) (f64_lit 0 0)).
Proof.
  set (s := mkSpin _ _). set (p := Biv (f64_lit 0 0) _ _).
  pose proof (small_int 3%Z ltac:(lia)) as [F3 B3]. pose proof (small_int 0%Z ltac:(lia)) as [F0 B0].
  pose proof (small_int 4%Z ltac:(lia)) as [F4 B4]. pose proof (small_int 1%Z ltac:(lia)) as [F1 B1].
  assert (N : cnorm (exactly TSpin s) = 5).
  { unfold cnorm. replace (cnorm2 (exactly TSpin s)) with (5 * 5); [apply sqrt_square; lra|].
    unfold exactly, s. cbv -[b2r f64_lit Rplus Rmult R0 IZR Ropp]. rewrite B3, B0, B4. ring. }
  assert (M : cnorm (exactly TBiv p) = 1).
  { unfold cnorm. replace (cnorm2 (exactly TBiv p)) with 1; [apply sqrt_1|].
    unfold exactly, p. cbv -[b2r f64_lit Rplus Rmult R0 IZR Ropp]. rewrite B1, B0. ring. }
  assert (P : forall e, (e <= 0)%Z -> bpow radix2 e <= 1) by (intros e He; change 1 with (bpow radix2 0); apply bpow_le; exact He).
  assert (V : forall n, (1 <= n <= 8)%Z -> valid_number (f64_lit n 0)).
  { intros n Hn. destruct (small_int n ltac:(lia)) as [A B]. split; [exact A|]. right. rewrite B.
    apply Rle_trans with 1; [apply P; lia|]. rewrite Rabs_pos_eq; [apply IZR_le; lia|apply IZR_le; lia]. }
  unfold root_domain, log_domain, first_clear. rewrite N, M.
  change (biv_0 (spinBiv s)) with (f64_lit 4 0 : f64). change (biv_0 p) with (f64_lit 0 0 : f64). change (sca_0 (spinSca s)) with (f64_lit 3 0 : f64).
  rewrite B4, B0, (Rabs_pos_eq 4) by lra.
  assert (P480 : 8 <= bpow radix2 480) by (change 8 with (bpow radix2 3); apply bpow_le; lia).
  split; [split; [|split; [split|split]]|split; [|split; [|split; [split|]]]].
  - unfold all_finite. cbn [elems]. repeat constructor; assumption.
  - pose proof (P (-51)%Z ltac:(lia)). lra.
  - lra.
  - apply V. lia.
  - apply V. lia.
  - right. pose proof (P (-900)%Z ltac:(lia)). pose proof (bpow_ge_0 radix2 (-900)).
    assert (bpow radix2 (-900) <= / 2) by (change (/ 2) with (bpow radix2 (-1)); apply bpow_le; lia). lra.
  - unfold all_finite. cbn [elems]. repeat constructor; assumption.
  - apply P. lia.
  - lra.
  - left. reflexivity.
Qed.

Lemma example_small_angle : let s := mkSpin (Sca (f64_lit 1 0)) (Biv (f64_lit 1 (-40)) (f64_lit 0 0) (f64_lit 0 0)) in
  log_domain s /\ 0 < b2r (sca_0 (spinSca s)) /\ 0 < cnorm (exactly TBiv (spinBiv s)) <= bpow radix2 (-31) * cnorm (exactly TSpin s).
Proof.
  intros s. pose proof (small_int 0%Z ltac:(lia)) as [F0 B0]. pose proof (small_int 1%Z ltac:(lia)) as [F1 B1].
  destruct (lit_exact 1 (-40)) as [F4 B4].
  { rewrite F2R_bpow. apply fmt_bpow; lia. }
  { rewrite F2R_bpow, Rabs_pos_eq by apply bpow_ge_0. apply bpow_lt; lia. }
  rewrite ?F2R_bpow in B4. set (z := bpow radix2 (-40)) in B4. assert (Z : z = bpow radix2 (-40)) by reflexivity. clearbody z.
  assert (P : forall e, (e <= 0)%Z -> bpow radix2 e <= 1) by (intros e He; change 1 with (bpow radix2 0); apply bpow_le; exact He).
  assert (NB : cnorm (exactly TBiv (spinBiv s)) = bpow radix2 (-40)).
  { unfold cnorm. rewrite <- Z. replace (cnorm2 (exactly TBiv (spinBiv s))) with (z * z); [apply sqrt_square; rewrite Z; apply bpow_ge_0|].
    unfold exactly, s. cbv -[b2r f64_lit Rplus Rmult R0 IZR Ropp bpow]. rewrite B4, B0. ring. }
  assert (LN : 1 <= cnorm (exactly TSpin s)).
  { eapply Rle_trans; [|apply (comp_le_norm _ bS)]. change (exactly TSpin s bS) with (b2r (f64_lit 1 0)). rewrite B1, Rabs_pos_eq; lra. }
  assert (UN : cnorm (exactly TSpin s) <= 2).
  { rewrite <- (sqrt_square 2) by lra. unfold cnorm. apply sqrt_le_1_alt. rewrite spin_norm2, <- cnorm_sq, NB.
    change (sca_0 (spinSca s)) with (f64_lit 1 0 : f64). rewrite B1. pose proof (P (-40)%Z ltac:(lia)). pose proof (bpow_ge_0 radix2 (-40)). nra. }
  rewrite NB. change (sca_0 (spinSca s)) with (f64_lit 1 0 : f64). rewrite B1.
  split; [|split; [lra|split; [apply bpow_gt_0|]]].
  - split; [unfold all_finite; cbn [elems]; repeat constructor; assumption|split; [split|split]].
    + pose proof (P (-51)%Z ltac:(lia)). lra.
    + apply Rle_trans with (bpow radix2 1); [change (bpow radix2 1) with 2; exact UN|apply bpow_le; lia].
    + split; [exact F1|]. right. change (sca_0 (spinSca s)) with (f64_lit 1 0 : f64). rewrite B1, Rabs_pos_eq by lra. apply P; lia.
    + split; [exact F4|]. right. change (biv_0 (spinBiv s)) with (f64_lit 1 (-40) : f64). rewrite B4, Z, Rmult_1_l, Rabs_pos_eq by apply bpow_ge_0. apply bpow_le; lia.
  - apply Rle_trans with (bpow radix2 (-31) * 1); [rewrite Rmult_1_r; apply bpow_le; lia|]. apply Rmult_le_compat_l; [apply bpow_ge_0|exact LN].
Qed.

Lemma trig_weaken : forall a b (L : Libm f64), a <= b -> trig_within a L -> trig_within b L.
Proof. intros a b L H [C S]. split; intros x Fx; [destruct (C x Fx)|destruct (S x Fx)]; split; auto; lra. Qed.
Lemma exp_weaken : forall a b (L : Libm f64), a <= b -> exp_within a L -> exp_within b L.
Proof.
  intros a b L H X x Fx Hx. destruct (X x Fx Hx) as [A B]. split; [exact A|]. eapply Rle_trans; [exact B|].
  apply Rmult_le_compat_r; [left; apply exp_pos|exact H].
Qed.
Lemma library_all : trig_within (bpow radix2 (-50)) rounded_lib /\ exp_within (bpow radix2 (-50)) rounded_lib /\
  log_within (bpow radix2 (-50)) rounded_lib /\ atan2_within (bpow radix2 (-50)) rounded_lib.
Proof.
  destruct library_within as [A B]. assert (H : bpow radix2 (-52) <= bpow radix2 (-50)) by (apply bpow_le; lia).
  split; [exact (trig_weaken _ _ _ H A)|split; [exact (exp_weaken _ _ _ H B)|exact library_log]].
Qed.
