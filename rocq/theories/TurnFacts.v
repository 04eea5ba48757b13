(** * Turns by a given angle about a given plane, on doubles. *)

Require Import Reals ZArith List Bool Lra Lia.
From Flocq Require Import Core BinarySingleNaN.
Require Import Verif.Num Verif.Types Verif.Priv Verif.OpsUni Verif.OpsAdd Verif.OpsSub Verif.OpsMul Verif.Const Verif.Validity
  Verif.Func Verif.Compare Verif.SpecCl Verif.AlgTac Verif.SpecFunc Verif.FuncFacts Verif.Rel Verif.B64 Verif.B64Facts Verif.SpecRound Verif.SpecValid
  Verif.ValidFacts Verif.IntFacts Verif.ErrFacts Verif.SpecAcc Verif.BoundFacts Verif.AccFacts Verif.AccThm Verif.NormFacts Verif.SpecCompare Verif.SpecScale Verif.ScaleThm Verif.AcceptFacts Verif.CompareFacts
  Verif.SpecExp Verif.ExpFacts Verif.ExpAcc Verif.LogAcc Verif.RootAcc.
Import ListNotations.
Local Open Scope R_scope.

(** ** A multiple of a direction *)
Section Multiple.
Context (b : BiVector f64) (a : f64).
Context (F : all_finite TBiv b) (H : bpow radix2 (-480) <= cnorm (exactly TBiv b) <= bpow radix2 480).
Context (Fa : fin a = true) (Ha : bpow radix2 (-90) <= Rabs (b2r a) <= bpow radix2 90).

Lemma multiple_close : all_finite TBiv (scale TBiv a (direction TBiv b)) /\
  cnorm (csub (exactly TBiv (scale TBiv a (direction TBiv b))) (cscale (b2r a / cnorm (exactly TBiv b)) (exactly TBiv b))) <= 16 * u53 * Rabs (b2r a).
Proof.
  destruct (direction_accurate TBiv b F H) as [Fd _].
  pose proof (direction_norm TBiv b F H) as Dn. pose proof (direction_unit TBiv b F H) as Du.
  set (d := direction TBiv b) in *. set (X := exactly TBiv b) in *. set (P := cnorm X) in *. set (Y := exactly TBiv d) in *.
  assert (HP : 0 < P) by (eapply Rlt_le_trans; [apply bpow_gt_0|apply H]).
  pose proof u53_pos. pose proof eta_pos. pose proof (bpow_gt_0 radix2 (-90)) as P90.
  set (A := Rabs (b2r a)) in *.
  assert (Ea : eta <= u53 / 1000 * A) by (apply eta_rel; eapply Rle_trans; [apply bpow_le|apply Ha]; lia).
  assert (E1 : eta <= u53 / 1000 * 1) by (apply eta_rel; change 1 with (bpow radix2 0); apply bpow_le; lia).
  assert (Yb : cnorm Y <= 1 + 15 * u53) by (apply Rabs_le_inv in Du; lra).
  pose proof (cnorm_nonneg Y) as Py.
  assert (Y2 : cnorm Y <= 2) by (rewrite u53_val in Yb; lra).
  destruct (scale_error TBiv a d Fa Fd) as [G K].
  { fold Y A. apply Rle_trans with (bpow radix2 90 * bpow radix2 1); [apply Rmult_le_compat; try lra; change (bpow radix2 1) with 2; lra|].
    rewrite <- bpow_plus. apply bpow_le; lia. }
  fold Y A in K. split; [exact G|]. set (Z := exactly TBiv (scale TBiv a d)) in *.
  assert (SP : ceq (csub Z (cscale (b2r a / P) X)) (cadd (csub Z (cscale (b2r a) Y)) (cscale (b2r a) (csub Y (cscale (/ P) X))))).
  { intros k. unfold cadd, csub, cscale. field. lra. }
  rewrite (cnorm_ceq _ _ SP). eapply Rle_trans; [apply cnorm_triangle|].
  eapply Rle_trans; [apply Rplus_le_compat_r; exact K|]. rewrite cnorm_scale. fold A.
  assert (T2 : A * cnorm (csub Y (cscale (/ P) X)) <= A * (14 * u53 + 3 * (u53 / 1000 * 1))).
  { apply Rmult_le_compat_l; [lra|]. lra. }
  assert (T4 : u53 * (A * cnorm Y) <= u53 * (A * (1 + 15 * u53))).
  { apply Rmult_le_compat_l; [lra|]. apply Rmult_le_compat_l; lra. }
  assert (U : 0 < u53 * A) by (apply Rmult_lt_0_compat; lra).
  assert (U2 : 15 * u53 * (u53 * A) <= / 1000 * (u53 * A)) by (apply Rmult_le_compat_r; [lra|]; rewrite u53_val; lra).
  nra.
Qed.
Lemma multiple_domain : b2r (biv_0 b) = 0 \/ bpow radix2 (-900) * cnorm (exactly TBiv b) <= Rabs (b2r (biv_0 b)) ->
  exp_domain (scale TBiv a (direction TBiv b)) /\
  Rabs (cnorm (exactly TBiv (scale TBiv a (direction TBiv b))) - Rabs (b2r a)) <= 16 * u53 * Rabs (b2r a).
Proof.
  intros Hb. destruct multiple_close as [G K]. pose proof u53_pos. pose proof (bpow_gt_0 radix2 (-90)) as P90.
  assert (PP : 0 < cnorm (exactly TBiv b)) by (eapply Rlt_le_trans; [apply bpow_gt_0|apply H]).
  set (x := exactly TBiv (scale TBiv a (direction TBiv b))) in *. set (y := cscale (b2r a / cnorm (exactly TBiv b)) (exactly TBiv b)) in *.
  assert (Ny : cnorm y = Rabs (b2r a)).
  { unfold y. rewrite cnorm_scale. unfold Rdiv. rewrite Rabs_mult, (Rabs_pos_eq (/ _)) by (left; apply Rinv_0_lt_compat; lra). field. lra. }
  set (A := Rabs (b2r a)) in *.
  assert (Nx : Rabs (cnorm x - A) <= 16 * u53 * A).
  { pose proof (norm_le_sub x y) as A1. pose proof (norm_le_sub y x) as A2.
    rewrite (cnorm_ceq (csub y x) (cscale (-1) (csub x y))) in A2 by (intros k; unfold csub, cscale; ring).
    rewrite cnorm_scale, Rabs_left in A2 by lra. apply Rabs_le. lra. }
  split; [|exact Nx]. apply Rabs_le_inv in Nx.
  assert (HA : 16 * u53 * A <= / 2 * A) by (apply Rmult_le_compat_r; [lra|]; rewrite u53_val; lra).
  split; [exact G|]. split.
  - fold x. split.
    + apply Rle_trans with (/ 2 * bpow radix2 (-90)); [|lra]. change (/ 2) with (bpow radix2 (-1)). rewrite <- bpow_plus. apply bpow_le; lia.
    + apply Rle_trans with (2 * bpow radix2 90); [lra|]. change 2 with (bpow radix2 1). rewrite <- bpow_plus. apply bpow_le; lia.
  - destruct (direction_accurate TBiv b F H) as [Fd _]. pose proof (direction_unit TBiv b F H) as Du. apply Rabs_le_inv in Du.
    change (biv_0 (scale TBiv a (direction TBiv b))) with (Bmult mode_NE a (biv_0 (direction TBiv b))).
    assert (D0 : Rabs (b2r (biv_0 (direction TBiv b))) <= 2).
    { rewrite <- biv_comp. eapply Rle_trans; [apply comp_le_norm|]. rewrite u53_val in *. lra. }
    assert (D1 : b2r (biv_0 (direction TBiv b)) = 0 \/ bpow radix2 (-901) <= Rabs (b2r (biv_0 (direction TBiv b)))).
    { apply (dir_first TBiv b bE23 (biv_0 (direction TBiv b)) (-900) ltac:(lia) F H (biv_comp _)). rewrite biv_comp. exact Hb. }
    assert (Fv : fin (biv_0 (direction TBiv b)) = true) by (destruct (direction TBiv b) as [[d1 d2 d3]]; inversion Fd; assumption).
    revert D0 D1 Fv. fold x. generalize (biv_0 (direction TBiv b)). intros v D0 D1 Fv.
    destruct (bmult_ok a v Fa Fv) as [_ Rp].
    { apply (rnd_lt _ 91); [lia|]. rewrite Rabs_mult. replace 91%Z with (90 + 1)%Z by reflexivity. rewrite bpow_plus. change (bpow radix2 1) with 2.
      apply Rmult_le_compat; try apply Rabs_pos; [apply Ha|exact D0]. }
    rewrite Rp. destruct D1 as [D1|D1].
    + left. rewrite D1, Rmult_0_r. apply round_0. apply valid_rnd_N.
    + right. assert (M : A * bpow radix2 (-901) <= Rabs (b2r a * b2r v)) by (rewrite Rabs_mult; apply Rmult_le_compat_l; [apply Rabs_pos|exact D1]).
      assert (M1 : bpow radix2 (-991) <= Rabs (b2r a * b2r v)).
      { eapply Rle_trans; [|exact M]. replace (-991)%Z with (-90 + -901)%Z by reflexivity. rewrite bpow_plus. apply Rmult_le_compat_r; [apply bpow_ge_0|apply Ha]. }
      assert (Q : Rabs (b2r a * b2r v) / 2 <= Rabs (rnd64 (b2r a * b2r v))) by (apply rel_normal_abs; eapply Rle_trans; [apply bpow_le|exact M1]; lia).
      split.
      * eapply Rle_trans; [|exact Q]. apply Rle_trans with (bpow radix2 (-991) * bpow radix2 (-1)); [rewrite <- bpow_plus; apply bpow_le; lia|].
        change (bpow radix2 (-1)) with (/ 2). lra.
      * eapply Rle_trans; [|exact Q]. apply Rle_trans with (bpow radix2 (-1000) * (2 * A)); [apply Rmult_le_compat_l; [apply bpow_ge_0|lra]|].
        apply Rle_trans with (A * bpow radix2 (-901) * / 2); [|unfold Rdiv; apply Rmult_le_compat_r; lra].
        replace (-1000)%Z with (-901 + -99)%Z by reflexivity. rewrite bpow_plus.
        assert (bpow radix2 (-99) <= / 4) by (change (/ 4) with (bpow radix2 (-2)); apply bpow_le; lia).
        pose proof (bpow_gt_0 radix2 (-901)). assert (0 < A * bpow radix2 (-901)) by (apply Rmult_lt_0_compat; lra).
        replace (bpow radix2 (-901) * bpow radix2 (-99) * (2 * A)) with (A * bpow radix2 (-901) * (2 * bpow radix2 (-99))) by ring.
        apply Rmult_le_compat_l; lra.
Qed.
End Multiple.

Lemma neg_exactly : forall b : BiVector f64, ceq (exactly TBiv (neg TBiv b)) (cscale (-1) (exactly TBiv b)).
Proof.
  intros [[x y z]] k. unfold exactly, cscale. dblade k; cbn; rewrite ?B2R_Bopp; ring.
Qed.
(** The exponential of any bivector is a rotation close to the one by the angle
    [a], of either sign. *)
Lemma turn_lip : forall (x b : BiVector f64) a E, let P := cnorm (exactly TBiv b) in 0 < P -> is_cexp (exactly TBiv x) E ->
  cnorm (csub E (cadd (cscale (cos a) cone) (cscale (sin a / P) (exactly TBiv b))))
    <= cnorm (csub (exactly TBiv x) (cscale (a / P) (exactly TBiv b))).
Proof.
  intros x b a E P HP HE. destruct (Rle_lt_dec 0 a) as [h|h]; [apply rotation_lip; auto|].
  pose proof (neg_exactly b) as NB. assert (Pn : cnorm (exactly TBiv (neg TBiv b)) = P).
  { rewrite (cnorm_ceq _ _ NB), cnorm_scale, Rabs_left by lra. fold P. ring. }
  pose proof (rotation_lip x (neg TBiv b) (- a) E) as R. cbv zeta in R. rewrite Pn in R. specialize (R HP ltac:(lra) HE).
  rewrite cos_neg, sin_neg in R.
  rewrite (cnorm_ceq (csub E (cadd (cscale (cos a) cone) (cscale (sin a / P) (exactly TBiv b)))) (csub E (cadd (cscale (cos a) cone) (cscale (- sin a / P) (exactly TBiv (neg TBiv b)))))).
  2:{ intros k. specialize (NB k). unfold csub, cadd, cscale in *. rewrite NB. field. lra. }
  rewrite (cnorm_ceq (csub (exactly TBiv x) (cscale (a / P) (exactly TBiv b))) (csub (exactly TBiv x) (cscale (- a / P) (exactly TBiv (neg TBiv b))))).
  2:{ intros k. specialize (NB k). unfold csub, cadd, cscale in *. rewrite NB. field. lra. }
  exact R.
Qed.

Section Lib.
Context {L : Libm f64}.
Lemma turn_near : forall eps, trig_within eps L -> eps <= / 16 -> forall (b : BiVector f64) (a : f64) t,
  all_finite TBiv b -> bpow radix2 (-480) <= cnorm (exactly TBiv b) <= bpow radix2 480 ->
  b2r (biv_0 b) = 0 \/ bpow radix2 (-900) * cnorm (exactly TBiv b) <= Rabs (b2r (biv_0 b)) ->
  fin a = true -> bpow radix2 (-90) <= Rabs (b2r a) <= bpow radix2 90 ->
  let e := exp_Biv (scale TBiv a (direction TBiv b)) in
  all_finite TSpin e /\
  cnorm (csub (exactly TSpin e) (cadd (cscale (cos t) cone) (cscale (sin t / cnorm (exactly TBiv b)) (exactly TBiv b))))
    <= 2 * eps + unit_roundoff * (16 + 33 * Rabs (b2r a)) + Rabs (b2r a - t).
Proof.
  intros eps T He b a t F H Hb Fa Ha e. destruct (multiple_close b a F H Fa Ha) as [_ K]. destruct (multiple_domain b a F H Fa Ha Hb) as [D Nx].
  assert (PP : 0 < cnorm (exactly TBiv b)) by (eapply Rlt_le_trans; [apply bpow_gt_0|apply H]).
  unfold e. clear e. revert K D Nx. generalize (scale TBiv a (direction TBiv b)). change (mulTy TDub TBiv) with TBiv. intros x K D Nx.
  destruct (cexp_exists (exactly TBiv x)) as [E HE]. destruct (exp_Biv_accurate eps T He x E D HE) as (G & _ & C). split; [exact G|].
  change unit_roundoff with u53 in *. pose proof (turn_lip x b t E PP HE) as R. cbv zeta in R.
  set (P := cnorm (exactly TBiv b)) in *. set (W := cadd (cscale (cos t) cone) (cscale (sin t / P) (exactly TBiv b))) in *. set (A := Rabs (b2r a)) in *.
  pose proof u53_pos. pose proof (Rabs_pos (b2r a)) as PA. fold A in PA.
  assert (R2 : cnorm (csub (exactly TBiv x) (cscale (t / P) (exactly TBiv b))) <= 16 * u53 * A + Rabs (b2r a - t)).
  { rewrite (cnorm_ceq _ (cadd (csub (exactly TBiv x) (cscale (b2r a / P) (exactly TBiv b))) (cscale ((b2r a - t) / P) (exactly TBiv b)))).
    2:{ intros k. unfold csub, cadd, cscale. field. lra. }
    eapply Rle_trans; [apply cnorm_triangle|]. apply Rplus_le_compat; [exact K|]. rewrite cnorm_scale. fold P.
    unfold Rdiv. rewrite Rabs_mult, (Rabs_pos_eq (/ P)) by (left; apply Rinv_0_lt_compat; exact PP). right. field. lra. }
  rewrite (cnorm_ceq _ (cadd (csub (exactly TSpin (exp_Biv x)) E) (csub E W))) by (intros k; unfold csub, cadd; ring).
  eapply Rle_trans; [apply cnorm_triangle|]. apply Rabs_le_inv in Nx.
  assert (X1 : cnorm (exactly TBiv x) <= 33 / 32 * A).
  { assert (16 * u53 * A <= / 32 * A) by (apply Rmult_le_compat_r; [lra|]; rewrite u53_val; lra). lra. }
  assert (X2 : 16 * u53 * (1 + cnorm (exactly TBiv x)) <= 16 * u53 * (1 + 33 / 32 * A)) by (apply Rmult_le_compat_l; lra).
  assert (0 <= u53 * A) by (apply Rmult_le_pos; lra). lra.
Qed.
End Lib.
