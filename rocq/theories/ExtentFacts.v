(** * Lengths against components: proofs. *)

Require Import Reals ZArith List Bool Lra Lia.
From Flocq Require Import Core BinarySingleNaN Relative.
Require Import Verif.Num Verif.Types Verif.Priv Verif.OpsUni Verif.OpsAdd Verif.OpsSub
  Verif.OpsMul Verif.Const Verif.Validity Verif.Func Verif.SpecCl Verif.AlgTac Verif.SpecFunc
  Verif.Rel Verif.B64 Verif.B64Facts
  Verif.SpecRound Verif.ArrErr Verif.IntFacts Verif.ErrFacts Verif.SpecAcc Verif.BoundFacts Verif.AccFacts Verif.AccThm Verif.SpecExtent.
Import ListNotations.
Local Open Scope R_scope.

(** ** The root of a rounded square *)
Section Root.
Context (x : R) (Fx : generic_format radix2 fexp64 x) (Hx : bpow radix2 (-510) <= x).
Let e := (mag_val radix2 x (mag radix2 x) - 1)%Z.
Let w := bpow radix2 e.
Lemma root_scale : (-510 <= e)%Z /\ w <= x < 2 * w.
Proof.
  assert (P : 0 < x) by (eapply Rlt_le_trans; [apply bpow_gt_0|exact Hx]).
  unfold e, w, e. clear e w. destruct (mag radix2 x) as [m M]. cbn [mag_val]. specialize (M ltac:(lra)). rewrite Rabs_pos_eq in M by lra.
  split; [|split; [apply M|]].
  - assert (bpow radix2 (-510) < bpow radix2 m) by lra. apply lt_bpow in H. lia.
  - destruct M as [_ M]. replace m with (m - 1 + 1)%Z in M by lia. rewrite bpow_plus in M. change (bpow radix2 1) with 2 in M. lra.
Qed.
Lemma root_ulp : ulp radix2 fexp64 x = 2 * u53 * w.
Proof.
  assert (P : 0 < x) by (eapply Rlt_le_trans; [apply bpow_gt_0|exact Hx]).
  destruct root_scale as [E _]. rewrite ulp_neq_0 by lra. unfold cexp, w, u53. change 2 with (bpow radix2 1).
  rewrite <- !bpow_plus. f_equal. unfold SpecFloat.fexp, SpecFloat.emin. unfold e in *. lia.
Qed.
Lemma root_error : Rabs (rnd64 (x * x) - x * x) <= 2 * u53 * (w * w).
Proof.
  assert (P : 0 < x) by (eapply Rlt_le_trans; [apply bpow_gt_0|exact Hx]).
  destruct root_scale as [E [W1 W2]]. pose proof (bpow_gt_0 radix2 e) as PW. fold w in PW.
  assert (PX : 0 < x * x) by (apply Rmult_lt_0_compat; exact P).
  eapply Rle_trans; [apply error_le_half_ulp; apply fexp_correct; reflexivity|].
  rewrite ulp_neq_0 by lra. unfold cexp.
  assert (M : (mag radix2 (x * x) <= 2 * e + 2)%Z).
  { apply mag_le_bpow; [lra|]. rewrite Rabs_pos_eq by lra. replace (2 * e + 2)%Z with ((e + 1) + (e + 1))%Z by lia.
    rewrite bpow_plus. assert (bpow radix2 (e + 1) = 2 * w) by (rewrite bpow_plus; change (bpow radix2 1) with 2; unfold w; ring). rewrite H. nra. }
  apply Rle_trans with (/ 2 * bpow radix2 (2 * e + 2 - 53)).
  - apply Rmult_le_compat_l; [lra|]. apply bpow_le. unfold SpecFloat.fexp, SpecFloat.emin. lia.
  - right. replace (2 * e + 2 - 53)%Z with (e + e + (2 + -53))%Z by lia. rewrite !bpow_plus. fold w. change (bpow radix2 2) with 4. unfold u53. field.
Qed.
Lemma root_exact : rnd64 (sqrt (rnd64 (x * x))) = x.
Proof.
  assert (P : 0 < x) by (eapply Rlt_le_trans; [apply bpow_gt_0|exact Hx]).
  destruct root_scale as [E [W1 W2]]. pose proof (bpow_gt_0 radix2 e) as PW. fold w in PW. pose proof root_ulp as U. pose proof root_error as RE.
  pose proof u53_pos as PU. assert (US : u53 <= / 1000) by (rewrite u53_val; lra).
  destruct (Req_dec x w) as [h|h].
  - assert (S : x * x = bpow radix2 (2 * e)) by (rewrite h; unfold w; rewrite <- bpow_plus; f_equal; lia).
    assert (G : rnd64 (x * x) = x * x).
    { apply round_generic; [apply valid_rnd_N|]. rewrite S. apply generic_format_bpow. unfold SpecFloat.fexp, SpecFloat.emin. lia. }
    rewrite G, sqrt_square by lra. apply round_generic; [apply valid_rnd_N|exact Fx].
  - set (r := rnd64 (x * x)) in *.
    assert (UW : 0 < u53 * w) by (apply Rmult_lt_0_compat; lra).
    assert (UWs : u53 * w <= / 1000 * w) by (apply Rmult_le_compat_r; lra).
    assert (X1 : w + 2 * u53 * w <= x).
    { assert (Gw : generic_format radix2 fexp64 w) by (apply generic_format_bpow; unfold SpecFloat.fexp, SpecFloat.emin; lia).
      assert (V : Valid_exp fexp64) by (apply fexp_correct; reflexivity).
      pose proof (succ_le_lt radix2 fexp64 w x Gw Fx ltac:(lra)) as SL.
      rewrite succ_eq_pos in SL by lra. unfold w in SL at 2. rewrite ulp_bpow in SL.
      replace (2 * u53 * w) with (bpow radix2 (fexp64 (e + 1))); [exact SL|].
      unfold w, u53. change 2 with (bpow radix2 1). rewrite <- !bpow_plus. f_equal. unfold SpecFloat.fexp, SpecFloat.emin. lia. }
    apply Rabs_le_inv in RE.
    apply Rle_antisym.
    + apply round_N_le_midp; [apply fexp_correct; reflexivity|exact Fx|]. rewrite succ_eq_pos, U by lra.
      replace ((x + (x + 2 * u53 * w)) / 2) with (x + u53 * w) by field.
      rewrite <- (sqrt_square (x + u53 * w)) by lra.
      assert (r < (x + u53 * w) * (x + u53 * w)) by nra.
      destruct (Rle_or_lt 0 r) as [h0|h0]; [apply sqrt_lt_1; nra|]. rewrite sqrt_neg by lra. apply sqrt_lt_R0. nra.
    + apply round_N_ge_midp; [apply fexp_correct; reflexivity|exact Fx|].
      assert (PR : pred radix2 fexp64 x = x - ulp radix2 fexp64 x).
      { rewrite pred_eq_pos by lra. unfold pred_pos. rewrite Req_bool_false; [reflexivity|]. fold e w. exact h. }
      rewrite PR, U. replace ((x + (x - 2 * u53 * w)) / 2) with (x - u53 * w) by field.
      rewrite <- (sqrt_square (x - u53 * w)) by lra.
      assert ((x - u53 * w) * (x - u53 * w) < r) by nra. apply sqrt_lt_1; nra.
Qed.
End Root.

(** ** Sums of squares *)
Lemma plus_parts : forall a b : f64, summand a -> summand b -> fin (Bplus mode_NE a b) = true ->
  fin a = true /\ fin b = true /\ b2r (Bplus mode_NE a b) = rnd64 (b2r a + b2r b).
Proof.
  intros a b [Na Ea] [Nb Eb] F. apply notneg_sign in Na, Nb.
  assert (P : fin a = true /\ fin b = true).
  { destruct a as [s|s| |s m e h], b as [s'|s'| |s' m' e' h']; try discriminate; subst; try discriminate F; split; reflexivity. }
  destruct P as [Fa Fb]. split; [exact Fa|split; [exact Fb|]].
  pose proof (Bplus_correct 53 1024 _ _ mode_NE a b Fa Fb) as C. destruct (Rlt_bool _ _).
  - apply C.
  - destruct C as [C _]. destruct (Bplus mode_NE a b); cbn in C; try discriminate F; unfold binary_overflow in C; cbn in C; discriminate C.
Qed.
Lemma plus_ge : forall a b : f64, 0 <= b2r b -> b2r a <= rnd64 (b2r a + b2r b).
Proof. intros a b H. rewrite <- (rnd_id a) at 1. apply rnd_mono. lra. Qed.
Lemma times_parts : forall x : f64, fin x = true -> fin (Bmult mode_NE x x) = true -> b2r (Bmult mode_NE x x) = rnd64 (b2r x * b2r x).
Proof.
  intros x Fx F. pose proof (Bmult_correct 53 1024 _ _ mode_NE x x) as C. destruct (Rlt_bool _ _); [apply C|].
  destruct (Bmult mode_NE x x); cbn in C; try discriminate F; unfold binary_overflow in C; cbn in C; discriminate C.
Qed.

Definition low (v : R) (w : f64) : Prop := summand w /\ (fin w = true -> v <= b2r w).
Lemma low_l : forall v a b, low v a -> summand b -> low v (Bplus mode_NE a b).
Proof.
  intros v a b [Sa H] Sb. split; [apply summand_plus; assumption|]. intros F. destruct (plus_parts a b Sa Sb F) as (Fa & Fb & E). rewrite E.
  eapply Rle_trans; [apply H, Fa|]. apply plus_ge, notneg_pos, Sb.
Qed.
Lemma low_r : forall v a b, summand a -> low v b -> low v (Bplus mode_NE a b).
Proof.
  intros v a b Sa [Sb H]. split; [apply summand_plus; assumption|]. intros F. destruct (plus_parts a b Sa Sb F) as (Fa & Fb & E). rewrite E.
  eapply Rle_trans; [apply H, Fb|]. rewrite Rplus_comm. apply plus_ge, notneg_pos, Sa.
Qed.
Lemma low_self : forall x : f64, fin x = true -> low (rnd64 (b2r x * b2r x)) (Bmult mode_NE x x).
Proof. intros x F. split; [apply summand_square, F|]. intros G. rewrite (times_parts x F G). apply Rle_refl. Qed.

Definition mono (a b : f64) : Prop := summand a /\ summand b /\ (fin b = true -> fin a = true /\ b2r a <= b2r b).
Lemma mono_plus : forall a b c d, mono a c -> mono b d -> mono (Bplus mode_NE a b) (Bplus mode_NE c d).
Proof.
  intros a b c d (Sa & Sc & H) (Sb & Sd & K). split; [apply summand_plus; assumption|]. split; [apply summand_plus; assumption|].
  intros F. destruct (plus_parts c d Sc Sd F) as (Fc & Fd & E). destruct (H Fc) as [Fa La]. destruct (K Fd) as [Fb Lb].
  assert (LE : rnd64 (b2r a + b2r b) <= rnd64 (b2r c + b2r d)) by (apply rnd_mono; lra).
  assert (P : 0 <= rnd64 (b2r a + b2r b)) by (apply rnd_pos, Rplus_le_le_0_compat; apply notneg_pos; [apply Sa|apply Sb]).
  destruct (bplus_ok a b Fa Fb) as [G R]; [|split; [exact G|rewrite R, E; exact LE]].
  rewrite Rabs_pos_eq by exact P. eapply Rle_lt_trans; [exact LE|]. rewrite <- E. eapply Rle_lt_trans; [apply Rle_abs|]. apply abs_B2R_lt_emax.
Qed.
Lemma mono_zero : mono (B754_zero false) (B754_zero false).
Proof. split; [exact summand_zero|]. split; [exact summand_zero|]. intros _. split; [reflexivity|apply Rle_refl]. Qed.
Lemma mono_square : forall x y : f64, fin x = true -> fin y = true -> Rabs (b2r x) <= Rabs (b2r y) -> mono (Bmult mode_NE x x) (Bmult mode_NE y y).
Proof.
  intros x y Fx Fy H. split; [apply summand_square, Fx|]. split; [apply summand_square, Fy|]. intros G.
  pose proof (times_parts y Fy G) as E.
  assert (SQ : b2r x * b2r x <= b2r y * b2r y) by (apply Rsqr_le_abs_1, H).
  assert (LE : rnd64 (b2r x * b2r x) <= rnd64 (b2r y * b2r y)) by (apply rnd_mono, SQ).
  assert (P : 0 <= rnd64 (b2r x * b2r x)) by (apply rnd_pos; apply Rle_0_sqr).
  destruct (bmult_ok x x Fx Fx) as [K R]; [|split; [exact K|rewrite R, E; exact LE]].
  rewrite Rabs_pos_eq by exact P. eapply Rle_lt_trans; [exact LE|]. rewrite <- E. eapply Rle_lt_trans; [apply Rle_abs|]. apply abs_B2R_lt_emax.
Qed.

Definition sqlow (w : f64) : Prop := summand (Bmult mode_NE w w) /\ low (rnd64 (b2r w * b2r w)) (Bmult mode_NE w w).
Definition least (v : f64) : f64 -> Prop := low (rnd64 (b2r v * b2r v)).
Definition sqmono (v w : f64) : Prop := mono (Bmult mode_NE v v) (Bmult mode_NE w w).
Ltac lows := first [assumption | apply low_l; [lows|summands] | apply low_r; [summands|lows]].
Lemma magSq_low : forall t (x : val f64 t) (v : f64), all_finite t x -> In v (elems t x) -> least v (magSq t x).
Proof.
  intros t x v F HI.
  assert (K : Forall sqlow (elems t x)).
  { unfold all_finite in F. eapply Forall_impl; [|exact F]. intros w Hw. split; [apply summand_square, Hw|apply low_self, Hw]. }
  clear F. destruct t; dvs; cbv -[sqlow f64] in K, HI;
    cbv -[Bplus Bmult nzero nadd nmul Ring0_B f64 least]; cbn [nadd nmul nzero Ring0_B];
    repeat match goal with H : Forall _ (_ :: _) |- _ => inversion H; clear H; subst end;
    repeat match goal with H : sqlow _ |- _ => destruct H end; unfold least in *;
    repeat match goal with H : _ \/ _ |- _ => destruct H | H : False |- _ => destruct H end; subst;
    lows.
Qed.
Lemma magSq_mono : forall t (x y : val f64 t), all_finite t x -> all_finite t y -> dominated t x y -> mono (magSq t x) (magSq t y).
Proof.
  intros t x y F G D.
  assert (K : Forall2 sqmono (elems t x) (elems t y)).
  { unfold all_finite, dominated in *. revert F G D. generalize (elems t x) (elems t y). intros l m F G D.
    induction D; [constructor|]. inversion F; inversion G; subst. constructor; [apply mono_square; assumption|]. apply IHD; assumption. }
  clear F G D. destruct t; dvs; cbv -[sqmono f64] in K;
    cbv -[Bplus Bmult nzero nadd nmul Ring0_B f64 mono]; cbn [nadd nmul nzero Ring0_B];
    repeat match goal with H : Forall2 _ (_ :: _) _ |- _ => inversion H; clear H; subst end;
    unfold sqmono in *; repeat first [assumption | exact mono_zero | apply mono_plus].
Qed.

(** ** Lengths *)
Lemma magSq_summand : forall t (x : val f64 t), all_finite t x -> summand (magSq t x).
Proof.
  intros t x F. assert (G : exists v, In v (elems t x)).
  { destruct t; dvs; cbv -[f64]; eexists; left; reflexivity. }
  destruct G as [v G]. exact (proj1 (magSq_low t x v F G)).
Qed.
Lemma magnitude_parts : forall t (x : val f64 t), all_finite t x -> fin (magnitude t x) = true ->
  fin (magSq t x) = true /\ b2r (magnitude t x) = rnd64 (sqrt (b2r (magSq t x))).
Proof.
  intros t x F G. destruct (magSq_summand t x F) as [N V].
  assert (Q : fin (magSq t x) = true).
  { change (magnitude t x) with (Bsqrt mode_NE (magSq t x)) in G. destruct (magSq t x) as [s|s| |s m e h]; try reflexivity; try discriminate.
    apply notneg_sign in N. subst. discriminate G. }
  split; [exact Q|]. exact (proj2 (bsqrt_ok (magSq t x) Q N)).
Qed.
Lemma magnitude_mono : forall t (x y : val f64 t), all_finite t x -> all_finite t y -> dominated t x y ->
  fin (magnitude t y) = true -> fin (magnitude t x) = true /\ b2r (magnitude t x) <= b2r (magnitude t y).
Proof.
  intros t x y F G D H. destruct (magnitude_parts t y G H) as [Q E]. destruct (magSq_mono t x y F G D) as (Sx & _ & K).
  destruct (K Q) as [Qx L]. destruct (bsqrt_ok (magSq t x) Qx (proj1 Sx)) as [A C].
  change (magnitude t x) with (Bsqrt mode_NE (magSq t x)). split; [exact A|]. rewrite C, E. apply rnd_mono, sqrt_le_1_alt, L.
Qed.
Lemma rnd_abs_id : forall v : f64, generic_format radix2 fexp64 (Rabs (b2r v)).
Proof. intros v. apply generic_format_abs, generic_format_B2R. Qed.
Lemma magnitude_over : forall t (x : val f64 t) v, all_finite t x -> fin (magnitude t x) = true ->
  In v (elems t x) -> bpow radix2 (-510) <= Rabs (b2r v) -> Rabs (b2r v) <= b2r (magnitude t x).
Proof.
  intros t x v F G HI H. destruct (magnitude_parts t x F G) as [Q E]. rewrite E.
  rewrite <- (root_exact (Rabs (b2r v)) (rnd_abs_id v) H). apply rnd_mono, sqrt_le_1_alt.
  rewrite <- Rabs_mult, Rabs_pos_eq by apply Rle_0_sqr. apply (magSq_low t x v F HI), Q.
Qed.
Lemma magnitude_covers : forall t (x : val f64 t), all_finite t x -> reaches (-510) t x -> fin (magnitude t x) = true ->
  bpow radix2 (-510) <= b2r (magnitude t x) /\ Forall (fun v : f64 => Rabs (B2R v) <= b2r (magnitude t x)) (elems t x).
Proof.
  intros t x F E G. unfold reaches in E. apply Exists_exists in E. destruct E as (w & Hw & Lw).
  pose proof (magnitude_over t x w F G Hw Lw) as M. split; [eapply Rle_trans; eassumption|].
  apply Forall_forall. intros v Hv. destruct (Rle_or_lt (bpow radix2 (-510)) (Rabs (b2r v))) as [h|h].
  - apply magnitude_over; assumption.
  - eapply Rle_trans; [apply Rlt_le, h|]. eapply Rle_trans; eassumption.
Qed.

(** ** Directions *)
Lemma rnd_midway : rnd64 (1 + u53) = 1.
Proof.
  destruct one_ok as [F1 E1].
  destruct (lit_exact 1 (-53)) as [F2 E2].
  { unfold F2R; cbn [Fnum Fexp]. rewrite Rmult_1_l. apply fmt_bpow; lia. }
  { unfold F2R; cbn [Fnum Fexp]. rewrite Rmult_1_l, Rabs_pos_eq by apply bpow_ge_0. apply bpow_lt; lia. }
  rewrite Rmult_1_l in E2. fold u53 in E2.
  destruct (bplus_ok (none_ : f64) (f64_lit 1 (-53)) F1 F2) as [_ G].
  - rewrite E1, E2. pose proof u53_pos. apply rnd_1023. split; [lra|]. rewrite u53_val. apply Rle_trans with (bpow radix2 1); [change (bpow radix2 1) with 2; lra|apply bpow_le; lia].
  - rewrite E1, E2 in G. rewrite <- G, <- E1. f_equal. apply B2SF_inj. vm_compute. reflexivity.
Qed.
Lemma rnd_relative : forall x, bpow radix2 (-1022) <= x -> rnd64 x <= (1 + u53) * x.
Proof.
  intros x H. assert (P : 0 < x) by (eapply Rlt_le_trans; [apply bpow_gt_0|exact H]).
  pose proof (relative_error_N_FLT radix2 (-1074) 53 ltac:(reflexivity) (fun x => negb (Z.even x)) x) as E.
  rewrite Rabs_pos_eq in E by lra. change (FLT_exp (-1074) 53) with fexp64 in E.
  assert (U : / 2 * bpow radix2 (- (53) + 1) = u53) by (rewrite u53_val; cbn; lra). rewrite U in E.
  specialize (E H). apply Rabs_le_inv in E. lra.
Qed.
Lemma magnitude_below : forall t (x : val f64 t), all_finite t x -> fin (magnitude t x) = true -> b2r (magnitude t x) <= bpow radix2 512.
Proof.
  intros t x F G. destruct (magnitude_parts t x F G) as [Q E]. rewrite E.
  assert (X : rnd64 (bpow radix2 512) = bpow radix2 512) by (apply round_generic; [apply valid_rnd_N|apply fmt_bpow; lia]).
  rewrite <- X. apply rnd_mono. rewrite <- (sqrt_square (bpow radix2 512)) by apply bpow_ge_0. apply sqrt_le_1_alt.
  rewrite <- bpow_plus. eapply Rle_trans; [apply Rle_abs|]. apply Rlt_le, abs_B2R_lt_emax.
Qed.
Lemma part_box : forall i v : f64, fin i = true -> fin v = true -> Rabs (b2r i * b2r v) <= 1 + u53 ->
  fin (Bmult mode_NE i v) = true /\ -1 <= b2r (Bmult mode_NE i v) <= 1.
Proof.
  intros i v Fi Fv H.
  assert (Q : Rabs (rnd64 (b2r i * b2r v)) <= 1).
  { apply Rabs_le_inv in H. apply Rabs_le. rewrite <- rnd_midway, <- rnd_opp. split; apply rnd_mono; lra. }
  destruct (bmult_ok i v Fi Fv) as [A C].
  - eapply Rle_lt_trans; [exact Q|]. change 1 with (bpow radix2 0). apply bpow_lt; lia.
  - split; [exact A|]. rewrite C. apply Rabs_le_inv in Q. exact Q.
Qed.
Lemma direction_box : forall t (x : val f64 t), all_finite t x -> reaches (-510) t x -> in_box t (direction t x).
Proof.
  intros t x F E. unfold direction, pairMagDirFrom, in_box. cbn [snd].
  change (nltb lim_denorm_min (magnitude t x)) with (Bltb (f64_lit 1 (-1074)) (magnitude t x)).
  change (ndiv 1%num (magnitude t x)) with (Bdiv mode_NE (none_ : f64) (magnitude t x)).
  destruct (fin (magnitude t x)) eqn:G.
  - destruct (magnitude_covers t x F E G) as [M C]. pose proof (magnitude_below t x F G) as T.
    rewrite tiny_lt; [|exact G|eapply Rlt_le_trans; [|exact M]; apply bpow_lt; lia].
    set (m := magnitude t x) in *. pose proof (bpow_gt_0 radix2 (-510)) as P0.
    assert (I1 : bpow radix2 (-512) <= / b2r m) by (change (-512)%Z with (- (512))%Z; rewrite bpow_opp; apply Rinv_le; lra).
    assert (I2 : / b2r m <= bpow radix2 510) by (change 510%Z with (- (-510))%Z; rewrite bpow_opp; apply Rinv_le; lra).
    destruct one_ok as [F1 E1]. pose proof u53_pos as PU. pose proof (bpow_gt_0 radix2 (-512)) as P1.
    assert (RI : rnd64 (/ b2r m) <= (1 + u53) * / b2r m).
    { apply rnd_relative. eapply Rle_trans; [|exact I1]. apply bpow_le; lia. }
    assert (RP : 0 <= rnd64 (/ b2r m)) by (apply rnd_pos; lra).
    destruct (bdiv_ok (none_ : f64) m F1) as [Fi Ei]; [lra| |].
    { rewrite E1. unfold Rdiv. rewrite Rmult_1_l. apply rnd_1023. split; [lra|]. eapply Rle_trans; [exact I2|]. apply bpow_le; lia. }
    rewrite E1 in Ei. unfold Rdiv in Ei. rewrite Rmult_1_l in Ei.
    rewrite elems_scale. apply Forall_forall. intros w Hw. apply in_map_iff in Hw. destruct Hw as (v & <- & Hv).
    unfold all_finite in F. rewrite Forall_forall in F, C. specialize (F v Hv). specialize (C v Hv). cbn beta in C.
    apply part_box; [exact Fi|exact F|]. rewrite Ei, Rabs_mult, (Rabs_pos_eq (rnd64 _)) by exact RP.
    apply Rle_trans with ((1 + u53) * / b2r m * b2r m); [|right; field; lra].
    apply Rmult_le_compat; [exact RP|apply Rabs_pos|exact RI|exact C].
  - assert (Q : magnitude t x = inf).
    { destruct (magSq_summand t x F) as [N V]. change (magnitude t x) with (Bsqrt mode_NE (magSq t x)) in G |- *.
      pose proof (bsqrt_ok (magSq t x)) as K. destruct (magSq t x) as [s|s| |s m e h].
      - destruct (K eq_refl N) as [K' _]. congruence.
      - apply notneg_sign in N. subst. reflexivity.
      - discriminate V.
      - destruct (K eq_refl N) as [K' _]. congruence. }
    rewrite Q, div_inf. change (Bltb (f64_lit 1 (-1074)) inf) with true. cbv iota.
    rewrite elems_scale. apply Forall_forall. intros w Hw. apply in_map_iff in Hw. destruct Hw as (v & <- & Hv).
    unfold all_finite in F. rewrite Forall_forall in F. destruct (zero_times v (F v Hv)) as [A C]. split; [exact A|]. rewrite C. lra.
Qed.

(** ** Elements along one blade *)
Definition none (w : f64) : Prop := summand w /\ fin w = true /\ b2r w = 0.
Definition just (r : R) (w : f64) : Prop := summand w /\ fin w = true /\ b2r w = r.
Lemma none_sq : forall w : f64, fin w = true -> b2r w = 0 -> none (Bmult mode_NE w w).
Proof.
  intros w F E. split; [apply summand_square, F|].
  assert (Q : rnd64 (b2r w * b2r w) = 0) by (rewrite E, Rmult_0_l; apply round_0, valid_rnd_N).
  rewrite <- Q. apply bmult_ok; [exact F|exact F|]. rewrite Q, Rabs_R0. apply bpow_gt_0.
Qed.
Lemma just_l : forall r a b, just r a -> none b -> just r (Bplus mode_NE a b).
Proof.
  intros r a b (Sa & Fa & Ea) (Sb & Fb & Eb). split; [apply summand_plus; assumption|].
  assert (Q : rnd64 (b2r a + b2r b) = b2r a) by (rewrite Eb, Rplus_0_r; apply rnd_id).
  destruct (bplus_ok a b Fa Fb) as [A C]; [rewrite Q; apply abs_B2R_lt_emax|]. split; [exact A|]. rewrite C, Q. exact Ea.
Qed.
Lemma just_r : forall r a b, none a -> just r b -> just r (Bplus mode_NE a b).
Proof. intros r a b H K. rewrite bplus_comm. apply just_l; assumption. Qed.
Lemma none_plus : forall a b, none a -> none b -> none (Bplus mode_NE a b).
Proof. intros a b H K. exact (just_l 0 a b H K). Qed.
Lemma none_zero : none (B754_zero false).
Proof. split; [exact summand_zero|split; reflexivity]. Qed.
Definition sqnone (w : f64) : Prop := none (Bmult mode_NE w w).
Definition sqjust (r : R) (w : f64) : Prop := just r (Bmult mode_NE w w).
Ltac nones := first [exact none_zero | assumption | apply none_plus; nones].
Ltac justs := first [assumption | apply just_l; [justs|nones] | apply just_r; [nones|justs]].
Lemma magSq_axis : forall t (x : val f64 t) i v r, on_axis t x i v -> sqjust r v -> just r (magSq t x).
Proof.
  intros t x i v r [A Z] J.
  assert (K : forall j w, j <> i -> nth_error (elems t x) j = Some w -> sqnone w).
  { intros j w Hj Hw. destruct (Z j w Hj Hw) as [F E]. apply none_sq; assumption. }
  clear Z. destruct t; dvs; cbv -[f64 nth_error sqnone sqjust] in A, K, J;
    destruct i as [|[|[|[|[|[|[|[|i]]]]]]]];
    cbv -[Bplus Bmult nzero nadd nmul Ring0_B f64 just]; cbn [nadd nmul nzero Ring0_B];
    cbn [nth_error] in A; try discriminate A; try (destruct i; discriminate A); inversion A; subst; clear A;
    repeat match goal with K : context [nth_error _ _ = Some _ -> sqnone _] |- _ =>
      try pose proof (K 0%nat _ ltac:(discriminate) eq_refl); try pose proof (K 1%nat _ ltac:(discriminate) eq_refl);
      try pose proof (K 2%nat _ ltac:(discriminate) eq_refl); try pose proof (K 3%nat _ ltac:(discriminate) eq_refl);
      try pose proof (K 4%nat _ ltac:(discriminate) eq_refl); try pose proof (K 5%nat _ ltac:(discriminate) eq_refl);
      try pose proof (K 6%nat _ ltac:(discriminate) eq_refl); try pose proof (K 7%nat _ ltac:(discriminate) eq_refl); clear K end;
    unfold sqnone, sqjust in *; justs.
Qed.
Lemma magnitude_axis : forall t (x : val f64 t) i v, on_axis t x i v -> fin v = true -> bpow radix2 (-510) <= Rabs (b2r v) <= bpow radix2 511 ->
  fin (magnitude t x) = true /\ b2r (magnitude t x) = Rabs (b2r v).
Proof.
  intros t x i v A F [H1 H2].
  assert (J : sqjust (rnd64 (b2r v * b2r v)) v).
  { split; [apply summand_square, F|]. apply bmult_ok; [exact F|exact F|].
    apply rnd_1023. split; [apply Rle_0_sqr|]. rewrite <- (Rabs_pos_eq (b2r v * b2r v)) by apply Rle_0_sqr. rewrite Rabs_mult.
    apply Rle_trans with (bpow radix2 511 * bpow radix2 511); [|rewrite <- bpow_plus; apply bpow_le; lia].
    apply Rmult_le_compat; try apply Rabs_pos; assumption. }
  destruct (magSq_axis t x i v _ A J) as (Sm & Fm & Em). destruct (bsqrt_ok (magSq t x) Fm (proj1 Sm)) as [G E].
  change (magnitude t x) with (Bsqrt mode_NE (magSq t x)). split; [exact G|]. rewrite E, Em.
  rewrite <- (Rabs_pos_eq (b2r v * b2r v)) by apply Rle_0_sqr. rewrite Rabs_mult. apply root_exact; [apply rnd_abs_id|exact H1].
Qed.

(** ** Cases *)
Lemma lit_of : forall m e, (Z.abs m <= 2 ^ 53)%Z -> (-1074 <= e <= 900)%Z -> fin (f64_lit m e) = true /\ b2r (f64_lit m e) = IZR m * bpow radix2 e.
Proof.
  intros m e Hm He.
  assert (P : Rabs (F2R (Float radix2 m e)) <= bpow radix2 (53 + e)).
  { unfold F2R; cbn [Fnum Fexp]. rewrite Rabs_mult, (Rabs_pos_eq (bpow _ e)), bpow_plus by apply bpow_ge_0.
    apply Rmult_le_compat_r; [apply bpow_ge_0|]. rewrite <- abs_IZR. change (bpow radix2 53) with (IZR (2 ^ 53)). apply IZR_le, Hm. }
  apply lit_exact.
  - destruct (Z.eq_dec (Z.abs m) (2 ^ 53)) as [h|h].
    + assert (Q : Rabs (F2R (Float radix2 m e)) = bpow radix2 (53 + e)).
      { unfold F2R; cbn [Fnum Fexp]. rewrite Rabs_mult, (Rabs_pos_eq (bpow _ e)), bpow_plus by apply bpow_ge_0. rewrite <- abs_IZR, h. reflexivity. }
      apply generic_format_abs_inv. rewrite Q. apply fmt_bpow; lia.
    + apply generic_format_FLT. exists (Float radix2 m e); [reflexivity|cbn [Fnum]; change (radix2 ^ 53)%Z with (2 ^ 53)%Z; lia|cbn [Fexp]; change (SpecFloat.emin 53 1024) with (-1074)%Z; lia].
  - eapply Rle_lt_trans; [exact P|]. apply bpow_lt; lia.
Qed.
Lemma lit_fin : forall m e, (Z.abs m <= 2 ^ 53)%Z -> (-1074 <= e <= 900)%Z -> is_finite (f64_lit m e) = true.
Proof. intros. apply lit_of; assumption. Qed.
Definition axis_case : Vector f64 := Vec (f64_lit 49 0) (f64_lit 0 0) (f64_lit 0 0).
Lemma axis_short : exists (x : Vector f64) v, on_axis TVec x 0 v /\ B2R v = 49 /\ B2R (vec_0 (direction TVec x)) < 1.
Proof.
  exists axis_case, (f64_lit 49 0). split; [|split].
  - split; [reflexivity|]. intros [|[|[|j]]] w Hj E; try congruence; cbn in E; try (destruct j; discriminate E); inversion E; split; try reflexivity; apply (lit_of 0 0); lia.
  - destruct (lit_of 49 0 ltac:(lia) ltac:(lia)) as [_ E]. rewrite E. cbn. lra.
  - assert (E : vec_0 (direction TVec axis_case) = f64_lit 9007199254740991 (-53)) by (apply B2SF_inj; vm_compute; reflexivity).
    rewrite E. destruct (lit_of 9007199254740991 (-53) ltac:(lia) ltac:(lia)) as [_ V]. rewrite V. fold u53. rewrite u53_val. lra.
Qed.
Definition cosine_case : Vector f64 := Vec (f64_lit 0 0) (f64_lit 1 0) (f64_lit 5 0).
Lemma cosine_over : exists x : Vector f64, all_finite TVec x /\ reaches 0 TVec x /\
  1 < B2R (sca_0 (spinSca (mul_Vec_Vec (direction TVec x) (direction TVec x)))).
Proof.
  exists cosine_case. split; [repeat constructor; apply lit_fin; lia|]. split.
  - unfold reaches. rewrite Exists_exists. exists (f64_lit 1 0). split; [right; left; reflexivity|]. destruct (lit_of 1 0 ltac:(lia) ltac:(lia)) as [_ V]. rewrite V, Rmult_1_l, Rabs_pos_eq by apply bpow_ge_0. apply Rle_refl.
  - set (w := sca_0 _). assert (E : w = f64_lit 4503599627370497 (-52)) by (apply B2SF_inj; vm_compute; reflexivity).
    rewrite E. destruct (lit_of 4503599627370497 (-52) ltac:(lia) ltac:(lia)) as [_ V]. rewrite V.
    replace (-52)%Z with (-53 + 1)%Z by reflexivity. rewrite bpow_plus. fold u53. rewrite u53_val. change (bpow radix2 1) with 2. lra.
Qed.
Definition small_case : Vector f64 := Vec (f64_lit 19 (-541)) (f64_lit 0 0) (f64_lit 0 0).
Lemma small_over : exists x : Vector f64, all_finite TVec x /\ reaches (-537) TVec x /\
  B2R (magnitude TVec x) < B2R (vec_0 x) /\ 1 < B2R (vec_0 (direction TVec x)).
Proof.
  exists small_case. destruct (lit_of 19 (-541) ltac:(lia) ltac:(lia)) as [F V]. pose proof (bpow_gt_0 radix2 (-541)) as P.
  assert (S : bpow radix2 (-537) = 16 * bpow radix2 (-541)) by (replace (-537)%Z with (4 + -541)%Z by reflexivity; rewrite bpow_plus; reflexivity).
  split; [repeat constructor; apply lit_fin; lia|]. split; [|split].
  - unfold reaches. rewrite Exists_exists. exists (f64_lit 19 (-541)). split; [left; reflexivity|]. rewrite V, S, Rabs_pos_eq by lra. lra.
  - set (w := magnitude _ _). assert (E : w = f64_lit 1 (-537)) by (apply B2SF_inj; vm_compute; reflexivity).
    rewrite E. destruct (lit_of 1 (-537) ltac:(lia) ltac:(lia)) as [_ W]. rewrite W, S. change (vec_0 small_case) with (f64_lit 19 (-541)). rewrite V. lra.
  - set (w := vec_0 _). assert (E : w = f64_lit 19 (-4)) by (apply B2SF_inj; vm_compute; reflexivity).
    rewrite E. destruct (lit_of 19 (-4) ltac:(lia) ltac:(lia)) as [_ W]. rewrite W. change (bpow radix2 (-4)) with (/ 16). lra.
Qed.
Definition extent_case : MultiVector f64 :=
  mkMvec (Sca (f64_lit 3 (-700))) (Vec (f64_lit (-5) 40) (f64_lit 1 (-1074)) (f64_lit 0 0)) (Biv (f64_lit 7 39) (f64_lit 9 0) (f64_lit (-1) 2)) (Tri (f64_lit 11 10)).
Lemma extent_case_ok :
  all_finite TMvec extent_case /\ reaches (-510) TMvec extent_case /\ is_finite (magnitude TMvec extent_case) = true /\
  on_axis TBiv (Biv (f64_lit 0 0) (f64_lit (-7) 300) (f64_lit 0 0)) 1 (f64_lit (-7) 300) /\
  dominated TVec (Vec (f64_lit 1 0) (f64_lit (-2) 0) (f64_lit 2 0)) (Vec (f64_lit (-2) 0) (f64_lit 3 0) (f64_lit 2 0)).
Proof.
  split; [repeat constructor; apply lit_fin; lia|]. split; [|split; [vm_compute; reflexivity|split]].
  - unfold reaches. rewrite Exists_exists. exists (f64_lit 11 10). split; [do 7 right; left; reflexivity|]. destruct (lit_of 11 10 ltac:(lia) ltac:(lia)) as [_ W].
    rewrite W. rewrite Rabs_pos_eq by (pose proof (bpow_gt_0 radix2 10); lra). assert (bpow radix2 (-510) <= bpow radix2 10) by (apply bpow_le; lia).
    pose proof (bpow_gt_0 radix2 10). lra.
  - split; [reflexivity|]. intros [|[|[|j]]] w Hj E; try congruence; cbn in E; try (destruct j; discriminate E); inversion E; split; try reflexivity; destruct (lit_of 0 0 ltac:(lia) ltac:(lia)) as [_ W]; rewrite W; lra.
  - assert (E : forall n, (Z.abs n <= 9)%Z -> Rabs (b2r (f64_lit n 0)) = IZR (Z.abs n)).
    { intros n Hn. destruct (lit_of n 0 ltac:(lia) ltac:(lia)) as [_ W]. rewrite W. change (bpow radix2 0) with 1. rewrite Rmult_1_r. symmetry; apply abs_IZR. }
    change (Forall2 (fun v w : f64 => Rabs (b2r v) <= Rabs (b2r w)) [f64_lit 1 0; f64_lit (-2) 0; f64_lit 2 0] [f64_lit (-2) 0; f64_lit 3 0; f64_lit 2 0]).
    do 3 (apply Forall2_cons; [rewrite !E by lia; apply IZR_le; lia|]). apply Forall2_nil.
Qed.
