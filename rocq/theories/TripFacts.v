(** * Round trips under the library's own comparison: proofs. *)

Require Import Reals ZArith List Bool Lra Lia.
From Flocq Require Import Core BinarySingleNaN.
Require Import Verif.Num Verif.Types Verif.Priv Verif.OpsUni Verif.OpsAdd Verif.OpsSub Verif.OpsMul Verif.Const Verif.Validity
  Verif.Func Verif.Compare Verif.SpecCl Verif.AlgTac Verif.SpecFunc Verif.FuncFacts Verif.Rel Verif.B64 Verif.B64Facts Verif.SpecRound Verif.SpecValid
  Verif.ValidFacts Verif.IntFacts Verif.ErrFacts Verif.SpecAcc Verif.BoundFacts Verif.AccFacts Verif.AccThm Verif.NormFacts Verif.SpecCompare Verif.SpecScale Verif.ScaleThm Verif.AcceptFacts
  Verif.ExpAcc Verif.LogAcc Verif.RootAcc Verif.SpecTrip.
Import ListNotations.
Local Open Scope R_scope.

Lemma exactly_sub_elems : forall t (x y : val f64 t) D, (forall j, Rabs (exactly t x j - exactly t y j) <= D) ->
  Forall2 (fun a b : f64 => Rabs (b2r a - b2r b) <= D) (elems t x) (elems t y).
Proof.
  intros t x y D H.
  pose proof (H bS) as h0; pose proof (H bE1) as h1; pose proof (H bE2) as h2; pose proof (H bE3) as h3;
  pose proof (H bE23) as h4; pose proof (H (B true false true)) as h5; pose proof (H bE12) as h6; pose proof (H bE123) as h7.
  clear H.
  destruct t; dvs; cbv -[B2R Rabs Rminus Ropp Rle IZR] in h0, h1, h2, h3, h4, h5, h6, h7;
    cbv [elems app arr1_list arr3_list]; cbn; unfold arr1_list; repeat (apply Forall2_cons || apply Forall2_nil); try assumption;
    match goal with |- Rabs (B2R ?a - B2R ?b) <= _ =>
      rewrite <- (Rabs_Ropp (B2R a - B2R b)); replace (- (B2R a - B2R b)) with (- B2R a - - B2R b) by ring; assumption end.
Qed.
Lemma csub_elems : forall t (x y : val f64 t) D, cnorm (csub (exactly t x) (exactly t y)) <= D ->
  Forall2 (fun a b : f64 => Rabs (b2r a - b2r b) <= D) (elems t x) (elems t y).
Proof. intros t x y D H. apply exactly_sub_elems. intros j. eapply Rle_trans; [|exact H]. apply (comp_le_norm (csub (exactly t x) (exactly t y)) j). Qed.

(** A small error in norm is accepted. *)
Lemma norm_accept : forall t (x y : val f64 t) (tol t' : f64) k e, t <> TDub -> all_finite t x -> betweenv 199 t y ->
  0 < k -> 0 < cnorm (exactly t y) -> balanced k (cnorm (exactly t y)) t y ->
  0 <= e -> cnorm (csub (exactly t x) (exactly t y)) <= cnorm (exactly t y) * e ->
  fin tol = true -> bpow radix2 (-60) <= b2r t' <= / 2 -> b2r t' < b2r tol ->
  e <= (1 - bpow radix2 (-47)) * b2r t' * k ->
  nearlyEquals t x y tol = true.
Proof.
  intros t x y tol t' k e Nt Fx By Hk HN Bal He Err Ft Ht Htt Hc.
  set (N := cnorm (exactly t y)) in *.
  pose proof (csub_elems t x y _ Err) as E.
  assert (C : Forall2 (fun a b : f64 => Rabs (b2r a - b2r b) <= e / k * Rabs (b2r b)) (elems t x) (elems t y)).
  { unfold balanced in Bal. clear - E Bal Hk He HN. revert Bal. induction E as [|a b l m h E IH]; intros Bal; constructor.
    - inversion Bal as [|? ? q _]; subst. eapply Rle_trans; [exact h|].
      apply Rle_trans with (e / k * (k * N)); [apply Req_le; field; lra|]. apply Rmult_le_compat_l; [|exact q].
      apply Rmult_le_pos; [lra|left; apply Rinv_0_lt_compat; lra].
    - inversion Bal; subst; auto. }
  assert (K0 : 0 <= e / k) by (apply Rmult_le_pos; [lra|left; apply Rinv_0_lt_compat; lra]).
  assert (K1 : e / k <= (1 - bpow radix2 (-47)) * b2r t').
  { apply Rmult_le_reg_r with k; [exact Hk|]. unfold Rdiv; rewrite Rmult_assoc, Rinv_l by lra. lra. }
  assert (B47 : 0 < bpow radix2 (-47) < 1) by (split; [apply bpow_gt_0|change (bpow radix2 (-47) < bpow radix2 0); apply bpow_lt; lia]).
  assert (K2 : e / k <= / 2) by nra.
  apply (components_accept t x y tol t' (e / k)); auto; try lra.
  - unfold betweenv in *. unfold all_finite in Fx. clear - C By Fx K0 K2.
    induction C as [|a b l m h C IH]; constructor.
    + inversion Fx as [|? ? fa _]; subst. inversion By as [|? ? fb _]; subst. split; [exact fa|]. destruct fb as [_ [z|[lo hi]]].
      * left. rewrite z, Rabs_R0, Rmult_0_r, Rminus_0_r in h. pose proof (Rabs_pos (b2r a)). apply Rabs_eq_R0. lra.
      * right. change (- (200))%Z with (-200)%Z. change (- (199))%Z with (-199)%Z in lo. pose proof (Rabs_triang_inv (b2r a) (b2r b)) as u1. pose proof (Rabs_triang_inv (b2r b) (b2r a)) as u2. rewrite Rabs_minus_sym in u2.
        pose proof (Rabs_pos (b2r b)).
        replace (bpow radix2 (-200)) with (/ 2 * bpow radix2 (-199)) by (change (/ 2) with (bpow radix2 (-1)); rewrite <- bpow_plus; reflexivity).
        replace (bpow radix2 200) with (2 * bpow radix2 199) by (change 2 with (bpow radix2 1); rewrite <- bpow_plus; reflexivity).
        assert (hc : e / k * Rabs (b2r b) <= / 2 * Rabs (b2r b)) by (apply Rmult_le_compat_r; assumption). split; lra.
    + inversion Fx; inversion By; subst; auto.
  - eapply Forall_impl; [|exact By]. intros v [f [z|[lo hi]]]; split; auto. right. split; [eapply Rle_trans; [apply bpow_le|exact lo]; lia|eapply Rle_trans; [exact hi|apply bpow_le; lia]].
Qed.

Section Lib.
Context {L : Libm f64}.
Lemma biv_part : forall (s : Spinor f64) k N, 0 <= k -> 0 <= N -> balanced k N TSpin s -> k * N <= cnorm (exactly TBiv (spinBiv s)).
Proof.
  intros s k N Hk HN Bal. unfold balanced in Bal. destruct s as [[[x]] [[a b c]]]. cbn in Bal. unfold arr1_list in Bal. cbn in Bal.
  inversion Bal as [|? ? _ B1]; subst. inversion B1 as [|? ? q _]; subst.
  eapply Rle_trans; [exact q|]. apply (comp_le_norm (exactly TBiv (Biv a b c)) bE23).
Qed.
Lemma exp_log_accept : forall eps, trig_within eps L -> exp_within eps L -> log_within eps L -> atan2_within eps L ->
  eps <= bpow radix2 (-40) -> forall (s : Spinor f64) plane k (tol t' : f64), root_domain s plane -> betweenv 199 TSpin s ->
  let N := cnorm (exactly TSpin s) in bpow radix2 (-23) <= k -> balanced k N TSpin s ->
  fin tol = true -> bpow radix2 (-60) <= b2r t' <= / 2 -> b2r t' < b2r tol ->
  eps * (9 + 2 * Rabs (ln N)) + 256 * unit_roundoff <= (1 - bpow radix2 (-47)) * b2r t' * k ->
  nearlyEquals TSpin (exp_Spin (logG2 s plane)) s tol = true.
Proof.
  intros eps T Te TL TA He s plane k tol t' D By N Hk Bal Ft Ht Htt Hc.
  assert (He0 : 0 <= eps).
  { destruct (cos_within _ _ T (none_ : f64)) as [_ Q]; [apply one_ok|]. eapply Rle_trans; [apply Rabs_pos|exact Q]. }
  assert (PN : 0 < N) by (destruct D as [[_ [[lo _] _]] _]; eapply Rlt_le_trans; [apply bpow_gt_0|exact lo]).
  pose proof (bpow_gt_0 radix2 (-23)).
  destruct (exp_log_accurate eps T Te TL TA He s plane D) as (F & _ & E).
  assert (Bp : bpow radix2 (-23) * N <= cnorm (exactly TBiv (spinBiv s))).
  { apply Rle_trans with (k * N); [apply Rmult_le_compat_r; lra|]. apply biv_part; [lra|lra|exact Bal]. }
  apply (norm_accept TSpin _ s tol t' k (eps * (9 + 2 * Rabs (ln N)) + 256 * unit_roundoff)); auto; try lra; try discriminate.
  - pose proof (Rabs_pos (ln N)). assert (0 <= unit_roundoff) by (unfold unit_roundoff; apply bpow_ge_0). nra.
Qed.

Lemma spin_square_norm : forall q : Spinor f64, cnorm (exactly TSpin q) * cnorm (exactly TSpin q) = cnorm (gp (exactly TSpin q) (exactly TSpin q)).
Proof.
  intros q. symmetry. apply cnorm_mul. apply cnorm2_gp_r. apply exactly_rev_scalar. reflexivity.
Qed.
Lemma norm_within : forall t (x : val f64 t) e, all_finite t x -> cnorm (exactly t x) <= bpow radix2 e -> within e t x.
Proof.
  intros t x e F H. unfold within, all_finite in *. rewrite Forall_forall in *. intros v Iv. split; [apply F, Iv|].
  eapply Rle_trans; [apply (norm_comp t x v Iv)|exact H].
Qed.
Lemma sqrt_accept : forall eps, trig_within eps L -> exp_within eps L -> log_within eps L -> atan2_within eps L ->
  eps <= bpow radix2 (-40) -> forall (s : Spinor f64) plane k (tol t' : f64), root_domain s plane -> betweenv 199 TSpin s ->
  let N := cnorm (exactly TSpin s) in bpow radix2 (-49) <= N -> bpow radix2 (-23) <= k -> balanced k N TSpin s ->
  fin tol = true -> bpow radix2 (-60) <= b2r t' <= / 2 -> b2r t' < b2r tol ->
  eps * (13 + 2 * Rabs (ln N)) + 320 * unit_roundoff <= (1 - bpow radix2 (-47)) * b2r t' * k ->
  nearlyEquals TSpin (mul TSpin TSpin (sqrtG2 s plane) (sqrtG2 s plane)) s tol = true.
Proof.
  intros eps T Te TL TA He s plane k tol t' D By N HN Hk Bal Ft Ht Htt Hc.
  assert (He0 : 0 <= eps).
  { destruct (cos_within _ _ T (none_ : f64)) as [_ Q]; [apply one_ok|]. eapply Rle_trans; [apply Rabs_pos|exact Q]. }
  assert (PN : 0 < N) by (eapply Rlt_le_trans; [apply bpow_gt_0|exact HN]).
  pose proof (bpow_gt_0 radix2 (-23)).
  destruct (sqrt_accurate eps T Te TL TA He s plane D HN) as (F & _ & E & _).
  set (q := sqrtG2 s plane) in *.
  assert (Bp : bpow radix2 (-23) * N <= cnorm (exactly TBiv (spinBiv s))).
  { apply Rle_trans with (k * N); [apply Rmult_le_compat_r; lra|]. apply biv_part; [lra|lra|exact Bal]. }
  specialize (E Bp). fold N in E. set (err := eps * (13 + 2 * Rabs (ln N))) in *.
  assert (err0 : 0 <= err) by (unfold err; pose proof (Rabs_pos (ln N)); nra).
  set (u := unit_roundoff) in *. assert (Hu : 0 <= u <= bpow radix2 (-50)) by (unfold u, unit_roundoff; split; [apply bpow_ge_0|apply bpow_le; lia]).
  assert (B47 : 0 < bpow radix2 (-47) < 1) by (split; [apply bpow_gt_0|change (bpow radix2 (-47) < bpow radix2 0); apply bpow_lt; lia]).
  assert (Kb : k <= 1).
  { unfold balanced in Bal. destruct (elems TSpin s) as [|v l] eqn:El; [destruct s as [[[?]] [[? ? ?]]]; discriminate El|].
    inversion Bal as [|? ? b _]; subst. assert (Iv : In v (elems TSpin s)) by (rewrite El; left; reflexivity).
    pose proof (norm_comp TSpin s v Iv). fold N in H0. apply Rmult_le_reg_r with N; [exact PN|]. lra. }
  assert (P60 : 0 < bpow radix2 (-60)) by apply bpow_gt_0.
  assert (T1 : 0 <= (1 - bpow radix2 (-47)) * b2r t' <= / 2) by (split; nra).
  assert (Sm : err + 320 * u <= / 2) by nra.
  set (Q := exactly TSpin q) in *. set (SS := exactly TSpin s) in *.
  assert (QQ : cnorm Q * cnorm Q <= 2 * N).
  { unfold Q; rewrite spin_square_norm. fold Q. pose proof (cnorm_triangle SS (csub (gp Q Q) SS)) as g.
    rewrite (cnorm_ceq (cadd _ _) (gp Q Q)) in g by (intro j; unfold cadd, csub; ring). fold N in g. nra. }
  assert (NU : N <= bpow radix2 480) by (destruct D as [[_ [[_ hi] _]] _]; exact hi).
  assert (Qb : cnorm Q <= bpow radix2 241).
  { pose proof (cnorm_nonneg Q). pose proof (bpow_gt_0 radix2 241). apply Rsqr_incr_0; [|lra|lra]. unfold Rsqr. rewrite <- bpow_plus.
    change (241 + 241)%Z with (2 + 480)%Z. rewrite bpow_plus. change (bpow radix2 2) with 4. lra. }
  assert (W : within 241 TSpin q) by (apply norm_within; assumption).
  assert (Fp : all_finite TSpin (mul TSpin TSpin q q)).
  { eapply Forall_impl; [|exact (mul_within 241 241 TSpin TSpin q q ltac:(lia) ltac:(lia) W W)]. intros v [f _]; exact f. }
  pose proof (mul_norm_error TSpin TSpin q q Fp) as Er. fold Q in Er. change u53 with u in Er. change eta with underflow_unit in Er.
  assert (Et : 26 * underflow_unit <= u * N).
  { unfold u, unit_roundoff, underflow_unit. apply Rle_trans with (bpow radix2 (-53) * bpow radix2 (-49)).
    - rewrite <- bpow_plus. apply Rle_trans with (bpow radix2 5 * bpow radix2 (-1075)); [|rewrite <- bpow_plus; apply bpow_le; lia].
      apply Rmult_le_compat; try lra; try apply bpow_ge_0; first [change (bpow radix2 5) with 32; lra | apply bpow_le; lia].
    - apply Rmult_le_compat_l; [apply bpow_ge_0|exact HN]. }
  apply (norm_accept TSpin _ s tol t' k (err + 320 * u)); auto; try lra; try discriminate.
  fold SS N. pose proof (cnorm_triangle (csub (exactly TSpin (mul TSpin TSpin q q)) (gp Q Q)) (csub (gp Q Q) SS)) as g.
  rewrite (cnorm_ceq (cadd _ _) (csub (exactly TSpin (mul TSpin TSpin q q)) SS)) in g by (intro j; unfold cadd, csub; ring).
  change (mulTy TSpin TSpin) with TSpin in *.
  assert (G1 : 26 * u * (cnorm Q * cnorm Q) <= 26 * u * (2 * N)) by (apply Rmult_le_compat_l; lra).
  assert (G2 : 0 <= u * N) by (apply Rmult_le_pos; lra). unfold SS in *. lra.
Qed.
End Lib.
