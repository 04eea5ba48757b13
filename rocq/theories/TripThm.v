(** * Round trips under the library's own comparison: inverses. *)

Require Import Reals ZArith List Bool Lra Lia.
From Flocq Require Import Core BinarySingleNaN.
Require Import Verif.Num Verif.Types Verif.Priv Verif.OpsUni Verif.OpsAdd Verif.OpsSub Verif.OpsMul Verif.Const Verif.Validity
  Verif.Func Verif.Compare Verif.SpecCl Verif.AlgTac Verif.SpecFunc Verif.FuncFacts Verif.Rel Verif.B64 Verif.B64Facts Verif.SpecRound Verif.SpecValid
  Verif.ValidFacts Verif.IntFacts Verif.ErrFacts Verif.SpecAcc Verif.BoundFacts Verif.AccFacts Verif.AccThm Verif.NormFacts Verif.SpecCompare Verif.SpecScale Verif.ScaleThm Verif.AcceptFacts Verif.CompareFacts
  Verif.ExpFacts Verif.ExpAcc Verif.LogAcc Verif.RootAcc Verif.SpecTrip Verif.TripFacts Verif.SpecSame Verif.SameFacts Verif.MirrorFacts Verif.MirrorThm
  Verif.SpecMirror Verif.LoopFacts Verif.SpecBit Verif.BitThm.
Import ListNotations.
Local Open Scope R_scope.

Lemma samev_refl : forall t (x : val f64 t), samev t x x.
Proof. intros t x. unfold samev. induction (elems t x); constructor; auto. left; reflexivity. Qed.
Lemma exp_Biv_neg : forall (L : Libm f64) (b : BiVector f64), samev TSpin (reverse TSpin (exp_Biv b)) (exp_Biv (neg TBiv b)).
Proof.
  intros L b. pose (s := fun k => (2 <=? grade k)%nat).
  assert (I' : mirrored s TBiv b (neg TBiv b)) by (apply image_mirrored; unfold image; dvs; reflexivity).
  pose proof (exp_Biv_mirror s L eq_refl b (neg TBiv b) I') as H.
  unfold samev. unfold mirrored in H. revert H. generalize (exp_Biv (neg TBiv b)) (exp_Biv b). intros u v H. dvs. exact H.
Qed.

(** A spinor of norm about one, times its reverse, is nearly one. *)
Lemma unit_accept : forall (e : Spinor f64) d (tol t' : f64), all_finite TSpin e -> 0 <= d -> Rabs (cnorm (exactly TSpin e) - 1) <= d ->
  fin tol = true -> bpow radix2 (-60) <= b2r t' <= / 4 -> b2r t' < b2r tol ->
  3 * d + 32 * unit_roundoff <= (1 - bpow radix2 (-47)) * b2r t' ->
  nearlyEquals TSpin (mul TSpin TSpin e (reverse TSpin e)) (one TSpin) tol = true.
Proof.
  intros e d tol t' F Hd Hn Ft Ht Htt Hc.
  set (N := cnorm (exactly TSpin e)) in *. set (u := unit_roundoff) in *.
  assert (Hu : 0 <= u <= bpow radix2 (-50)) by (unfold u, unit_roundoff; split; [apply bpow_ge_0|apply bpow_le; lia]).
  assert (U1 : bpow radix2 (-50) <= / 1024) by (change (/ 1024) with (bpow radix2 (-10)); apply bpow_le; lia).
  assert (B47 : 0 < bpow radix2 (-47) < 1) by (split; [apply bpow_gt_0|change (bpow radix2 (-47) < bpow radix2 0); apply bpow_lt; lia]).
  assert (P60 : 0 < bpow radix2 (-60)) by apply bpow_gt_0.
  assert (Td : (1 - bpow radix2 (-47)) * b2r t' <= b2r t') by nra.
  assert (Hd1 : d <= / 12) by lra.
  apply Rabs_le_inv in Hn.
  assert (W : within 1 TSpin e) by (apply norm_within; [exact F|]; fold N; change (bpow radix2 1) with 2; lra).
  assert (Wr : within 1 TSpin (reverse TSpin e)).
  { clear - W. unfold within in *. dvs. cbn in W |- *. unfold arr1_list, arr3_list in *. cbn in W |- *.
    repeat match goal with H : Forall _ (_ :: _) |- _ => inversion H as [|? ? ? ?]; subst; clear H end.
    repeat apply Forall_cons; try apply Forall_nil; cbn; rewrite ?is_finite_Bopp, ?B2R_Bopp, ?Rabs_Ropp; assumption. }
  pose proof (mul_within 1 1 TSpin TSpin e (reverse TSpin e) ltac:(lia) ltac:(lia) W Wr) as Wm.
  change (mulTy TSpin TSpin) with TSpin in *.
  assert (Fm : finites (parts _ (mul TSpin TSpin e (reverse TSpin e)))).
  { clear - Wm. unfold finites, parts, within in *. revert Wm. generalize (mul TSpin TSpin e (reverse TSpin e)). intros p Wm. change (mulTy TSpin TSpin) with TSpin in *. dvs. cbn in Wm |- *. unfold arr1_list, arr3_list in *. cbn in Wm |- *.
    repeat match goal with H : Forall _ (_ :: _) |- _ => inversion H as [|? ? [? _] ?]; subst; clear H end.
    repeat apply Forall_cons; try apply Forall_nil; first [assumption|reflexivity]. }
  pose proof (proj1 (magSq_alone TSpin) ltac:(split; discriminate) e Fm) as Z.
  pose proof (proj1 (magSq_bits TSpin) ltac:(discriminate) e) as S0.
  destruct (magSq_within 1 TSpin e ltac:(lia) W) as [Fq _].
  assert (N480 : bpow radix2 (-480) <= N).
  { apply Rle_trans with (bpow radix2 (-1)); [apply bpow_le; lia|change (bpow radix2 (-1)) with (/ 2); lra]. }
  pose proof (magSq_rel_error TSpin e Fq N480) as Er. rewrite <- cnorm_sq' in Er. fold N in Er. change u53 with u in Er.
  set (m := magSq TSpin e) in *.
  assert (Em : Rabs (b2r m - 1) <= 3 * d + 32 * u).
  { replace (b2r m - 1) with ((b2r m - N * N) + (N - 1) * (N + 1)) by ring. eapply Rle_trans; [apply Rabs_triang|].
    rewrite Rabs_mult. assert (A1 : Rabs (N - 1) <= d) by (apply Rabs_le; lra). assert (A2 : Rabs (N + 1) <= 5 / 2) by (apply Rabs_le; lra).
    pose proof (Rabs_pos (N - 1)). assert (A3 : Rabs (N - 1) * Rabs (N + 1) <= d * (5 / 2)) by (apply Rmult_le_compat; auto using Rabs_pos).
    assert (A4 : N * N <= 2) by nra. assert (10 * u * (N * N) <= 10 * u * 2) by (apply Rmult_le_compat_l; lra). lra. }
  assert (Bm : / 2 <= b2r m <= 2) by (apply Rabs_le_inv in Em; lra).
  clearbody m. clear Er Fm.
  revert Wm Z S0. generalize (mul TSpin TSpin e (reverse TSpin e)). change (mulTy TSpin TSpin) with TSpin. intros p Wm Z S0.
  destruct p as [[[p0]] [[p1 p2 p3]]]. unfold parts in Z, S0. cbn in Z, S0. unfold arr1_list, arr3_list in Z. cbn in Z. unfold zeros in Z.
  repeat match goal with H : Forall _ (_ :: _) |- _ => inversion H as [|? ? [? ?] ?]; subst; clear H end.
  assert (V0 : fin p0 = true /\ b2r p0 = b2r m).
  { destruct S0 as [E|(s & s' & E1 & E2)]; [cbn in E; rewrite E; split; [exact Fq|reflexivity]|].
    exfalso. rewrite E2 in Bm. cbn in Bm. lra. }
  destruct V0 as [F0 E0].
  assert (Z0 : forall s, valid_number (B754_zero s : f64)) by (intros; split; [reflexivity|left; reflexivity]).
  assert (One : b2r (none_ : f64) = 1) by apply (proj2 one_ok).
  apply (object_accept TSpin _ _ tol t'); auto; try lra; try discriminate.
  - unfold all_valid. cbn. unfold arr1_list. cbn. repeat apply Forall_cons; try apply Forall_nil; try apply Z0.
    split; [exact F0|right]. rewrite E0, Rabs_pos_eq by lra. apply Rle_trans with (bpow radix2 (-1)); [apply bpow_le; lia|change (bpow radix2 (-1)) with (/ 2); lra].
  - apply one_valid. right; reflexivity.
  - unfold slices. apply Forall_cons; [right|apply Forall_cons; [left|apply Forall_nil]].
    + pose (w := (none_ : f64)). fold w in One. change (bpow radix2 (-900) <= b2r w * b2r w + 0 <= bpow radix2 1000 /\
        (b2r p0 - b2r w) * (b2r p0 - b2r w) + 0 <= (1 - bpow radix2 (-47)) * (b2r t' * b2r t') * (b2r w * b2r w + 0)).
      rewrite One, E0, !Rplus_0_r, !Rmult_1_r. split.
      * split; [|change 1 with (bpow radix2 0); apply bpow_le; lia]. change 1 with (bpow radix2 0); apply bpow_le; lia.
      * assert (Eb : Rabs (b2r m - 1) <= (1 - bpow radix2 (-47)) * b2r t') by lra.
        pose proof (Rabs_pos (b2r m - 1)). rewrite <- (Rsqr_abs (b2r m - 1) : Rabs _ * Rabs _ = _) || replace ((b2r m - 1) * (b2r m - 1)) with (Rabs (b2r m - 1) * Rabs (b2r m - 1)) by (symmetry; apply (Rsqr_abs (b2r m - 1))).
        eapply Rle_trans; [apply Rmult_le_compat; [lra|lra|exact Eb|exact Eb]|].
        assert (G : 0 <= b2r t' * b2r t') by nra. replace ((1 - bpow radix2 (-47)) * b2r t' * ((1 - bpow radix2 (-47)) * b2r t')) with ((1 - bpow radix2 (-47)) * ((1 - bpow radix2 (-47)) * (b2r t' * b2r t'))) by ring.
        apply Rmult_le_compat_l; [lra|]. nra.
    + split; repeat apply Forall_cons; try apply Forall_nil; cbn; rewrite ?Rabs_R0; lra.
Qed.

Section Lib.
Context {L : Libm f64}.
Lemma inverse_accept : forall eps, trig_within eps L -> eps <= / 16 -> forall (b : BiVector f64) (tol t' : f64), exp_domain b ->
  fin tol = true -> bpow radix2 (-60) <= b2r t' <= / 4 -> b2r t' < b2r tol ->
  6 * eps + 80 * unit_roundoff + 48 * unit_roundoff * cnorm (exactly TBiv b) <= (1 - bpow radix2 (-47)) * b2r t' ->
  nearlyEquals TSpin (mul TSpin TSpin (exp_Biv b) (exp_Biv (neg TBiv b))) (one TSpin) tol = true.
Proof.
  intros eps T He b tol t' D Ft Ht Htt Hc.
  rewrite <- (nearly_sign TSpin _ _ _ _ tol (mul_same TSpin TSpin _ _ _ _ (samev_refl TSpin (exp_Biv b)) (exp_Biv_neg L b)) (samev_refl TSpin (one TSpin))).
  destruct (cexp_exists (exactly TBiv b)) as [E HE]. destruct (exp_Biv_accurate eps T He b E D HE) as (F & _ & Er).
  pose proof (cexp_biv_norm b E HE) as U.
  apply (unit_accept _ (2 * eps + 16 * unit_roundoff * (1 + cnorm (exactly TBiv b))) tol t'); auto; [|  |lra].
  - eapply Rle_trans; [apply cnorm_nonneg|exact Er].
  - pose proof (cnorm_triangle E (csub (exactly TSpin (exp_Biv b)) E)) as g1.
    rewrite (cnorm_ceq (cadd _ _) (exactly TSpin (exp_Biv b))) in g1 by (intro j; unfold cadd, csub; ring).
    pose proof (cnorm_triangle (exactly TSpin (exp_Biv b)) (csub E (exactly TSpin (exp_Biv b)))) as g2.
    rewrite (cnorm_ceq (cadd _ _) E) in g2 by (intro j; unfold cadd, csub; ring).
    rewrite (norm_sub_sym E) in g2. apply Rabs_le. lra.
Qed.
Lemma exp_zero : exp_Biv (zero_Biv : BiVector f64) = one TSpin.
Proof.
  assert (V1 : isValid_Biv (zero_Biv : BiVector f64) = true) by (vm_compute; reflexivity).
  assert (V2 : isValid_Biv (snd (pairMagDirFrom TBiv (zero_Biv : BiVector f64))) = false) by (vm_compute; reflexivity).
  unfold exp_Biv. rewrite V1. cbv zeta. rewrite V2. reflexivity.
Qed.
Lemma zero_rejected : forall c : f64, nearlyEquals_Biv (scale TBiv c zero_Biv) (spinBiv small_angle) none_ = false.
Proof.
  intros c. assert (M : exists v : f64, (v = B754_zero false \/ v = B754_zero true \/ v = B754_nan) /\ scale TBiv c zero_Biv = Biv v v v).
  { exists (Bmult mode_NE c (B754_zero false)). split; [|reflexivity]. destruct c as [[]|[]| |[] m e B]; cbn; auto. }
  destruct M as (v & [-> | [-> | ->]] & ->); vm_compute; reflexivity.
Qed.
Lemma small_angle_rejected : forall plane (tol : f64), Bleb tol none_ = true ->
  nearlyEquals TSpin (exp_Spin (logG2 small_angle plane)) small_angle tol = false.
Proof.
  intros plane tol Ht. destruct (nearlyEquals TSpin (exp_Spin (logG2 small_angle plane)) small_angle tol) eqn:E; [|reflexivity].
  apply (nearly_mono _ _ Ht) in E. rewrite <- E. clear E Ht.
  pose proof example_small_angle as (D & P & [_ Q]). cbv zeta in D, P, Q. fold small_angle in D, P, Q.
  destruct (log_vanishes small_angle plane D Q) as [K _]. specialize (K P). 
  cbn [nearlyEquals]. unfold nearlyEquals_Spin, exp_Spin. rewrite K, exp_zero. 
  pose proof (zero_rejected (mexp (sca_0 (spinSca (logG2 small_angle plane))))) as Z. 
  apply andb_false_intro2. exact Z.
Qed.

(** ** With the numbers filled in *)
Lemma trip_budget : forall (s : Spinor f64) plane, root_domain s plane -> forall c, 0 <= c <= 13 ->
  bpow radix2 (-50) * (c + 2 * Rabs (ln (cnorm (exactly TSpin s)))) + 320 * unit_roundoff <=
  (1 - bpow radix2 (-47)) * b2r (f64_lit 1 (-29)) * bpow radix2 (-10).
Proof.
  intros s plane [D _] c Hc. destruct D as (_ & H & _). pose proof (ln_range _ H) as Ln. rewrite (proj2 (pow_lit (-29) ltac:(lia))).
  unfold unit_roundoff. set (x := Rabs (ln _)) in *. assert (X0 : 0 <= x) by apply Rabs_pos. clearbody x.
  rewrite Rmult_assoc, <- bpow_plus. change (-29 + -10)%Z with (11 + -50)%Z. rewrite bpow_plus. change (-53)%Z with (-3 + -50)%Z. rewrite (bpow_plus radix2 (-3)).
  change (bpow radix2 11) with 2048. change (bpow radix2 (-3)) with (/ 8). set (e := bpow radix2 (-50)). assert (E0 : 0 < e) by apply bpow_gt_0.
  assert (B47 : bpow radix2 (-47) <= / 4) by (change (/ 4) with (bpow radix2 (-2)); apply bpow_le; lia).
  apply Rle_trans with (e * (13 + 2 * 480) + 320 * (/ 8 * e)); [apply Rplus_le_compat_r, Rmult_le_compat_l; lra|].
  apply Rle_trans with (3 / 4 * (2048 * e)); [lra|apply Rmult_le_compat_r; lra].
Qed.
Lemma trips_typical : let eps := bpow radix2 (-50) in
  trig_within eps L -> exp_within eps L -> log_within eps L -> atan2_within eps L ->
  forall (s : Spinor f64) plane (tol : f64), root_domain s plane -> betweenv 199 TSpin s ->
  balanced (bpow radix2 (-10)) (cnorm (exactly TSpin s)) TSpin s -> fin tol = true -> bpow radix2 (-29) < b2r tol ->
  nearlyEquals TSpin (exp_Spin (logG2 s plane)) s tol = true /\
  (bpow radix2 (-49) <= cnorm (exactly TSpin s) -> nearlyEquals TSpin (mul TSpin TSpin (sqrtG2 s plane) (sqrtG2 s plane)) s tol = true).
Proof.
  intros eps T Te TL TA s plane tol D By Bal Ft Htt.
  assert (He : eps <= bpow radix2 (-40)) by (apply bpow_le; lia).
  assert (Hk : bpow radix2 (-23) <= bpow radix2 (-10)) by (apply bpow_le; lia).
  destruct (pow_lit (-29) ltac:(lia)) as [_ Et].
  assert (Ht : bpow radix2 (-60) <= b2r (f64_lit 1 (-29)) <= / 2) by (rewrite Et; split; [apply bpow_le; lia|change (/ 2) with (bpow radix2 (-1)); apply bpow_le; lia]).
  assert (U : 0 <= unit_roundoff) by apply bpow_ge_0.
  split; [|intros HN].
  - apply (exp_log_accept eps T Te TL TA He s plane (bpow radix2 (-10)) tol (f64_lit 1 (-29))); auto; [rewrite Et; exact Htt|].
    pose proof (trip_budget s plane D 9 ltac:(lra)). fold eps in H. lra.
  - apply (sqrt_accept eps T Te TL TA He s plane (bpow radix2 (-10)) tol (f64_lit 1 (-29))); auto; [rewrite Et; exact Htt|].
    apply (trip_budget s plane D 13 ltac:(lra)).
Qed.
Lemma inverse_typical : trig_within (bpow radix2 (-50)) L -> forall (b : BiVector f64) (tol : f64), exp_domain b ->
  cnorm (exactly TBiv b) <= 1024 -> fin tol = true -> bpow radix2 (-37) < b2r tol ->
  nearlyEquals TSpin (mul TSpin TSpin (exp_Biv b) (exp_Biv (neg TBiv b))) (one TSpin) tol = true.
Proof.
  intros T b tol D Hb Ft Htt. destruct (pow_lit (-37) ltac:(lia)) as [_ Et].
  apply (inverse_accept (bpow radix2 (-50)) T) with (t' := f64_lit 1 (-37)); auto; rewrite ?Et; auto.
  - change (/ 16) with (bpow radix2 (-4)). apply bpow_le; lia.
  - split; [apply bpow_le; lia|change (/ 4) with (bpow radix2 (-2)); apply bpow_le; lia].
  - unfold unit_roundoff. change (-37)%Z with (13 + -50)%Z. change (-53)%Z with (-3 + -50)%Z. rewrite !bpow_plus.
    change (bpow radix2 13) with 8192. change (bpow radix2 (-3)) with (/ 8).
    set (e := bpow radix2 (-50)). assert (E0 : 0 < e) by apply bpow_gt_0.
    assert (B47 : bpow radix2 (-47) <= / 8) by (change (/ 8) with (bpow radix2 (-3)); apply bpow_le; lia).
    assert (48 * (/ 8 * e) * cnorm (exactly TBiv b) <= 48 * (/ 8 * e) * 1024) by (apply Rmult_le_compat_l; lra).
    apply Rle_trans with (7 / 8 * (8192 * e)); [lra|apply Rmult_le_compat_r; lra].
Qed.
End Lib.

(** ** A case *)
Lemma example_trip : root_domain trip_case (Biv (f64_lit 0 0) (f64_lit 1 0) (f64_lit 0 0)) /\ betweenv 199 TSpin trip_case /\
  bpow radix2 (-49) <= cnorm (exactly TSpin trip_case) /\ balanced (bpow radix2 (-10)) (cnorm (exactly TSpin trip_case)) TSpin trip_case.
Proof.
  pose proof example_root_domain as (_ & _ & Pl).
  pose proof (small_int 3%Z ltac:(lia)) as [F3 B3]. pose proof (small_int (-2)%Z ltac:(lia)) as [F2 B2].
  pose proof (small_int 4%Z ltac:(lia)) as [F4 B4]. pose proof (small_int 1%Z ltac:(lia)) as [F1 B1].
  assert (N2 : cnorm2 (exactly TSpin trip_case) = 30).
  { unfold exactly, trip_case. cbv -[b2r f64_lit Rplus Rmult R0 IZR Ropp]. rewrite B3, B2, B4, B1. ring. }
  assert (N : 1 <= cnorm (exactly TSpin trip_case) <= 6).
  { unfold cnorm. rewrite N2. split; [rewrite <- sqrt_1|rewrite <- (sqrt_square 6) by lra]; apply sqrt_le_1_alt; lra. }
  set (n := cnorm (exactly TSpin trip_case)) in *. clear N2.
  assert (P : forall e, (e <= 0)%Z -> bpow radix2 e <= 1) by (intros e He; change 1 with (bpow radix2 0); apply bpow_le; exact He).
  assert (P199 : forall e, (3 <= e)%Z -> 8 <= bpow radix2 e) by (intros e He; change 8 with (bpow radix2 3); apply bpow_le; exact He).
  assert (K : bpow radix2 (-10) * n <= 1).
  { apply Rle_trans with (/ 1024 * n); [apply Req_le; reflexivity|lra]. }
  assert (A : forall v : f64, 1 <= Rabs (b2r v) <= 4 -> fin v = true -> SpecScale.between 199 v /\ valid_number v /\ bpow radix2 (-10) * n <= Rabs (b2r v)).
  { intros v Hv Fv. split; [|split; [|lra]]; (split; [exact Fv|right]).
    - split; [apply Rle_trans with 1; [apply P; lia|lra]|apply Rle_trans with 8; [lra|apply P199; lia]].
    - apply Rle_trans with 1; [apply P; lia|lra]. }
  assert (A1 : 1 <= Rabs (b2r (f64_lit 1 0 : f64)) <= 4) by (rewrite B1, Rabs_pos_eq; lra).
  assert (A2 : 1 <= Rabs (b2r (f64_lit (-2) 0 : f64)) <= 4) by (rewrite B2, Rabs_left; lra).
  assert (A3 : 1 <= Rabs (b2r (f64_lit 3 0 : f64)) <= 4) by (rewrite B3, Rabs_pos_eq; lra).
  assert (A4 : 1 <= Rabs (b2r (f64_lit 4 0 : f64)) <= 4) by (rewrite B4, Rabs_pos_eq; lra).
  split; [|split; [|split]].
  - split; [|split; [|exact Pl]].
    + split; [unfold all_finite; cbn [elems]; repeat constructor; assumption|].
      fold n. split; [split; [apply Rle_trans with 1; [apply P; lia|lra]|apply Rle_trans with 8; [lra|apply P199; lia]]|].
      split; [apply A; assumption|apply A; assumption].
    + right. change (biv_0 (spinBiv trip_case)) with (f64_lit 4 0 : f64). 
      apply Rle_trans with (bpow radix2 (-10) * n); [apply Rmult_le_compat_r; [fold n; lra|apply bpow_le; lia]|lra].
  - unfold betweenv. cbn [elems]. repeat apply Forall_cons; try apply Forall_nil; apply A; assumption.
  - apply Rle_trans with 1; [apply P; lia|lra].
  - unfold balanced. cbn [elems]. repeat apply Forall_cons; try apply Forall_nil; apply A; assumption.
Qed.
