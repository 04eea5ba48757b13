(** * The README's example: three angles, and cases meeting the hypotheses. *)

Require Import Reals ZArith List Bool Lra Lia.
From Flocq Require Import Core BinarySingleNaN.
Require Import Verif.Num Verif.Types Verif.Priv Verif.OpsUni Verif.OpsAdd Verif.OpsSub Verif.OpsMul Verif.Const Verif.Validity
  Verif.Func Verif.SpecCl Verif.RealInst Verif.AlgTac Verif.AlgMul Verif.AlgFacts Verif.SpecFunc Verif.FuncFacts Verif.Rel Verif.B64 Verif.B64Facts Verif.SpecRound Verif.SpecValid
  Verif.ErrFacts Verif.SpecAcc Verif.AccFacts Verif.AccThm Verif.SpecExp Verif.ExpFacts Verif.ExpThm Verif.ExpAcc Verif.SpecLoop Verif.LoopFacts Verif.RootAcc Verif.ExtentFacts
  Verif.SpecFrame Verif.FrameFacts Verif.FrameThm.
Import ListNotations.
Local Open Scope R_scope.

(** The three angles of the example. *)
Section Three.
Context (L : Libm f64) (eps : R) (T : trig_within eps L) (He : eps <= / 32).
Lemma angle_small : forall b, frame_angle b -> frame_error eps b <= / 12.
Proof.
  intros b H. pose proof (angle_norm b H) as N. unfold frame_error. change unit_roundoff with u53. pose proof u53_pos.
  assert (8 * u53 * cnorm (exactly TBiv b) <= 8 * u53 * bpow radix2 32) by (apply Rmult_le_compat_l; lra).
  assert (56 * u53 + 8 * u53 * bpow radix2 32 <= / 1000) by (rewrite u53_val; change (bpow radix2 32) with (IZR 4294967296); lra). lra.
Qed.
Lemma readme_accurate : forall (roll elev azim : BiVector f64) Er Ee Ea, frame_angle roll -> frame_angle elev -> frame_angle azim ->
  is_cexp (cscale (/ 2) (exactly TBiv roll)) Er -> is_cexp (cscale (/ 2) (exactly TBiv elev)) Ee -> is_cexp (cscale (/ 2) (exactly TBiv azim)) Ea ->
  let s := attitude_of roll elev azim in
  let E := gp (gp Er Ee) Ea in
  let d := frame_error eps roll + frame_error eps elev + frame_error eps azim in
  (all_finite TSpin s /\ cnorm E = 1 /\ cnorm (csub (exactly TSpin s) E) <= 3 / 2 * d) /\
  (forall loc pos : Vector f64, within 1012 TVec loc -> within 1012 TVec pos ->
    let W := csub (exactly TVec pos) (exactly TVec loc) in
    all_finite TImsp (into_frame s loc pos) /\
    cnorm (csub (exactly TImsp (into_frame s loc pos)) (gp (gp E W) (crev E))) <= (122 * unit_roundoff + 4 * d) * cnorm W + 68 * underflow_unit) /\
  (forall t (v : val f64 t), within 1013 t v ->
    all_finite _ (turned s t v) /\
    cnorm (csub (exactly _ (turned s t v)) (gp (gp E (exactly t v)) (crev E))) <=
      (120 * unit_roundoff + 4 * d) * cnorm (exactly t v) + 68 * underflow_unit).
Proof.
  intros roll elev azim Er Ee Ea Fr Fe Fa Hr Hee Ha s E d.
  pose proof (angle_small roll Fr) as Sr. pose proof (angle_small elev Fe) as Se. pose proof (angle_small azim Fa) as Sa.
  assert (Hx : Forall (fun y => frame_angle (fst y) /\ half_exp y) [(roll, Er); (elev, Ee); (azim, Ea)]).
  { repeat apply Forall_cons; try apply Forall_nil; split; assumption. }
  assert (Dd : total (fun y => frame_error eps (fst y)) [(roll, Er); (elev, Ee); (azim, Ea)] = d) by (unfold d; cbn [total fold_right fst]; ring).
  assert (Ht : total (fun y => frame_error eps (fst y)) [(roll, Er); (elev, Ee); (azim, Ea)] <= / 3) by (rewrite Dd; unfold d; lra).
  pose proof (attitude_accurate L eps T He (roll, Er) [(elev, Ee); (azim, Ea)] Hx Ht) as A.
  pose proof (position_accurate L eps T He (roll, Er) [(elev, Ee); (azim, Ea)] Hx Ht) as P.
  pose proof (fun t v => turned_accurate L eps T He (roll, Er) [(elev, Ee); (azim, Ea)] Hx Ht 1013 t v ltac:(lia)) as V.
  rewrite Dd in A, P, V. split; [exact A|]. split; [exact P|exact V].
Qed.
End Three.

(** Exponentials of angles in the coordinate planes. *)
Lemma plane_exp : forall b : BiVector R, forall m, biv_0 b * biv_0 b + biv_1 b * biv_1 b + biv_2 b * biv_2 b = m * m ->
  is_cexp (den TBiv b) (den TSpin (mkSpin (Sca (cos m)) (scale TBiv (sinc m) b))).
Proof.
  intros b m H. apply (is_cexp_ceq (den TBiv b) _ (cadd (cscale (cos m) cone) (cscale (sinc m) (den TBiv b)))); [reflexivity| |].
  - destruct b as [[x y z]]. generalize (sinc m) (cos m). intros u v k. dblade k; cbv -[Rplus Rminus Rmult Ropp R R0 R1 IZR]; ring.
  - apply cexp_square. rewrite <- H. destruct b as [[x y z]]. intros k. dblade k; cbv -[Rplus Rminus Rmult Ropp R R0 R1 IZR]; ring.
Qed.
Lemma cos_low : forall x, 1 - x * x / 2 <= cos x.
Proof.
  intros x. replace (cos x) with (cos (2 * (x / 2))) by (f_equal; field). rewrite cos_2a_sin.
  pose proof (sin_le_abs (x / 2)) as H. assert (sin (x / 2) * sin (x / 2) <= (x / 2) * (x / 2)) by (apply Rsqr_le_abs_1 in H; exact H). lra.
Qed.
Lemma sin_low : forall x, 0 <= x <= 4 -> x - x * x * x / 6 <= sin x <= x.
Proof.
  intros x Hx. split.
  - destruct (pre_sin_bound x 0 ltac:(lra) ltac:(lra)) as [A _]. unfold sin_approx, sin_term in A. cbn in A. lra.
  - pose proof (sin_le_abs x) as H. rewrite (Rabs_pos_eq x) in H by lra. apply Rabs_le_inv in H. lra.
Qed.
Definition roll_case : BiVector f64 := Biv (f64_lit 0 0) (f64_lit 1 0) (f64_lit 0 0).
Definition elev_case : BiVector f64 := Biv (f64_lit 1 0) (f64_lit 0 0) (f64_lit 0 0).
Definition azim_case : BiVector f64 := Biv (f64_lit 0 0) (f64_lit 0 0) (f64_lit 1 (-4)).
Definition plane_rotor (k : bool * bool * bool) (m : R) : Spinor R := let g (c : bool) := if c then sin m else 0 in
  mkSpin (Sca (cos m)) (Biv (g (fst (fst k))) (g (snd (fst k))) (g (snd k))).
Lemma case_comp : let ok c := is_finite c = true /\ (B2R c = 0 \/ bpow radix2 (-400) <= Rabs (B2R c) <= bpow radix2 30) in
  ok (f64_lit 0 0) /\ ok (f64_lit 1 0) /\ ok (f64_lit 1 (-4)) /\ B2R (f64_lit 0 0) = 0 /\ B2R (f64_lit 1 0) = 1 /\ B2R (f64_lit 1 (-4)) = / 16.
Proof.
  intros ok. destruct (lit_of 0 0 ltac:(lia) ltac:(lia)) as [F0 V0]. destruct (lit_of 1 0 ltac:(lia) ltac:(lia)) as [F1 V1].
  destruct (lit_of 1 (-4) ltac:(lia) ltac:(lia)) as [F4 V4]. change (bpow radix2 0) with 1 in *. change (bpow radix2 (-4)) with (/ 16) in *.
  rewrite Rmult_1_r in V0, V1. rewrite Rmult_1_l in V4. unfold ok. rewrite V0, V1, V4.
  split; [split; [exact F0|left; reflexivity]|].
  split; [split; [exact F1|right; rewrite Rabs_R1; change 1 with (bpow radix2 0); split; apply bpow_le; lia]|].
  split; [split; [exact F4|right; rewrite Rabs_pos_eq by lra; change (/ 16) with (bpow radix2 (-4)); split; apply bpow_le; lia]|].
  auto.
Qed.
Lemma case_angles : exists Er Ee Ea, Forall (fun y => frame_angle (fst y) /\ half_exp y) [(roll_case, Er); (elev_case, Ee); (azim_case, Ea)] /\
  Er = den TSpin (plane_rotor (false, true, false) (/ 2)) /\ Ee = den TSpin (plane_rotor (true, false, false) (/ 2)) /\
  Ea = den TSpin (plane_rotor (false, false, true) (/ 32)).
Proof.
  destruct case_comp as (O0 & O1 & O4 & V0 & V1 & V4). do 3 eexists. split; [|split; [reflexivity|split; reflexivity]].
  unfold roll_case, elev_case, azim_case. revert O0 O1 O4 V0 V1 V4. generalize (f64_lit 0 0) (f64_lit 1 0) (f64_lit 1 (-4)).
  intros z o q Oz Oo Oq Vz Vo Vq.
  assert (P : forall (a b c : f64) k m, b2r a = 2 * (if fst (fst k) : bool then m else 0) -> b2r b = 2 * (if snd (fst k) : bool then m else 0) ->
    b2r c = 2 * (if snd k : bool then m else 0) -> (k = (true, false, false) \/ k = (false, true, false) \/ k = (false, false, true)) ->
    half_exp (Biv a b c, den TSpin (plane_rotor k m))).
  { intros a b c k m Ha Hb Hc Hk. unfold half_exp. cbn [fst snd].
    pose (B := Biv (if fst (fst k) then m else 0) (if snd (fst k) then m else 0) (if snd k then m else 0) : BiVector R).
    apply (is_cexp_ceq (den TBiv B) _ (den TSpin (mkSpin (Sca (cos m)) (scale TBiv (sinc m) B)))).
    - unfold exactly. change (mapv (fun v : f64 => b2r v) TBiv (Biv a b c)) with (Biv (b2r a) (b2r b) (b2r c)). rewrite Ha, Hb, Hc. unfold B.
      clear. destruct k as [[[] []] []]; intros i; dblade i; cbv -[Rplus Rminus Rmult Ropp Rinv R R0 R1 IZR]; field.
    - unfold B, plane_rotor. rewrite <- (sinc_mul m). generalize (sinc m). clear. intros u.
      destruct k as [[[] []] []]; intros i; dblade i; cbv -[cos Rplus Rminus Rmult Ropp Rinv R R0 R1 IZR]; ring.
    - apply plane_exp. unfold B. destruct Hk as [->|[->| ->]]; cbn; ring. }
  apply Forall_cons; [|apply Forall_cons; [|apply Forall_cons; [|apply Forall_nil]]]; (split;
    [cbn [fst]; unfold frame_angle; cbn [elems]; repeat (apply Forall_cons; [assumption|]); apply Forall_nil|apply P; cbn [fst snd]; rewrite ?Vz, ?Vo, ?Vq; first [lra|auto]]).
Qed.
Lemma case_valid : let s := @attitude_of f64 _ rounded_lib roll_case elev_case azim_case in
  valid_number (sca_0 (spinSca s)) /\ valid_number (biv_0 (spinBiv s)) /\ bpow radix2 (-22) <= cnorm (exactly TBiv (spinBiv s)).
Proof.
  intros s. destruct case_angles as (Er & Ee & Ea & H & -> & -> & ->).
  destruct library_all as (T & _). assert (He : bpow radix2 (-50) <= / 4096) by (change (/ 4096) with (bpow radix2 (-12)); apply bpow_le; lia).
  inversion H as [|? ? [Fr Hr] H1]; subst. inversion H1 as [|? ? [Fe Hee] H2]; subst. inversion H2 as [|? ? [Fa Ha] _]; subst. cbn [fst] in *.
  destruct (readme_accurate rounded_lib _ T ltac:(lra) _ _ _ _ _ _ Fr Fe Fa Hr Hee Ha) as ((F & _ & A) & _). fold s in F, A.
  assert (D : forall b, frame_angle b -> frame_error (bpow radix2 (-50)) b <= / 1000).
  { intros b Fb. pose proof (angle_norm b Fb) as N. unfold frame_error. change unit_roundoff with u53. pose proof u53_pos.
    assert (8 * u53 * cnorm (exactly TBiv b) <= 8 * u53 * bpow radix2 32) by (apply Rmult_le_compat_l; lra).
    assert (56 * u53 + 8 * u53 * bpow radix2 32 <= / 100000) by (rewrite u53_val; change (bpow radix2 32) with (IZR 4294967296); lra). lra. }
  pose proof (D _ Fr) as Dr. pose proof (D _ Fe) as De. pose proof (D _ Fa) as Da. clear D H H1 H2 Hr Hee Ha Fr Fe Fa T He.
  set (r := plane_rotor (false, true, false) (/ 2)) in *. set (e := plane_rotor (true, false, false) (/ 2)) in *. set (a := plane_rotor (false, false, true) (/ 32)) in *.
  assert (Q : ceq (gp (gp (den TSpin r) (den TSpin e)) (den TSpin a)) (den TSpin (mul TSpin TSpin (mul TSpin TSpin r e) a))).
  { rewrite <- (mul_den TSpin TSpin r e). symmetry. apply (mul_den TSpin TSpin). }
  assert (C : forall k, Rabs (exactly TSpin s k - den TSpin (mul TSpin TSpin (mul TSpin TSpin r e) a) k) <= / 100).
  { intros k. rewrite <- (Q k). eapply Rle_trans; [apply (comp_le_norm (csub (exactly TSpin s) (gp (gp (den TSpin r) (den TSpin e)) (den TSpin a))) k)|].
    eapply Rle_trans; [exact A|]. lra. }
  clear A Q Dr De Da. pose proof (C bS) as C0. pose proof (C bE23) as C1. clear C.
  pose proof (cos_low (/ 2)) as c2. pose proof (cos_low (/ 32)) as c3. pose proof (sin_low (/ 2) ltac:(lra)) as s2. pose proof (sin_low (/ 32) ltac:(lra)) as s3.
  pose proof (COS_bound (/ 2)) as b2. pose proof (COS_bound (/ 32)) as b3.
  assert (X0 : den TSpin (mul TSpin TSpin (mul TSpin TSpin r e) a) bS = cos (/ 2) * cos (/ 2) * cos (/ 32) - sin (/ 2) * sin (/ 2) * sin (/ 32))
    by (unfold r, e, a, plane_rotor; generalize (cos (/ 2)) (sin (/ 2)) (cos (/ 32)) (sin (/ 32)); intros; cbv -[Rplus Rminus Rmult Ropp R R0 R1 IZR]; ring).
  assert (X1 : den TSpin (mul TSpin TSpin (mul TSpin TSpin r e) a) bE23 = cos (/ 2) * sin (/ 2) * (cos (/ 32) - sin (/ 32)))
    by (unfold r, e, a, plane_rotor; generalize (cos (/ 2)) (sin (/ 2)) (cos (/ 32)) (sin (/ 32)); intros; cbv -[Rplus Rminus Rmult Ropp R R0 R1 IZR]; ring).
  rewrite X0 in C0. rewrite X1 in C1. clear X0 X1 r e a.
  assert (L0 : / 2 <= exactly TSpin s bS).
  { apply Rabs_le_inv in C0. assert (7 / 8 * (7 / 8) * (9 / 10) <= cos (/ 2) * cos (/ 2) * cos (/ 32)) by (repeat apply Rmult_le_compat; lra).
    assert (sin (/ 2) * sin (/ 2) * sin (/ 32) <= / 2 * / 2 * / 32) by (repeat apply Rmult_le_compat; try apply Rmult_le_pos; lra). lra. }
  assert (L1 : / 8 <= exactly TSpin s bE23).
  { apply Rabs_le_inv in C1. assert (7 / 8 * (4 / 10) * (9 / 10) <= cos (/ 2) * sin (/ 2) * (cos (/ 32) - sin (/ 32))) by (repeat apply Rmult_le_compat; lra). lra. }
  clear - F L0 L1. generalize dependent s. intros [[[x]] [[u v w]]] F L0 L1.
  inversion F as [|? ? Fx F1]; subst. inversion F1 as [|? ? Fu _]; subst.
  change (exactly TSpin (mkSpin (Sca x) (Biv u v w)) bS) with (b2r x) in L0. change (exactly TSpin (mkSpin (Sca x) (Biv u v w)) bE23) with (b2r u) in L1.
  assert (V : forall c, fin c = true -> / 8 <= b2r c -> valid_number c).
  { intros c Fc Lc. split; [exact Fc|right]. rewrite Rabs_pos_eq by lra. eapply Rle_trans; [|exact Lc]. change (/ 8) with (bpow radix2 (-3)). apply bpow_le. lia. }
  split; [apply V; [exact Fx|apply Rle_trans with (/ 2); [lra|exact L0]]|]. split; [apply V; assumption|].
  eapply Rle_trans; [|apply (comp_le_norm (exactly TBiv (Biv u v w)) bE23)]. change (exactly TBiv (Biv u v w) bE23) with (b2r u).
  eapply Rle_trans; [|apply Rle_abs]. eapply Rle_trans; [|exact L1]. change (/ 8) with (bpow radix2 (-3)). apply bpow_le. lia.
Qed.

Lemma frame_case : trig_within (bpow radix2 (-50)) rounded_lib /\ log_within (bpow radix2 (-50)) rounded_lib /\ atan2_within (bpow radix2 (-50)) rounded_lib /\
  bpow radix2 (-50) <= / 8192 /\ bpow radix2 (-50) <= / 32 /\
  (exists Er Ee Ea, let x := (roll_case, Er) in let l := [(elev_case, Ee); (azim_case, Ea)] in
    Forall (fun y => frame_angle (fst y) /\ half_exp y) (x :: l) /\
    total (fun y => frame_error (bpow radix2 (-50)) (fst y)) (x :: l) <= / 3) /\
  within 1000 TVec (Vec (f64_lit 100 0) (f64_lit 200 0) (f64_lit 300 0)).
Proof.
  destruct library_all as (T & _ & Tl & Ta). split; [exact T|]. split; [exact Tl|]. split; [exact Ta|].
  assert (He : bpow radix2 (-50) <= / 8192) by (change (/ 8192) with (bpow radix2 (-13)); apply bpow_le; lia).
  split; [exact He|]. split; [lra|]. split.
  - destruct case_angles as (Er & Ee & Ea & H & _). exists Er, Ee, Ea. split; [exact H|].
    inversion H as [|? ? [Fr _] H1]; subst. inversion H1 as [|? ? [Fe _] H2]; subst. inversion H2 as [|? ? [Fa _] _]; subst. cbn [fst] in *.
    pose proof (angle_small (bpow radix2 (-50)) ltac:(lra) _ Fr). pose proof (angle_small (bpow radix2 (-50)) ltac:(lra) _ Fe).
    pose proof (angle_small (bpow radix2 (-50)) ltac:(lra) _ Fa). cbn [total fold_right fst]. lra.
  - assert (V : forall m, (Z.abs m <= 1024)%Z -> is_finite (f64_lit m 0) = true /\ Rabs (B2R (f64_lit m 0)) <= bpow radix2 1000).
    { intros m Hm. destruct (lit_of m 0 ltac:(lia) ltac:(lia)) as [F B]. split; [exact F|]. rewrite B. change (bpow radix2 0) with 1. rewrite Rmult_1_r, <- abs_IZR.
      apply Rle_trans with (IZR 1024); [apply IZR_le; exact Hm|]. change (IZR 1024) with (bpow radix2 10). apply bpow_le. lia. }
    unfold within. cbn [elems]. repeat apply Forall_cons; try apply Forall_nil; apply V; lia.
Qed.
