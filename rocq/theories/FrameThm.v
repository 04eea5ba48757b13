(** * Into the frame of a body: theorems on doubles. *)

Require Import Reals ZArith List Bool Lra Lia.
From Flocq Require Import Core BinarySingleNaN.
Require Import Verif.Num Verif.Types Verif.Priv Verif.OpsUni Verif.OpsAdd Verif.OpsSub
  Verif.OpsMul Verif.Const Verif.Validity Verif.Func Verif.SpecCl Verif.RealInst Verif.AlgTac Verif.AlgMul Verif.AlgFacts Verif.SpecFunc
  Verif.FuncFacts Verif.SpecExp Verif.ExpFacts Verif.ExpThm Verif.Rel Verif.B64 Verif.B64Facts Verif.SpecValid
  Verif.SpecRound Verif.ErrFacts Verif.SpecAcc Verif.BoundFacts Verif.AccFacts Verif.NormFacts Verif.ExpAcc Verif.LogAcc Verif.RootAcc Verif.RotAcc
  Verif.SpecLoop Verif.LoopFacts Verif.SpecFrame Verif.FrameFacts.
Require Verif.AcceptFacts Verif.AngleFacts Verif.ScaleFacts.
Import ListNotations.
Local Open Scope R_scope.

(** ** Turning with a nearby rotor *)
Lemma turned_near : forall s E d (e : Z) t (v : val f64 t), all_finite TSpin s -> spinly E -> cnorm E = 1 ->
  cnorm (csub (exactly TSpin s) E) <= d -> d <= / 2 -> (-1076 <= e <= 1013)%Z -> within e t v ->
  let V := exactly t v in
  all_finite _ (turned s t v) /\
  cnorm (csub (exactly _ (turned s t v)) (gp (gp E V) (crev E))) <= (120 * u53 + 5 / 2 * d) * cnorm V + 68 * eta.
Proof.
  intros s E d e t v Fs [q Hq] NE A Ld Re W V. unfold turned. set (r := mul _ TSpin (mul TSpin t s v) (reverse TSpin s)).
  set (S := exactly TSpin s) in *. pose proof u53_pos as PU. pose proof eta_pos as PE.
  pose proof (norm_diff S E) as U. apply Rabs_le_inv in U. rewrite NE in U.
  destruct (spin_within s 2 Fs) as [W1 W2]; [change (bpow radix2 2) with 4; fold S; lra|].
  assert (Fr : all_finite _ r).
  { assert (W3 : within (2 + e + 3) _ (mul TSpin t s v)) by (apply mul_within; [lia|lia|exact W1|exact W]).
    assert (W4 : within (2 + e + 3 + 2 + 3) _ r) by (apply mul_within; [lia|lia|exact W3|exact W2]).
    unfold within in W4. unfold all_finite. eapply Forall_impl; [|exact W4]. intros x Hx. apply Hx. }
  split; [exact Fr|].
  pose proof (sandwich_error s t v Fr) as SE. cbv zeta in SE. fold r V S in SE.
  pose proof (sandwich_lip (mapv (fun v : f64 => b2r v) TSpin s) q V) as SL. cbv zeta in SL.
  change (den TSpin (mapv (fun v : f64 => b2r v) TSpin s)) with S in SL.
  assert (Hr : ceq (crev (den TSpin q)) (crev E)) by (intros k; unfold crev; rewrite <- (Hq k); reflexivity).
  assert (G : ceq (gp (gp (den TSpin q) V) (crev (den TSpin q))) (gp (gp E V) (crev E))).
  { apply gp_ceq; [|exact Hr]. apply gp_ceq; [intros k; symmetry; apply Hq|intros k; reflexivity]. }
  rewrite <- (cnorm_ceq _ _ Hq), NE in SL.
  rewrite (cnorm_ceq (csub S (den TSpin q)) (csub S E)) in SL by (intros k; unfold csub; rewrite (Hq k); reflexivity).
  rewrite (cnorm_ceq (csub (gp (gp S V) (crev S)) (gp (gp (den TSpin q) V) (crev (den TSpin q))))
     (csub (gp (gp S V) (crev S)) (gp (gp E V) (crev E)))) in SL by (intros k; unfold csub; rewrite (G k); reflexivity).
  pose proof (cnorm_nonneg V) as PV. pose proof (cnorm_nonneg S) as PS. pose proof (cnorm_nonneg (csub S E)) as PD.
  eapply Rle_trans; [apply (norm_sub_le _ (gp (gp S V) (crev S)))|]. rewrite <- cnorm_sq in SE.
  assert (Q1 : cnorm S * cnorm S <= 9 / 4).
  { apply Rle_trans with (3 / 2 * (3 / 2)); [apply Rmult_le_compat; lra|lra]. }
  assert (Q2 : 53 * u53 * (cnorm S * cnorm S * cnorm V) <= 120 * u53 * cnorm V).
  { replace (53 * u53 * (cnorm S * cnorm S * cnorm V)) with (53 * (cnorm S * cnorm S) * (u53 * cnorm V)) by ring.
    replace (120 * u53 * cnorm V) with (120 * (u53 * cnorm V)) by ring. apply Rmult_le_compat_r; [apply Rmult_le_pos; lra|lra]. }
  assert (Q3 : 27 * eta * (1 + cnorm S) <= 68 * eta).
  { replace (27 * eta * (1 + cnorm S)) with (27 * (1 + cnorm S) * eta) by ring. apply Rmult_le_compat_r; lra. }
  assert (Q4 : cnorm (csub S E) * cnorm V * (cnorm S + 1) <= d * cnorm V * (5 / 2)).
  { apply Rmult_le_compat; [apply Rmult_le_pos; assumption|lra|apply Rmult_le_compat_r; assumption|lra]. }
  replace ((120 * u53 + 5 / 2 * d) * cnorm V + 68 * eta) with (120 * u53 * cnorm V + 68 * eta + d * cnorm V * (5 / 2)) by field.
  eapply Rle_trans; [apply Rplus_le_compat; [exact SE|exact SL]|]. lra.
Qed.
Lemma norm_mono : forall a b c, 0 <= c -> (forall k, Rabs (a k) <= c * Rabs (b k)) -> cnorm a <= c * cnorm b.
Proof.
  intros a b c Pc H. unfold cnorm. replace (c * sqrt (cnorm2 b)) with (sqrt (c * c * cnorm2 b)).
  2:{ rewrite sqrt_mult_alt by (apply Rmult_le_pos; exact Pc). rewrite sqrt_square by exact Pc. reflexivity. }
  apply sqrt_le_1_alt.
  assert (K : forall k, a k * a k <= c * c * (b k * b k)).
  { intros k. replace (a k * a k) with (Rabs (a k) * Rabs (a k)) by (rewrite <- Rabs_mult; apply Rabs_pos_eq; exact (Rle_0_sqr _)).
    replace (c * c * (b k * b k)) with ((c * Rabs (b k)) * (c * Rabs (b k))).
    2:{ replace (b k * b k) with (Rabs (b k) * Rabs (b k)) by (rewrite <- Rabs_mult; apply Rabs_pos_eq; exact (Rle_0_sqr _)). ring. }
    apply Rmult_le_compat; try apply Rabs_pos; apply H. }
  unfold cnorm2. 
  pose proof (K bS). pose proof (K bE1). pose proof (K bE2). pose proof (K bE3). pose proof (K bE12). pose proof (K bE13). pose proof (K bE23). pose proof (K bE123).
  cbn -[Rplus Rmult]. lra.
Qed.
(** ** The difference of two points *)
Lemma diff_comp : forall x y : f64, fin (Bminus mode_NE x y) = true ->
  Rabs (b2r (Bminus mode_NE x y) - (b2r x - b2r y)) <= u53 * Rabs (b2r x - b2r y).
Proof.
  intros x y F. destruct (bminus_fin x y F) as (_ & _ & ->). pose proof (err_plus x (Bopp y)) as K.
  rewrite B2R_Bopp in K. exact K.
Qed.
Lemma diff_near : forall x y : Vector f64, all_finite TVec (sub TVec TVec x y) ->
  cnorm (csub (exactly TVec (sub TVec TVec x y)) (csub (exactly TVec x) (exactly TVec y))) <= u53 * cnorm (csub (exactly TVec x) (exactly TVec y)).
Proof.
  intros [[x0 x1 x2]] [[y0 y1 y2]] F. apply norm_mono; [apply Rlt_le, u53_pos|].
  assert (E : sub TVec TVec (Vec x0 x1 x2) (Vec y0 y1 y2) = Vec (Bminus mode_NE x0 y0) (Bminus mode_NE x1 y1) (Bminus mode_NE x2 y2)) by reflexivity.
  assert (F' : fin (Bminus mode_NE x0 y0) = true /\ fin (Bminus mode_NE x1 y1) = true /\ fin (Bminus mode_NE x2 y2) = true).
  { inversion F as [|? ? ? F1]; subst. inversion F1 as [|? ? ? F2]; subst. inversion F2; subst. auto. }
  destruct F' as (F0 & F1 & F2). pose proof (diff_comp x0 y0 F0) as K0. pose proof (diff_comp x1 y1 F1) as K1. pose proof (diff_comp x2 y2 F2) as K2.
  clear F F0 F1 F2.
  assert (Z : Rabs (0 - (0 - 0)) <= u53 * Rabs (0 - 0)) by (rewrite !Rminus_0_r, Rabs_R0; lra).
  assert (Z' : Rabs (- 0 - (- 0 - - 0)) <= u53 * Rabs (- 0 - - 0)) by (rewrite !Ropp_0; exact Z).
  intros k. unfold csub.
  dblade k; first [exact Z | exact Z' | exact K0 | exact K1 | exact K2].
Qed.

(** ** Vector parts *)
Lemma spin_vec_tri : forall E V, spinly E -> (exists w : Vector R, ceq V (den TVec w)) ->
  gp (gp E V) (crev E) bE123 = 0.
Proof.
  intros E V [q Hq] [w Hw].
  assert (Hr : ceq (crev E) (crev (den TSpin q))) by (intros k; unfold crev; rewrite (Hq k); reflexivity).
  rewrite (gp_ceq (gp E V) (gp (den TSpin q) (den TVec w)) (crev E) (crev (den TSpin q)) (gp_ceq _ _ _ _ Hq Hw) Hr bE123).
  clear. dvals. dring.
Qed.
Lemma vec_part : forall (r : ImSpin f64) Z, Z bE123 = 0 ->
  cnorm (csub (exactly TVec (imspVec r)) Z) <= cnorm (csub (exactly TImsp r) Z).
Proof.
  intros [[[x y z]] [[t]]] Z H. rewrite <- (Rmult_1_l (cnorm (csub (exactly TImsp _) Z))). apply norm_mono; [lra|].
  intros k. rewrite Rmult_1_l. unfold csub. dblade k; try (right; reflexivity). unfold bE123 in H. rewrite H.
  change (Rabs (0 - 0) <= Rabs (b2r t - 0)). rewrite Rminus_0_r, Rabs_R0. apply Rabs_pos.
Qed.
Lemma vec_sub_real : forall x y : Vector f64, exists w : Vector R, ceq (csub (exactly TVec x) (exactly TVec y)) (den TVec w).
Proof.
  intros [[x0 x1 x2]] [[y0 y1 y2]]. exists (Vec (b2r x0 - b2r y0) (b2r x1 - b2r y1) (b2r x2 - b2r y2)).
  intros k. unfold csub, exactly. dblade k; cbv -[B2R Rplus Rminus Rmult Ropp R0 IZR]; ring.
Qed.
Lemma turn_norm : forall E V, spinly E -> cnorm E = 1 -> cnorm (gp (gp E V) (crev E)) = cnorm V.
Proof.
  intros E V SE NE. destruct SE as [q Hq].
  assert (Hr : ceq (crev E) (crev (den TSpin q))) by (intros k; unfold crev; rewrite (Hq k); reflexivity).
  assert (N2 : cnorm (den TSpin q) = 1) by (rewrite <- (cnorm_ceq _ _ Hq); exact NE).
  rewrite (cnorm_ceq _ (gp (gp (den TSpin q) V) (crev (den TSpin q)))).
  2:{ apply gp_ceq; [|exact Hr]. apply gp_ceq; [exact Hq|intros k; reflexivity]. }
  rewrite (norm_gp_r _ _ (crev_spin q)), cnorm_crev, N2, (norm_gp_l (den TSpin q) V) by (apply unmixed_rev; reflexivity). rewrite N2. ring.
Qed.
Lemma turn_sub : forall E V W, ceq (gp (gp E (csub V W)) (crev E)) (csub (gp (gp E V) (crev E)) (gp (gp E W) (crev E))).
Proof.
  intros E V W k. rewrite (gp_ceq (gp E (csub V W)) (csub (gp E V) (gp E W)) (crev E) (crev E) (gp_sub_r V W E) (fun _ => eq_refl) k).
  apply gp_sub_l.
Qed.
(** ** Positions *)
Section Frame.
Context (s : Spinor f64) (E : clf) (d : R).
Context (Fs : all_finite TSpin s) (SE : spinly E) (NE : cnorm E = 1) (Hd : cnorm (csub (exactly TSpin s) E) <= d) (Ld : d <= / 2).
Lemma d_pos : 0 <= d.
Proof. eapply Rle_trans; [apply cnorm_nonneg|exact Hd]. Qed.
Lemma position_near : forall loc pos : Vector f64, within 1012 TVec loc -> within 1012 TVec pos ->
  let W := csub (exactly TVec pos) (exactly TVec loc) in
  all_finite TImsp (into_frame s loc pos) /\
  cnorm (csub (exactly TImsp (into_frame s loc pos)) (gp (gp E W) (crev E))) <= (122 * u53 + 8 / 3 * d) * cnorm W + 68 * eta.
Proof.
  intros loc pos Hl Hp W. pose proof (sub_within 1012 TVec TVec pos loc ltac:(lia) Hp Hl) as Hs.
  change (within 1013 TVec (sub TVec TVec pos loc)) in Hs. unfold into_frame. set (v := sub TVec TVec pos loc) in *.
  assert (Fv : all_finite TVec v) by (unfold within in Hs; unfold all_finite; eapply Forall_impl; [|exact Hs]; intros x Hx; apply Hx).
  pose proof (diff_near pos loc Fv) as DN. change (sub TVec TVec pos loc) with v in DN. fold W in DN.
  destruct (turned_near s E d 1013 TVec v Fs SE NE Hd Ld ltac:(lia) Hs) as [Ft T].
  split; [exact Ft|]. set (V := exactly TVec v) in *.
  eapply Rle_trans; [apply (norm_sub_le _ (gp (gp E V) (crev E)))|].
  assert (K : cnorm (csub (gp (gp E V) (crev E)) (gp (gp E W) (crev E))) <= u53 * cnorm W).
  { rewrite <- (cnorm_ceq _ _ (turn_sub E V W)), (turn_norm _ _ SE NE). exact DN. }
  pose proof (norm_diff V W) as ND. apply Rabs_le_inv in ND. pose proof (cnorm_nonneg W) as PW. pose proof d_pos as Pd. pose proof u53_pos as PU.
  assert (U1 : u53 <= / 1000) by (rewrite u53_val; lra).
  assert (Q : (120 * u53 + 5 / 2 * d) * cnorm V <= (120 * u53 + 5 / 2 * d) * ((1 + u53) * cnorm W)).
  { apply Rmult_le_compat_l; [lra|]. lra. }
  assert (Q2 : (120 * u53 + 5 / 2 * d) * (1 + u53) <= 121 * u53 + 8 / 3 * d) by nra.
  assert (Q3 : (120 * u53 + 5 / 2 * d) * ((1 + u53) * cnorm W) <= (121 * u53 + 8 / 3 * d) * cnorm W).
  { rewrite <- Rmult_assoc. apply Rmult_le_compat_r; assumption. }
  eapply Rle_trans; [apply Rplus_le_compat; [exact T|exact K]|]. lra.
Qed.
End Frame.

(** ** There and back *)
Lemma turned_within : forall s (e : Z) t (v : val f64 t), all_finite TSpin s -> cnorm (exactly TSpin s) <= 4 -> (-1076 <= e <= 1013)%Z -> within e t v ->
  within (e + 10) _ (turned s t v).
Proof.
  intros s e t v Fs N Re W. destruct (spin_within s 2 Fs) as [W1 W2]; [change (bpow radix2 2) with 4; exact N|].
  assert (W3 : within (2 + e + 3) _ (mul TSpin t s v)) by (apply mul_within; [lia|lia|exact W1|exact W]).
  replace (e + 10)%Z with (2 + e + 3 + 2 + 3)%Z by lia. apply mul_within; [lia|lia|exact W3|exact W2].
Qed.
Lemma turn_back : forall E W, spinly E -> cnorm E = 1 -> ceq (gp (gp (crev E) (gp (gp E W) (crev E))) (crev (crev E))) W.
Proof.
  intros E W SE NE. destruct (spinly_rev E SE) as [R1 R2].
  assert (N : cnorm2 E = 1) by (rewrite <- cnorm_sq, NE; ring).
  assert (O : ceq (gp (crev E) E) cone) by (intros k; rewrite (R1 k); unfold cscale; rewrite N; ring).
  transitivity (gp (gp (gp (crev E) E) W) (gp (crev E) E)).
  - transitivity (gp (gp (gp (gp (crev E) E) W) (crev E)) E).
    + apply gp_ceq; [|apply crev_crev]. 
      transitivity (gp (gp (crev E) (gp E W)) (crev E)); [intros k; symmetry; apply gp_assoc|].
      apply gp_ceq; [|reflexivity]. intros k. symmetry. apply gp_assoc.
    + intros k. apply gp_assoc.
  - transitivity (gp (gp cone W) cone); [apply gp_ceq; [apply gp_ceq; [exact O|reflexivity]|exact O]|].
    rewrite gp_one_r. apply gp_one_l.
Qed.
Lemma add_comp : forall x y : f64, fin (Bplus mode_NE x y) = true ->
  Rabs (b2r (Bplus mode_NE x y) - (b2r x + b2r y)) <= u53 * Rabs (b2r x + b2r y).
Proof. intros x y F. destruct (bplus_fin x y F) as (_ & _ & ->). apply err_plus. Qed.
Lemma sum_near : forall x y : Vector f64, all_finite TVec (add TVec TVec x y) ->
  cnorm (csub (exactly TVec (add TVec TVec x y)) (cadd (exactly TVec x) (exactly TVec y))) <= u53 * cnorm (cadd (exactly TVec x) (exactly TVec y)).
Proof.
  intros [[x0 x1 x2]] [[y0 y1 y2]] F. apply norm_mono; [apply Rlt_le, u53_pos|].
  assert (F' : fin (Bplus mode_NE x0 y0) = true /\ fin (Bplus mode_NE x1 y1) = true /\ fin (Bplus mode_NE x2 y2) = true).
  { inversion F as [|? ? ? F1]; subst. inversion F1 as [|? ? ? F2]; subst. inversion F2; subst. auto. }
  destruct F' as (F0 & F1 & F2). pose proof (add_comp x0 y0 F0) as K0. pose proof (add_comp x1 y1 F1) as K1. pose proof (add_comp x2 y2 F2) as K2.
  clear F F0 F1 F2.
  assert (Z : Rabs (0 - (0 + 0)) <= u53 * Rabs (0 + 0)) by (rewrite Rplus_0_r, Rminus_0_r, Rabs_R0; lra).
  assert (Z' : Rabs (- 0 - (- 0 + - 0)) <= u53 * Rabs (- 0 + - 0)) by (rewrite !Ropp_0; exact Z).
  intros k. unfold csub, cadd. dblade k; first [exact Z | exact Z' | exact K0 | exact K1 | exact K2].
Qed.
Section Back.
Context (s : Spinor f64) (E : clf) (d : R).
Context (Fs : all_finite TSpin s) (SE : spinly E) (NE : cnorm E = 1) (Hd : cnorm (csub (exactly TSpin s) E) <= d) (Ld : d <= / 2).
Lemma reverse_near : all_finite TSpin (reverse TSpin s) /\ spinly (crev E) /\ cnorm (crev E) = 1 /\
  cnorm (csub (exactly TSpin (reverse TSpin s)) (crev E)) <= d.
Proof.
  split; [|split; [|split]].
  - destruct s as [[[a]] [[x y z]]]. unfold all_finite in Fs. inversion Fs as [|? ? Fa F1]; subst. inversion F1 as [|? ? Fx F2]; subst.
    inversion F2 as [|? ? Fy F3]; subst. inversion F3 as [|? ? Fz _]; subst.
    assert (O : forall v : f64, fin v = true -> fin (Bopp v) = true) by (intros v Fv; rewrite is_finite_Bopp; exact Fv).
    exact (Forall_cons _ Fa (Forall_cons _ (O _ Fx) (Forall_cons _ (O _ Fy) (Forall_cons _ (O _ Fz) (Forall_nil _))))).
  - destruct SE as [q Hq]. exists (reverse TSpin q). intros k. transitivity (crev (den TSpin q) k).
    + unfold crev. rewrite (Hq k). reflexivity.
    + clear. destruct q as [[[a]] [[x y z]]]. dblade k; dring.
  - rewrite cnorm_crev. exact NE.
  - rewrite (cnorm_ceq _ (crev (csub (exactly TSpin s) E))); [rewrite cnorm_crev; exact Hd|].
    intros k. unfold csub at 1. rewrite (reverse_exactly TSpin s k). unfold crev, csub. dblade k; cbn -[Rplus Rminus exactly]; ring.
Qed.
Lemma round_near : forall loc pos : Vector f64, within 1000 TVec loc -> within 1000 TVec pos ->
  let W := csub (exactly TVec pos) (exactly TVec loc) in
  let r := out_of_frame s loc (imspVec (into_frame s loc pos)) in
  all_finite TVec r /\
  cnorm (csub (exactly TVec r) (exactly TVec pos)) <= (450 * u53 + 9 * d) * cnorm W + u53 * cnorm (exactly TVec pos) + 250 * eta.
Proof.
  intros loc pos Hl Hp W r. pose proof u53_pos as PU. pose proof eta_pos as PE. pose proof (d_pos s E d Hd) as Pd.
  assert (N4 : cnorm (exactly TSpin s) <= 4).
  { pose proof (norm_diff (exactly TSpin s) E) as U. apply Rabs_le_inv in U. rewrite NE in U. lra. }
  assert (up : forall e f t (v : val f64 t), (e <= f)%Z -> within e t v -> within f t v).
  { intros e f t v Hef H. unfold within in *. eapply Forall_impl; [|exact H]. intros x [A B]. split; [exact A|].
    eapply Rle_trans; [exact B|]. apply bpow_le. exact Hef. }
  destruct (position_near s E d Fs SE NE Hd Ld loc pos (up 1000%Z 1012%Z _ _ ltac:(lia) Hl) (up 1000%Z 1012%Z _ _ ltac:(lia) Hp)) as [F1 A1]. fold W in A1.
  pose proof (sub_within 1000 TVec TVec pos loc ltac:(lia) Hp Hl) as Hs. change (within 1001 TVec (sub TVec TVec pos loc)) in Hs.
  pose proof (turned_within s 1001 TVec _ Fs N4 ltac:(lia) Hs) as Wt. change (within 1011 TImsp (into_frame s loc pos)) in Wt.
  set (y := into_frame s loc pos) in *. clearbody y. 
  assert (VP : forall (e : Z) (i : ImSpin f64), within e TImsp i -> within e TVec (imspVec i)).
  { intros e [[[x1 x2 x3]] [[t]]] H. unfold within in *. inversion H as [|? ? H1 G1]; subst. inversion G1 as [|? ? H2 G2]; subst. inversion G2 as [|? ? H3 G3]; subst.
    exact (Forall_cons _ H1 (Forall_cons _ H2 (Forall_cons _ H3 (Forall_nil _)))). }
  pose proof (VP _ _ Wt) as Wy.
  pose proof (vec_part y _ (spin_vec_tri E W SE (vec_sub_real pos loc))) as A2.
  set (Z := gp (gp E W) (crev E)) in *. set (Y := exactly TVec (imspVec y)) in *.
  destruct reverse_near as (Fr & Sr & Nr & Hr).
  destruct (turned_near (reverse TSpin s) (crev E) d 1011 TVec (imspVec y) Fr Sr Nr Hr Ld ltac:(lia) Wy) as [F3 A3]. fold Y in A3.
  assert (N4r : cnorm (exactly TSpin (reverse TSpin s)) <= 4).
  { pose proof (norm_diff (exactly TSpin (reverse TSpin s)) (crev E)) as U. apply Rabs_le_inv in U. rewrite Nr in U. lra. }
  pose proof (turned_within (reverse TSpin s) 1011 TVec _ Fr N4r ltac:(lia) Wy) as Wb. change (within 1021 TImsp (turned (reverse TSpin s) TVec (imspVec y))) in Wb.
  unfold out_of_frame in r.
  set (b := turned (reverse TSpin s) TVec (imspVec y) : ImSpin f64) in *.
  change (cnorm (csub (exactly TImsp b) (gp (gp (crev E) Y) (crev (crev E)))) <= (120 * u53 + 5 / 2 * d) * cnorm Y + 68 * eta) in A3.
  clearbody b.
  pose proof (VP _ _ Wb) as Wbv.
  pose proof (add_within 1021 TVec TVec (imspVec b) loc ltac:(lia) Wbv (up 1000%Z 1021%Z TVec loc ltac:(lia) Hl)) as Wr.
  change (within 1022 TVec r) in Wr.
  assert (Frr : all_finite TVec r) by (unfold within in Wr; unfold all_finite; eapply Forall_impl; [|exact Wr]; intros x Hx; apply Hx).
  split; [exact Frr|].
  pose proof (sum_near (imspVec b) loc Frr) as A5. change (add TVec TVec (imspVec b) loc) with r in A5.
  assert (YV : exists w : Vector R, ceq Y (den TVec w)) by (exists (mapv (fun v : f64 => b2r v) TVec (imspVec y)); intros k; reflexivity).
  pose proof (vec_part b _ (spin_vec_tri (crev E) Y Sr YV)) as A4.
  set (B := exactly TVec (imspVec b)) in *.
  assert (A6 : cnorm (csub (gp (gp (crev E) Y) (crev (crev E))) W) = cnorm (csub Y Z)).
  { rewrite <- (turn_norm (crev E) (csub Y Z) Sr Nr). apply cnorm_ceq. intros k. rewrite (turn_sub (crev E) Y Z k). unfold csub. f_equal.
    symmetry. apply (turn_back E W SE NE). }
  pose proof (cnorm_nonneg W) as PW. pose proof (cnorm_nonneg (exactly TVec pos)) as PP.
  assert (U1 : u53 <= / 1000) by (rewrite u53_val; lra).
  set (w := cnorm W) in *. set (bound := (122 * u53 + 8 / 3 * d) * w + 68 * eta) in *.
  assert (NY : cnorm Y <= w + bound).
  { pose proof (norm_diff Y Z) as K. apply Rabs_le_inv in K. assert (NZ : cnorm Z = w) by exact (turn_norm E W SE NE). pose proof (Rle_trans _ _ _ A2 A1). lra. }
  assert (A7 : cnorm (csub B W) <= (120 * u53 + 5 / 2 * d) * (w + bound) + 68 * eta + bound).
  { eapply Rle_trans; [apply (norm_sub_le _ (gp (gp (crev E) Y) (crev (crev E))))|]. rewrite A6.
    assert ((120 * u53 + 5 / 2 * d) * cnorm Y <= (120 * u53 + 5 / 2 * d) * (w + bound)) by (apply Rmult_le_compat_l; lra). lra. }
  set (X := exactly TVec pos) in *. set (Lc := exactly TVec loc) in *.
  assert (A8 : cnorm (csub (cadd B Lc) X) = cnorm (csub B W)) by (apply cnorm_ceq; intros k; unfold csub, cadd, W, csub; ring).
  assert (A9 : cnorm (cadd B Lc) <= cnorm X + cnorm (csub B W)).
  { pose proof (norm_diff (cadd B Lc) X) as K. apply Rabs_le_inv in K. rewrite A8 in K. lra. }
  eapply Rle_trans; [apply (norm_sub_le _ (cadd B Lc))|]. rewrite A8.
  assert (A10 : u53 * cnorm (cadd B Lc) <= u53 * (cnorm X + cnorm (csub B W))) by (apply Rmult_le_compat_l; lra).
  assert (A11 : (120 * u53 + 5 / 2 * d) * (w + bound) + 68 * eta + bound <= (420 * u53 + 89 / 10 * d) * w + 240 * eta).
  { assert (c1 : 120 * u53 + 5 / 2 * d <= 11 / 8) by lra. assert (c0 : 0 <= 120 * u53 + 5 / 2 * d) by lra.
    assert (c2 : 0 <= bound) by (unfold bound; assert (0 <= (122 * u53 + 8 / 3 * d) * w) by (apply Rmult_le_pos; lra); lra).
    assert ((120 * u53 + 5 / 2 * d) * bound <= 11 / 8 * bound) by (apply Rmult_le_compat_r; assumption).
    unfold bound in *. assert (0 <= u53 * w) by (apply Rmult_le_pos; lra). assert (0 <= d * w) by (apply Rmult_le_pos; lra). lra. }
  assert (A12 : (1 + u53) * ((420 * u53 + 89 / 10 * d) * w + 240 * eta) <= (450 * u53 + 9 * d) * w + 250 * eta).
  { assert (0 <= u53 * w) by (apply Rmult_le_pos; lra). assert (0 <= d * w) by (apply Rmult_le_pos; lra).
    set (q := (420 * u53 + 89 / 10 * d) * w + 240 * eta). assert (0 <= q) by (unfold q; lra).
    assert (u53 * q <= / 1000 * q) by (apply Rmult_le_compat_r; assumption). unfold q in *. lra. }
  assert (A13 : (1 + u53) * cnorm (csub B W) <= (1 + u53) * ((420 * u53 + 89 / 10 * d) * w + 240 * eta)) by (apply Rmult_le_compat_l; lra).
  lra.
Qed.
End Back.
(** ** From angles *)
Section Angles.
Context (L : Libm f64) (eps : R) (T : trig_within eps L) (He : eps <= / 32).
Context (x : BiVector f64 * clf) (l : list (BiVector f64 * clf)).
Context (Hx : Forall (fun y => frame_angle (fst y) /\ half_exp y) (x :: l)).
Let tt := total (fun y => frame_error eps (fst y)) (x :: l).
Context (Ht : tt <= / 3).
Let s := computed_attitude (fst x) (map fst l).
Let E := fold_left gp (map snd l) (snd x).
Lemma angles_near : medium s /\ spinly E /\ cnorm E = 1 /\ cnorm (csub (exactly TSpin s) E) <= 3 / 2 * tt.
Proof.
  inversion Hx as [|? ? [Fx Ex] Hl]; subst. destruct (rotor_near L eps T He (fst x) (snd x) Fx Ex) as (M & SE & NE & A).
  pose proof (frame_error_is eps (fst x)) as FE. pose proof u53_pos as PU.
  assert (P : 0 <= rotor_error eps (fst x)) by (eapply Rle_trans; [apply cnorm_nonneg|exact A]).
  assert (Q : tt = frame_error eps (fst x) + total (fun y => frame_error eps (fst y)) l) by reflexivity.
  destruct (product_near L eps T He l (half_angle_rotor (fst x)) (snd x) (3 / 2 * frame_error eps (fst x)) Hl M SE NE) as (B1 & B2 & B3 & B4); [lra|lra|].
  split; [exact B1|]. split; [exact B2|]. split; [exact B3|]. eapply Rle_trans; [exact B4|]. lra.
Qed.
Lemma attitude_accurate : all_finite TSpin s /\ cnorm E = 1 /\ cnorm (csub (exactly TSpin s) E) <= 3 / 2 * tt.
Proof. destruct angles_near as ([F _] & _ & N & A). split; [exact F|]. split; [exact N|exact A]. Qed.
Lemma turned_accurate : forall (e : Z) t (v : val f64 t), (-1076 <= e <= 1013)%Z -> within e t v -> let V := exactly t v in
  all_finite _ (turned s t v) /\
  cnorm (csub (exactly _ (turned s t v)) (gp (gp E V) (crev E))) <= (120 * unit_roundoff + 4 * tt) * cnorm V + 68 * underflow_unit.
Proof.
  intros e t v Re W V. destruct angles_near as ([F _] & SE & N & A).
  destruct (turned_near s E (3 / 2 * tt) e t v F SE N A ltac:(lra) Re W) as [F1 A1]. split; [exact F1|].
  eapply Rle_trans; [exact A1|]. change unit_roundoff with u53. change underflow_unit with eta. apply Rplus_le_compat_r, Rmult_le_compat_r; [apply cnorm_nonneg|].
  assert (0 <= 3 / 2 * tt) by (eapply Rle_trans; [apply cnorm_nonneg|exact A]). lra.
Qed.
Lemma position_accurate : forall loc pos : Vector f64, within 1012 TVec loc -> within 1012 TVec pos ->
  let W := csub (exactly TVec pos) (exactly TVec loc) in
  all_finite TImsp (into_frame s loc pos) /\
  cnorm (csub (exactly TImsp (into_frame s loc pos)) (gp (gp E W) (crev E))) <= (122 * unit_roundoff + 4 * tt) * cnorm W + 68 * underflow_unit.
Proof.
  intros loc pos Hl Hp W. destruct angles_near as ([F _] & SE & N & A).
  destruct (position_near s E (3 / 2 * tt) F SE N A ltac:(lra) loc pos Hl Hp) as [F1 A1]. split; [exact F1|].
  eapply Rle_trans; [exact A1|]. change unit_roundoff with u53. change underflow_unit with eta. fold W. apply Req_le. f_equal. f_equal. field.
Qed.
Lemma round_accurate : forall loc pos : Vector f64, within 1000 TVec loc -> within 1000 TVec pos ->
  let W := csub (exactly TVec pos) (exactly TVec loc) in
  let r := out_of_frame s loc (imspVec (into_frame s loc pos)) in
  all_finite TVec r /\
  cnorm (csub (exactly TVec r) (exactly TVec pos)) <=
    (450 * unit_roundoff + 14 * tt) * cnorm W + unit_roundoff * cnorm (exactly TVec pos) + 250 * underflow_unit.
Proof.
  intros loc pos Hl Hp W r. destruct angles_near as ([F _] & SE & N & A).
  destruct (round_near s E (3 / 2 * tt) F SE N A ltac:(lra) loc pos Hl Hp) as [F1 A1]. split; [exact F1|].
  eapply Rle_trans; [exact A1|]. change unit_roundoff with u53. change underflow_unit with eta. fold W. do 2 apply Rplus_le_compat_r.
  apply Rmult_le_compat_r; [apply cnorm_nonneg|]. assert (0 <= 3 / 2 * tt) by (eapply Rle_trans; [apply cnorm_nonneg|exact A]). lra.
Qed.
(** The attitude as one angle. *)
Lemma double_comp : forall c : f64, fin c = true -> Rabs (b2r c) <= 4 ->
  fin (Bmult mode_NE (f64_lit 1 1) c) = true /\ b2r (Bmult mode_NE (f64_lit 1 1) c) = 2 * b2r c.
Proof.
  intros c F H. destruct (AcceptFacts.lit_val53 1 1) as [F2 E2]; [reflexivity|lia|].
  assert (V2 : b2r (f64_lit 1 1) = 2) by (etransitivity; [exact E2|change (bpow radix2 1) with 2; ring]).
  assert (Q : rnd64 (b2r (f64_lit 1 1) * b2r c) = 2 * b2r c).
  { rewrite V2. apply round_generic; [apply valid_rnd_N|]. change 2 with (bpow radix2 1). apply ScaleFacts.fmt_up; [lia|apply generic_format_B2R]. }
  destruct (bmult_ok (f64_lit 1 1) c F2 F) as [A B].
  - rewrite Q, Rabs_mult, (Rabs_pos_eq 2) by lra. apply Rle_lt_trans with 8; [lra|]. change 8 with (bpow radix2 3). apply bpow_lt. lia.
  - split; [exact A|]. rewrite B. exact Q.
Qed.
Lemma double_angle : forall b : BiVector f64, all_finite TBiv b -> cnorm (exactly TBiv b) <= 4 ->
  let a := mul TDub TBiv (nlit 1 1 : f64) b in all_finite TBiv a /\ ceq (cscale (/ 2) (exactly TBiv a)) (exactly TBiv b).
Proof.
  intros b F N.
  assert (C : forall k, Rabs (exactly TBiv b k) <= 4) by (intros k; eapply Rle_trans; [apply comp_le_norm|exact N]).
  destruct b as [[u v w]]. inversion F as [|? ? Fu F1]; subst. inversion F1 as [|? ? Fv F2]; subst. inversion F2 as [|? ? Fw _]; subst.
  assert (Cu : Rabs (b2r u) <= 4) by exact (C bE23). assert (Cw : Rabs (b2r w) <= 4) by exact (C bE12).
  assert (Cv : Rabs (b2r v) <= 4) by (first [exact (C bE13) | rewrite <- Rabs_Ropp; exact (C bE13)]).
  destruct (double_comp u Fu Cu) as [Gu Eu]. destruct (double_comp v Fv Cv) as [Gv Ev]. destruct (double_comp w Fw Cw) as [Gw Ew].
  intros a.
  assert (Ha : a = Biv (Bmult mode_NE (f64_lit 1 1) u) (Bmult mode_NE (f64_lit 1 1) v) (Bmult mode_NE (f64_lit 1 1) w)) by reflexivity.
  rewrite Ha. clear a Ha. revert Gu Eu Gv Ev Gw Ew.
  generalize (Bmult mode_NE (f64_lit 1 1) u) (Bmult mode_NE (f64_lit 1 1) v) (Bmult mode_NE (f64_lit 1 1) w).
  intros u' v' w' Gu Eu Gv Ev Gw Ew. split; [repeat constructor; assumption|].
  intros k. unfold exactly, cscale. dblade k; cbn; rewrite ?Eu, ?Ev, ?Ew; try field.
Qed.
Lemma e23_plane : all_finite TBiv (c_e23 : BiVector f64) /\ bpow radix2 (-480) <= cnorm (exactly TBiv (c_e23 : BiVector f64)) <= bpow radix2 480.
Proof.
  destruct one_ok as [F O]. assert (N : cnorm (exactly TBiv (c_e23 : BiVector f64)) = 1).
  { unfold cnorm. transitivity (sqrt 1); [f_equal|apply sqrt_1]. 
    transitivity (b2r (none_ : f64) * b2r (none_ : f64)); [|rewrite O; ring].
    generalize O. clear. intros _. change (c_e23 : BiVector f64) with (Biv (none_ : f64) (B754_zero false) (B754_zero false)).
    generalize (none_ : f64). intros c. unfold cnorm2, exactly. cbn -[Rplus Rmult]. ring. }
  split; [repeat constructor; exact F|]. rewrite N. change 1 with (bpow radix2 0). split; apply bpow_le; lia.
Qed.
Lemma angle3D_accurate : forall G, log_within eps L -> atan2_within eps L -> eps <= / 8192 ->
  valid_number (sca_0 (spinSca s)) -> valid_number (biv_0 (spinBiv s)) ->
  is_cexp (cscale (/ 2) (exactly TBiv (angle3D s))) G ->
  all_finite TBiv (angle3D s) /\
  cnorm (csub G E) <= 12 * eps + 3 * tt + bpow radix2 (-21) /\
  (bpow radix2 (-22) <= cnorm (exactly TBiv (spinBiv s)) -> cnorm (csub G E) <= 12 * eps + 3 * tt + 256 * unit_roundoff).
Proof.
  intros G TL TA He' Vs Vb HG. destruct angles_near as ([F R] & SE & NE & A). pose proof (within_pos L eps T) as P0.
  set (S := exactly TSpin s) in *. set (N := cnorm S) in *.
  pose proof (norm_diff S E) as U. rewrite NE in U. fold N in U. pose proof (Rle_trans _ _ _ U A) as U'. apply Rabs_le_inv in U'.
  assert (D : log_domain s).
  { split; [exact F|]. split; [|split; assumption]. fold S. fold N. split.
    - apply Rle_trans with (bpow radix2 (-1)); [apply bpow_le; lia|change (bpow radix2 (-1)) with (/ 2); lra].
    - apply Rle_trans with (bpow radix2 2); [change (bpow radix2 2) with 4; lra|apply bpow_le; lia]. }
  destruct e23_plane as [Fp Np]. destruct (cexp_exists (exactly TSpin (logG2 s c_e23))) as [Q HQ].
  destruct (log_accurate eps TL TA He' s c_e23 Q D Fp Np HQ) as (F1 & A1 & A2 & A3 & A4). fold S in A1, A3, A4. fold N in A1, A3, A4.
  unfold angle3D in *. set (g := logG2 s c_e23) in *. change unit_roundoff with u53 in *.
  assert (Fb : all_finite TBiv (spinBiv g)).
  { clear -F1. clearbody g. destruct g as [[[a]] [[u v w]]]. unfold all_finite in *. inversion F1; subst; assumption. }
  assert (Nb : cnorm (exactly TBiv (spinBiv g)) <= 4).
  { pose proof PI_upper. pose proof u53_val. lra. }
  destruct (double_angle (spinBiv g) Fb Nb) as [Fa Ea].
  split; [exact Fa|].
  assert (HG' : is_cexp (exactly TBiv (spinBiv g)) G) by (apply (is_cexp_ceq (cscale (/ 2) (exactly TBiv (mul TDub TBiv (nlit 1 1 : f64) (spinBiv g)))) _ G); [exact Ea|reflexivity|exact HG]).
  assert (NG : cnorm G = 1) by exact (cexp_biv_norm _ _ HG').
  assert (QG : exists r, 0 < r /\ ceq Q (cscale r G)).
  { exists (exp (b2r (sca_0 (spinSca g)))). split; [apply exp_pos|]. clear -HQ HG'. clearbody g. destruct g as [[[a]] b]. exact (cexp_spin a b Q G HQ HG'). }
  destruct QG as (r & Pr & QG).
  assert (NQ : cnorm Q = r) by (rewrite (cnorm_ceq _ _ QG), cnorm_scale, NG, Rabs_pos_eq by lra; ring).
  assert (PN : / 2 <= N) by lra.
  pose proof (unit_lip Q S ltac:(rewrite NQ; exact Pr) ltac:(fold N; lra)) as K. fold N in K.
  assert (K1 : cnorm (csub (unit_of Q) (unit_of S)) = cnorm (csub G (unit_of S))).
  { apply cnorm_ceq. intros k. unfold csub. f_equal. unfold unit_of, cscale. rewrite NQ, (QG k). unfold cscale. field. lra. }
  rewrite K1 in K. pose proof (unit_off S ltac:(fold N; lra)) as K2. fold N in K2.
  assert (GE : cnorm (csub G E) <= 2 * (cnorm (csub Q S) / N) + 3 * tt).
  { eapply Rle_trans; [apply (norm_sub_le _ (unit_of S))|]. pose proof (norm_sub_le (unit_of S) S E). lra. }
  assert (LN : Rabs (ln N) <= 1).
  { destruct (Rle_or_lt N 1) as [h|h].
    - pose proof (AngleFacts.ln_one N ltac:(rewrite Rabs_left1; lra)) as K3. rewrite (Rabs_left1 (N - 1)) in K3 by lra. lra.
    - pose proof (AngleFacts.ln_one N ltac:(rewrite Rabs_pos_eq; lra)) as K3. rewrite (Rabs_pos_eq (N - 1)) in K3 by lra. lra. }
  pose proof u53_pos as PU.
  assert (GEN : forall q, cnorm (csub Q S) <= N * (eps * (4 + 2 * Rabs (ln N)) + q) -> cnorm (csub G E) <= 12 * eps + 3 * tt + 2 * q).
  { intros q Hq. eapply Rle_trans; [exact GE|].
    assert (H1 : cnorm (csub Q S) / N <= eps * (4 + 2 * Rabs (ln N)) + q).
    { apply Rmult_le_reg_l with N; [lra|]. replace (N * (cnorm (csub Q S) / N)) with (cnorm (csub Q S)) by (field; lra). exact Hq. }
    assert (eps * (4 + 2 * Rabs (ln N)) <= eps * 6) by (apply Rmult_le_compat_l; lra). lra. }
  split.
  - eapply Rle_trans; [apply (GEN _ A3)|]. change (bpow radix2 (-21)) with (/ 2097152). change (bpow radix2 (-22)) with (/ 4194304). lra.
  - intros h. eapply Rle_trans; [apply (GEN (128 * u53)); apply A4|lra].
    eapply Rle_trans; [|exact h]. replace (bpow radix2 (-22)) with (bpow radix2 (-23) * 2) by (change 2 with (bpow radix2 1); rewrite <- bpow_plus; reflexivity).
    apply Rmult_le_compat_l; [apply bpow_ge_0|lra].
Qed.
End Angles.
