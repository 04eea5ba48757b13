(** * A loop that multiplies and normalises: proofs. *)

Require Import Reals ZArith List Bool Lra Lia.
From Flocq Require Import Core BinarySingleNaN.
Require Import Verif.Num Verif.Types Verif.Priv Verif.OpsUni Verif.OpsAdd Verif.OpsSub
  Verif.OpsMul Verif.Const Verif.Validity Verif.Func Verif.SpecCl Verif.RealInst Verif.AlgTac Verif.AlgMul Verif.AlgFacts Verif.SpecFunc
  Verif.FuncFacts Verif.SpecExp Verif.ExpFacts Verif.ExpThm Verif.Rel Verif.B64 Verif.B64Facts Verif.SpecValid
  Verif.SpecRound Verif.ErrFacts Verif.SpecAcc Verif.BoundFacts Verif.AccFacts Verif.NormFacts Verif.ExpAcc Verif.LogAcc Verif.RootAcc Verif.RotAcc
  Verif.SpecLoop.
Require Verif.AcceptFacts Verif.AccThm.
Import ListNotations.
Local Open Scope R_scope.

Lemma unit_norm : forall a, 0 < cnorm a -> cnorm (unit_of a) = 1.
Proof. intros a H. unfold unit_of. rewrite cnorm_scale, Rabs_pos_eq by (left; apply Rinv_0_lt_compat; exact H). field. lra. Qed.
Lemma norm_sub_sym : forall a b, cnorm (csub a b) = cnorm (csub b a).
Proof. intros a b. rewrite <- cnorm_cabs, <- (cnorm_cabs (csub b a)). apply cnorm_ceq. intros k. unfold cabs, csub. apply Rabs_minus_sym. Qed.
Lemma norm_diff : forall a b, Rabs (cnorm a - cnorm b) <= cnorm (csub a b).
Proof.
  intros a b. pose proof (norm_le_sub a b) as A. pose proof (norm_le_sub b a) as B. rewrite norm_sub_sym in B. apply Rabs_le. lra.
Qed.
Lemma unit_off : forall a, 0 < cnorm a -> cnorm (csub (unit_of a) a) = Rabs (cnorm a - 1).
Proof.
  intros a H. rewrite (cnorm_ceq _ (cscale (/ cnorm a - 1) a)).
  2:{ intros k. unfold csub, unit_of, cscale. ring. }
  rewrite cnorm_scale. rewrite <- (Rabs_pos_eq (cnorm a)) at 2 by lra. rewrite <- Rabs_mult, Rabs_minus_sym. f_equal. field. lra.
Qed.
Lemma unit_lip : forall a b, 0 < cnorm a -> 0 < cnorm b -> cnorm (csub (unit_of a) (unit_of b)) <= 2 * (cnorm (csub a b) / cnorm b).
Proof.
  intros a b Ha Hb. assert (P : 0 <= / cnorm b) by (left; apply Rinv_0_lt_compat; exact Hb).
  eapply Rle_trans; [apply (norm_sub_le _ (cscale (/ cnorm b) a))|].
  assert (A : cnorm (csub (unit_of a) (cscale (/ cnorm b) a)) <= cnorm (csub a b) / cnorm b).
  { rewrite (cnorm_ceq _ (cscale (/ cnorm a - / cnorm b) a)) by (intros k; unfold csub, unit_of, cscale; ring).
    rewrite cnorm_scale. rewrite <- (Rabs_pos_eq (cnorm a)) at 2 by lra. rewrite <- Rabs_mult.
    replace ((/ cnorm a - / cnorm b) * cnorm a) with ((cnorm b - cnorm a) * / cnorm b) by (field; lra).
    rewrite Rabs_mult, (Rabs_pos_eq (/ cnorm b)) by exact P. apply Rmult_le_compat_r; [exact P|].
    rewrite Rabs_minus_sym. apply norm_diff. }
  assert (B : cnorm (csub (cscale (/ cnorm b) a) (unit_of b)) = cnorm (csub a b) / cnorm b).
  { rewrite (cnorm_ceq _ (cscale (/ cnorm b) (csub a b))) by (intros k; unfold csub, unit_of, cscale; ring).
    rewrite cnorm_scale, (Rabs_pos_eq _ P). unfold Rdiv. ring. }
  lra.
Qed.
Lemma unit_gp : forall a b, rev_scalar b -> ceq (unit_of (gp a b)) (gp (unit_of a) (unit_of b)).
Proof.
  intros a b H. unfold unit_of. rewrite (norm_gp_r _ _ H), gp_scale_l, gp_scale_r. intros k. unfold cscale.
  rewrite Rinv_mult. ring.
Qed.
Definition spinly (a : clf) : Prop := exists e : Spinor R, ceq a (den TSpin e).
Lemma spinly_rev : forall a, spinly a -> rev_scalar a.
Proof.
  intros a [e H]. destruct (unmixed_rev TSpin e eq_refl) as [A B]. split.
  - rewrite (cnorm2_ceq _ _ H), <- A. apply gp_ceq; [|exact H]. intros k. unfold crev. rewrite (H k). reflexivity.
  - rewrite (cnorm2_ceq _ _ H), <- B. apply gp_ceq; [exact H|]. intros k. unfold crev. rewrite (H k). reflexivity.
Qed.
Lemma spinly_exactly : forall s : Spinor f64, spinly (exactly TSpin s).
Proof. intros s. exists (mapv (fun v : f64 => b2r v) TSpin s). intros k. reflexivity. Qed.
Lemma spinly_gp : forall a b, spinly a -> spinly b -> spinly (gp a b).
Proof.
  intros a b [e H] [f G]. exists (mul TSpin TSpin e f). intros k. transitivity (gp (den TSpin e) (den TSpin f) k); [apply gp_ceq; assumption|symmetry; apply (mul_den TSpin TSpin e f k)].
Qed.
Lemma spinly_scale : forall r a, spinly a -> spinly (cscale r a).
Proof.
  intros r a [[[[s]] [[x y z]]] H]. exists (mkSpin (Sca (r * s)) (Biv (r * x) (r * y) (r * z))).
  intros k. unfold cscale. rewrite (H k). dblade k; cbv -[Rplus Rmult Ropp R0 IZR]; ring.
Qed.
Lemma spinly_ceq : forall a b, ceq a b -> spinly b -> spinly a.
Proof. intros a b H [e G]. exists e. rewrite H. exact G. Qed.

(** ** One step *)
Section Step.
Context (p q : Spinor f64).
Let P := exactly TSpin p.
Let Q := exactly TSpin q.
Let r := mul TSpin TSpin p q.
Context (Mp : medium p) (Mq : medium q).
Lemma medium_pos : 0 < cnorm P /\ 0 < cnorm Q.
Proof. split; (eapply Rlt_le_trans; [apply (bpow_gt_0 radix2 (-200))|]); [apply Mp|apply Mq]. Qed.
Lemma step_finite : all_finite TSpin r.
Proof.
  destruct Mp as [Fp [_ Hp]]. destruct Mq as [Fq [_ Hq]].
  destruct (spin_within p 200 Fp Hp) as [Wp _]. destruct (spin_within q 200 Fq Hq) as [Wq _].
  assert (W : within (200 + 200 + 3) TSpin r) by (apply (mul_within 200 200 TSpin TSpin); [lia|lia|exact Wp|exact Wq]).
  unfold within in W. unfold all_finite. eapply Forall_impl; [|exact W]. intros x Hx. apply Hx.
Qed.
Lemma step_product : cnorm (csub (exactly TSpin r) (gp P Q)) <= 27 * u53 * (cnorm P * cnorm Q).
Proof.
  pose proof (mul_norm_error TSpin TSpin p q step_finite) as E. fold P Q r in E. change (mulTy TSpin TSpin) with TSpin in E.
  destruct Mp as [_ [Lp _]]. destruct Mq as [_ [Lq _]]. fold P in Lp. fold Q in Lq.
  assert (L4 : bpow radix2 (-400) <= cnorm P * cnorm Q).
  { replace (bpow radix2 (-400)) with (bpow radix2 (-200) * bpow radix2 (-200)) by (rewrite <- bpow_plus; reflexivity).
    apply Rmult_le_compat; try apply bpow_ge_0; assumption. }
  assert (S : 26 * eta <= u53 * (cnorm P * cnorm Q)).
  { apply Rle_trans with (u53 * bpow radix2 (-400)); [|apply Rmult_le_compat_l; [apply Rlt_le, u53_pos|exact L4]].
    apply Rle_trans with (bpow radix2 5 * eta); [apply Rmult_le_compat_r; [apply Rlt_le, eta_pos|change (bpow radix2 5) with 32; lra]|].
    change u53 with (bpow radix2 (-53)). change eta with (bpow radix2 (-1075)). rewrite <- !bpow_plus. apply bpow_le. lia. }
  lra.
Qed.
Lemma step_range : bpow radix2 (-480) <= cnorm (exactly TSpin r) <= bpow radix2 480.
Proof.
  pose proof step_product as E. pose proof (norm_diff (exactly TSpin r) (gp P Q)) as D. apply Rabs_le_inv in D.
  rewrite (norm_gp_r P Q) in D by (apply spinly_rev, spinly_exactly).
  destruct Mp as [_ [Lp Up]]. destruct Mq as [_ [Lq Uq]]. fold P in Lp, Up. fold Q in Lq, Uq.
  assert (L4 : bpow radix2 (-400) <= cnorm P * cnorm Q).
  { replace (bpow radix2 (-400)) with (bpow radix2 (-200) * bpow radix2 (-200)) by (rewrite <- bpow_plus; reflexivity).
    apply Rmult_le_compat; try apply bpow_ge_0; assumption. }
  assert (U4 : cnorm P * cnorm Q <= bpow radix2 400).
  { replace (bpow radix2 400) with (bpow radix2 200 * bpow radix2 200) by (rewrite <- bpow_plus; reflexivity).
    apply Rmult_le_compat; try assumption; apply cnorm_nonneg. }
  set (N := cnorm P * cnorm Q) in *. assert (N0 : 0 < N) by (eapply Rlt_le_trans; [apply bpow_gt_0|exact L4]).
  assert (U1 : 27 * u53 * N <= / 2 * N) by (apply Rmult_le_compat_r; [lra|rewrite u53_val; lra]).
  split.
  - apply Rle_trans with (/ 2 * N); [|lra]. apply Rle_trans with (/ 2 * bpow radix2 (-400)); [|apply Rmult_le_compat_l; lra].
    replace (/ 2) with (bpow radix2 (-1)) by reflexivity. rewrite <- bpow_plus. apply bpow_le. lia.
  - apply Rle_trans with (2 * N); [lra|]. apply Rle_trans with (2 * bpow radix2 400); [apply Rmult_le_compat_l; lra|].
    replace 2 with (bpow radix2 1) by reflexivity. rewrite <- bpow_plus. apply bpow_le. lia.
Qed.
Let d := direction TSpin r.
Lemma step_unit : all_finite TSpin d /\ Rabs (cnorm (exactly TSpin d) - 1) <= 15 * u53.
Proof.
  split; [apply (direction_accurate TSpin r step_finite step_range)|apply direction_unit; [exact step_finite|exact step_range]].
Qed.
Lemma step_medium : medium d.
Proof.
  destruct step_unit as [F D]. split; [exact F|]. apply Rabs_le_inv in D. assert (U : 15 * u53 <= / 2) by (rewrite u53_val; lra).
  split.
  - apply Rle_trans with (bpow radix2 (-1)); [apply bpow_le; lia|change (bpow radix2 (-1)) with (/ 2); lra].
  - apply Rle_trans with (bpow radix2 1); [change (bpow radix2 1) with 2; lra|apply bpow_le; lia].
Qed.
Lemma step_direction : cnorm (csub (unit_of (exactly TSpin d)) (gp (unit_of P) (unit_of Q))) <= 84 * u53.
Proof.
  destruct medium_pos as [PP PQ]. pose proof step_unit as [F D]. pose proof u53_pos as U0.
  assert (RQ : rev_scalar Q) by (apply spinly_rev, spinly_exactly).
  assert (N : cnorm (gp P Q) = cnorm P * cnorm Q) by (apply norm_gp_r, RQ).
  assert (NP : 0 < cnorm P * cnorm Q) by (apply Rmult_lt_0_compat; assumption).
  assert (PR : 0 < cnorm (exactly TSpin r)) by (eapply Rlt_le_trans; [apply bpow_gt_0|apply step_range]).
  assert (PD : 0 < cnorm (exactly TSpin d)).
  { apply Rabs_le_inv in D. assert (U : 15 * u53 <= / 2) by (rewrite u53_val; lra). lra. }
  rewrite (cnorm_ceq _ (csub (unit_of (exactly TSpin d)) (unit_of (gp P Q)))).
  2:{ intros k. unfold csub. rewrite (unit_gp P Q RQ k). reflexivity. }
  eapply Rle_trans; [apply (norm_sub_le _ (unit_of (exactly TSpin r)))|].
  assert (A : cnorm (csub (unit_of (exactly TSpin r)) (unit_of (gp P Q))) <= 54 * u53).
  { eapply Rle_trans; [apply unit_lip; [exact PR|rewrite N; exact NP]|]. rewrite N.
    assert (cnorm (csub (exactly TSpin r) (gp P Q)) / (cnorm P * cnorm Q) <= 27 * u53).
    { apply Rmult_le_reg_r with (cnorm P * cnorm Q); [exact NP|]. unfold Rdiv. rewrite Rmult_assoc, Rinv_l, Rmult_1_r by lra.
      exact step_product. }
    lra. }
  assert (B : cnorm (csub (unit_of (exactly TSpin d)) (unit_of (exactly TSpin r))) <= 30 * u53).
  { eapply Rle_trans; [apply (norm_sub_le _ (exactly TSpin d))|]. rewrite (unit_off _ PD).
    pose proof (direction_norm TSpin r step_finite step_range) as DN. fold d in DN. cbv zeta in DN. fold (unit_of (exactly TSpin r)) in DN.
    pose proof (small_eta 0 ltac:(lia)) as Se. change (bpow radix2 0) with 1 in Se. lra. }
  lra.
Qed.
End Step.

(** ** The loop *)
Lemma loop_unit : forall l s, medium s -> Forall medium l ->
  medium (renormalised s l) /\ (l <> [] -> Rabs (cnorm (exactly TSpin (renormalised s l)) - 1) <= 15 * u53).
Proof.
  unfold renormalised. intros l. induction l as [|q l IH] using rev_ind; intros s Ms Ml; [split; [exact Ms|congruence]|].
  apply Forall_app in Ml. destruct Ml as [Ml Mq]. inversion Mq as [|? ? Mq' _]; subst.
  rewrite fold_left_app. cbn [fold_left]. destruct (IH s Ms Ml) as [Mp _].
  split; [apply step_medium; assumption|]. intros _. apply (step_unit _ _ Mp Mq').
Qed.
Definition off (x : Spinor f64 * clf) : R := cnorm (csub (unit_of (exactly TSpin (fst x))) (snd x)).
Definition target (x : Spinor f64 * clf) : Prop := medium (fst x) /\ spinly (snd x) /\ cnorm (snd x) = 1.
Lemma loop_off : forall l s E, medium s -> spinly E -> cnorm E = 1 -> Forall target l ->
  cnorm (csub (unit_of (exactly TSpin (renormalised s (map fst l)))) (fold_left gp (map snd l) E)) <=
    cnorm (csub (unit_of (exactly TSpin s)) E) + total (fun x => 84 * u53 + off x) l.
Proof.
  unfold renormalised. intros l. induction l as [|[q D] l IH]; intros s E Ms SE NE Hl; [cbn [map fold_left total fold_right]; lra|].
  inversion Hl as [|? ? (Mq & SD & ND) Hl']; subst. cbn [fst snd] in *.
  cbn [map fst snd fold_left total fold_right].
  eapply Rle_trans; [apply IH; [apply step_medium; assumption|apply spinly_gp; assumption| |exact Hl']|].
  { rewrite (norm_gp_r E D) by (apply spinly_rev, SD). rewrite NE, ND. ring. }
  fold (total (fun x => 84 * u53 + off x) l).
  assert (K : cnorm (csub (unit_of (exactly TSpin (direction TSpin (mul TSpin TSpin s q)))) (gp E D)) <=
    cnorm (csub (unit_of (exactly TSpin s)) E) + (84 * u53 + off (q, D))); [|lra].
  eapply Rle_trans; [apply (norm_sub_le _ (gp (unit_of (exactly TSpin s)) (unit_of (exactly TSpin q))))|].
  pose proof (step_direction s q Ms Mq) as K1.
  set (P := unit_of (exactly TSpin s)) in *. set (Q := unit_of (exactly TSpin q)) in *.
  assert (SQ : spinly Q) by apply spinly_scale, spinly_exactly.
  assert (NQ : cnorm Q = 1) by (apply unit_norm; eapply Rlt_le_trans; [apply (bpow_gt_0 radix2 (-200))|apply Mq]).
  assert (K2 : cnorm (csub (gp P Q) (gp E D)) <= cnorm (csub P E) + off (q, D)); [|lra].
  eapply Rle_trans; [apply (norm_sub_le _ (gp E Q))|]. apply Rplus_le_compat; right.
  - rewrite <- (cnorm_ceq _ _ (gp_sub_l P E Q)), (norm_gp_r _ Q), NQ by (apply spinly_rev, SQ). ring.
  - rewrite <- (cnorm_ceq _ _ (gp_sub_r Q D E)), (norm_gp_l E), NE by (apply spinly_rev, SE). unfold off. cbn [fst snd]. fold Q. ring.
Qed.
Lemma total_const : forall (A : Type) c (l : list A), total (fun _ => c) l = INR (length l) * c.
Proof. intros A c l. induction l as [|a l IH]; [cbn; ring|]. cbn [total fold_right length]. fold (total (fun _ : A => c) l). rewrite IH, S_INR. ring. Qed.
Lemma total_le : forall (A : Type) f g (l : list A), Forall (fun a => f a <= g a) l -> total f l <= total g l.
Proof.
  intros A f g l H. induction H as [|a l Ha Hl IH]; [right; reflexivity|]. cbn [total fold_right]. fold (total f l) (total g l). lra.
Qed.
Lemma unit_fold : forall l E, spinly E -> ceq (unit_of (fold_left gp (map (exactly TSpin) l) E))
  (fold_left gp (map (fun q => unit_of (exactly TSpin q)) l) (unit_of E)).
Proof.
  intros l. induction l as [|q l IH] using rev_ind; intros E SE; [intros k; reflexivity|].
  rewrite !map_app, !fold_left_app. cbn [map fold_left]. intros k.
  rewrite (unit_gp _ _ (spinly_rev _ (spinly_exactly q)) k). apply gp_ceq; [apply IH, SE|intros j; reflexivity].
Qed.
Lemma final_off : forall r F b, 0 < cnorm (exactly TSpin r) -> Rabs (cnorm (exactly TSpin r) - 1) <= 15 * u53 ->
  cnorm (csub (unit_of (exactly TSpin r)) F) <= b -> cnorm (csub (exactly TSpin r) F) <= 15 * u53 + b.
Proof.
  intros r F b P U H. eapply Rle_trans; [apply (norm_sub_le _ (unit_of (exactly TSpin r)))|].
  rewrite norm_sub_sym, (unit_off _ P). lra.
Qed.
Lemma medium_norm : forall s, medium s -> 0 < cnorm (exactly TSpin s).
Proof. intros s H. eapply Rlt_le_trans; [apply (bpow_gt_0 radix2 (-200))|apply H]. Qed.
Lemma zero_off : forall a, cnorm (csub a a) = 0.
Proof. intros a. unfold cnorm. replace (cnorm2 _) with 0; [apply sqrt_0|]. unfold cnorm2, csub, all_blades, rsum. cbn [map fold_right]. ring. Qed.
(** Against the exact product, normalised once at the end. *)
Lemma loop_exact : forall s l, medium s -> Forall medium l -> l <> [] ->
  cnorm (csub (exactly TSpin (renormalised s l)) (unit_of (exact_product s l))) <= (15 + 84 * INR (length l)) * u53.
Proof.
  intros s l Ms Ml Hl. destruct (loop_unit l s Ms Ml) as [Mr U].
  replace ((15 + 84 * INR (length l)) * u53) with (15 * u53 + INR (length l) * (84 * u53)) by ring.
  apply final_off; [apply medium_norm, Mr|apply U, Hl|].
  set (l' := map (fun q : Spinor f64 => (q, unit_of (exactly TSpin q))) l).
  pose proof (loop_off l' s (unit_of (exactly TSpin s)) Ms) as H.
  replace (map fst l') with l in H by (unfold l'; rewrite map_map; cbn [fst]; symmetry; apply map_id).
  rewrite (cnorm_ceq _ (csub (unit_of (exactly TSpin (renormalised s l))) (fold_left gp (map snd l') (unit_of (exactly TSpin s))))).
  2:{ intros k. unfold csub. unfold exact_product. rewrite (unit_fold l _ (spinly_exactly s) k). unfold l'. rewrite map_map. cbn [snd]. reflexivity. }
  eapply Rle_trans; [apply H|].
  - apply spinly_scale, spinly_exactly.
  - apply unit_norm, medium_norm, Ms.
  - unfold l'. apply Forall_map. eapply Forall_impl; [|exact Ml]. intros q Mq. unfold target. cbn [fst snd].
    split; [exact Mq|]. split; [apply spinly_scale, spinly_exactly|apply unit_norm, medium_norm, Mq].
  - rewrite zero_off, Rplus_0_l. replace (length l) with (length l') by (unfold l'; apply map_length). rewrite <- total_const.
    apply total_le. unfold l'. apply Forall_map. apply Forall_forall. intros q _. unfold off. cbn [fst snd]. rewrite zero_off. lra.
Qed.
(** Against given rotors. *)
Lemma loop_rotors : forall s (e : Spinor R) (l : list (Spinor f64 * Spinor R)), medium s -> cnorm (den TSpin e) = 1 ->
  Forall (fun x => medium (fst x) /\ cnorm (den TSpin (snd x)) = 1) l -> l <> [] ->
  cnorm (csub (exactly TSpin (renormalised s (map fst l))) (fold_left gp (map (fun x => den TSpin (snd x)) l) (den TSpin e))) <=
    15 * u53 + (2 * cnorm (csub (exactly TSpin s) (den TSpin e)) +
      total (fun x => 84 * u53 + 2 * cnorm (csub (exactly TSpin (fst x)) (den TSpin (snd x)))) l).
Proof.
  intros s e l Ms Ne Hl Nl.
  assert (Ml : Forall medium (map fst l)) by (apply Forall_map; eapply Forall_impl; [|exact Hl]; intros x Hx; apply Hx).
  assert (Nm : map fst l <> []) by (intros K; apply map_eq_nil in K; congruence).
  destruct (loop_unit (map fst l) s Ms Ml) as [Mr U]. apply final_off; [apply medium_norm, Mr|apply U, Nm|].
  assert (UL : forall q (d : Spinor R), medium q -> cnorm (den TSpin d) = 1 ->
    cnorm (csub (unit_of (exactly TSpin q)) (den TSpin d)) <= 2 * cnorm (csub (exactly TSpin q) (den TSpin d))).
  { intros q d Mq Nd. pose proof (unit_lip (exactly TSpin q) (den TSpin d) (medium_norm q Mq) ltac:(lra)) as K.
    rewrite Nd in K. unfold Rdiv in K. rewrite Rinv_1, Rmult_1_r in K.
    rewrite (cnorm_ceq _ (csub (unit_of (exactly TSpin q)) (unit_of (den TSpin d)))); [exact K|].
    intros k. unfold csub. f_equal. unfold unit_of, cscale. rewrite Nd. field. }
  set (l' := map (fun x : Spinor f64 * Spinor R => (fst x, den TSpin (snd x))) l).
  pose proof (loop_off l' s (den TSpin e) Ms) as H.
  replace (map fst l') with (map fst l) in H by (unfold l'; rewrite map_map; reflexivity).
  replace (map snd l') with (map (fun x => den TSpin (snd x)) l) in H by (unfold l'; rewrite map_map; reflexivity).
  eapply Rle_trans; [apply H|].
  - exists e. intros k. reflexivity.
  - exact Ne.
  - unfold l'. apply Forall_map. eapply Forall_impl; [|exact Hl]. intros x [Mq Nq]. unfold target. cbn [fst snd].
    split; [exact Mq|]. split; [exists (snd x); intros k; reflexivity|exact Nq].
  - apply Rplus_le_compat; [apply UL; assumption|]. unfold l'. clear -Hl UL. induction Hl as [|x l [Mq Nq] Hl IH]; [right; reflexivity|].
    cbn [map total fold_right] in *. specialize (UL (fst x) (snd x) Mq Nq). unfold off at 1. cbn [fst snd]. 
    apply Rplus_le_compat; [apply Rplus_le_compat_l; exact UL|exact IH].
Qed.

(** ** Attitude from angles *)
Section Angles.
Context (L : Libm f64).
Lemma exp_medium : forall eps, trig_within eps L -> eps <= / 16 -> forall (b : BiVector f64) E, exp_domain b ->
  cnorm (exactly TBiv b) <= bpow radix2 40 -> is_cexp (exactly TBiv b) E -> medium (exp_Biv b).
Proof.
  intros eps T He b E D Hb HE. destruct (exp_Biv_accurate eps T He b E D HE) as (F & N & A).
  split; [exact F|]. pose proof (cexp_biv_norm b E HE) as N1.
  pose proof (norm_diff (exactly TSpin (exp_Biv b)) E) as K. apply Rabs_le_inv in K. rewrite N1 in K.
  change unit_roundoff with u53 in A.
  assert (B : 16 * u53 * (1 + cnorm (exactly TBiv b)) <= / 4).
  { apply Rle_trans with (16 * u53 * (1 + bpow radix2 40)); [apply Rmult_le_compat_l; [pose proof u53_pos; lra|lra]|].
    rewrite u53_val. change (bpow radix2 40) with (IZR 1099511627776). lra. }
  split.
  - apply Rle_trans with (bpow radix2 (-1)); [apply bpow_le; lia|change (bpow radix2 (-1)) with (/ 2); lra].
  - apply Rle_trans with (bpow radix2 2); [change (bpow radix2 2) with 4; lra|apply bpow_le; lia].
Qed.
Lemma one_medium : medium (one TSpin).
Proof.
  split; [exact one_finite|]. rewrite (cnorm_ceq _ _ one_exactly), cone_norm. change 1 with (bpow radix2 0). split; apply bpow_le; lia.
Qed.
Lemma attitude : forall eps, trig_within eps L -> eps <= / 16 -> forall l, Forall angle_ok l -> l <> [] ->
  let s := renormalised (one TSpin) (map (fun x => exp_Biv (fst x)) l) in
  let E := fold_left gp (map snd l) cone in
  medium s /\ cnorm E = 1 /\ spinly E /\ Rabs (cnorm (exactly TSpin s) - 1) <= 15 * u53 /\
  cnorm (csub (exactly TSpin s) E) <= 15 * u53 + total (fun x => angle_error eps (fst x)) l.
Proof.
  intros eps T He l Hl Nl s E.
  assert (Ml : Forall medium (map (fun x => exp_Biv (fst x)) l)).
  { apply Forall_map. eapply Forall_impl; [|exact Hl]. intros x (D & B & C). apply (exp_medium eps T He _ _ D B C). }
  assert (Nm : map (fun x : BiVector f64 * clf => exp_Biv (fst x)) l <> []) by (intros K; apply map_eq_nil in K; congruence).
  destruct (loop_unit _ _ one_medium Ml) as [Mr U]. fold s in Mr, U. specialize (U Nm).
  assert (S1 : spinly cone) by (eapply spinly_ceq; [intros k; symmetry; apply one_exactly|apply spinly_exactly]).
  assert (SE : forall m F, Forall angle_ok m -> spinly F -> cnorm F = 1 ->
    spinly (fold_left gp (map snd m) F) /\ cnorm (fold_left gp (map snd m) F) = 1).
  { intros m. induction m as [|x m IH]; intros F Hm SF NF; [split; assumption|]. inversion Hm as [|? ? (D & B & C) Hm']; subst.
    cbn [map fold_left]. pose proof (cexp_biv_spin _ _ C) as Sx. pose proof (cexp_biv_norm _ _ C) as Nx.
    apply IH; [exact Hm'|apply spinly_gp; [exact SF|exact Sx]|]. rewrite (norm_gp_r F) by (apply spinly_rev; exact Sx). rewrite NF, Nx. ring. }
  destruct (SE l cone Hl S1 cone_norm) as [SE1 NE1]. fold E in SE1, NE1.
  split; [exact Mr|]. split; [exact NE1|]. split; [exact SE1|]. split; [exact U|].
  apply final_off; [apply medium_norm, Mr|exact U|].
  set (l' := map (fun x : BiVector f64 * clf => (exp_Biv (fst x), snd x)) l).
  pose proof (loop_off l' (one TSpin) cone one_medium S1 cone_norm) as H.
  replace (map fst l') with (map (fun x : BiVector f64 * clf => exp_Biv (fst x)) l) in H by (unfold l'; rewrite map_map; reflexivity).
  replace (map snd l') with (map snd l) in H by (unfold l'; rewrite map_map; reflexivity).
  eapply Rle_trans; [apply H|].
  - unfold l'. apply Forall_map. eapply Forall_impl; [|exact Hl]. intros x (D & B & C). unfold target. cbn [fst snd].
    split; [apply (exp_medium eps T He _ _ D B C)|]. split; [exact (cexp_biv_spin _ _ C)|exact (cexp_biv_norm _ _ C)].
  - assert (Z : cnorm (csub (unit_of (exactly TSpin (one TSpin))) cone) = 0).
    { rewrite (cnorm_ceq _ (csub cone cone)); [apply zero_off|]. intros k. unfold csub. f_equal. unfold unit_of, cscale.
      rewrite (cnorm_ceq _ _ one_exactly), cone_norm, (one_exactly k). field. }
    rewrite Z, Rplus_0_l. unfold l'. clear -Hl T He. induction Hl as [|x l (D & B & C) Hl IH]; [right; reflexivity|].
    cbn [map total fold_right] in *. apply Rplus_le_compat; [|exact IH]. unfold angle_error. change unit_roundoff with u53. apply Rplus_le_compat_l.
    unfold off. cbn [fst snd]. pose proof (exp_medium eps T He _ _ D B C) as Mx.
    destruct (exp_Biv_accurate eps T He _ _ D C) as (_ & _ & A). pose proof (cexp_biv_norm _ _ C) as N1.
    pose proof (unit_lip (exactly TSpin (exp_Biv (fst x))) (snd x) (medium_norm _ Mx) ltac:(lra)) as K.
    rewrite N1 in K. unfold Rdiv in K. rewrite Rinv_1, Rmult_1_r in K.
    rewrite (cnorm_ceq _ (csub (unit_of (exactly TSpin (exp_Biv (fst x)))) (unit_of (snd x)))).
    2:{ intros k. unfold csub. f_equal. unfold unit_of, cscale. rewrite N1. field. }
    change unit_roundoff with u53 in A. lra.
Qed.
Lemma attitude_unit : forall eps, trig_within eps L -> eps <= / 16 -> forall l, Forall angle_ok l -> l <> [] ->
  let s := renormalised (one TSpin) (map (fun x => exp_Biv (fst x)) l) in
  let E := fold_left gp (map snd l) cone in
  all_finite TSpin s /\ Rabs (cnorm (exactly TSpin s) - 1) <= 15 * u53 /\ cnorm E = 1 /\
  cnorm (csub (exactly TSpin s) E) <= 15 * u53 + total (fun x => angle_error eps (fst x)) l.
Proof.
  intros eps T He l Hl Nl s E. destruct (attitude eps T He l Hl Nl) as (M & NE & _ & U & A).
  split; [apply M|]. split; [exact U|]. split; [exact NE|exact A].
Qed.
(** Rotating with it. *)
Lemma attitude_rotates : forall eps, trig_within eps L -> eps <= / 16 -> forall l, Forall angle_ok l -> l <> [] ->
  forall (e : Z) t (v : val f64 t), (-1076 <= e <= 1013)%Z -> within e t v ->
  let s := renormalised (one TSpin) (map (fun x => exp_Biv (fst x)) l) in
  let E := fold_left gp (map snd l) cone in
  let r := mul _ TSpin (mul TSpin t s v) (reverse TSpin s) in
  let V := exactly t v in
  all_finite _ r /\
  cnorm (csub (exactly _ r) (gp (gp E V) (crev E))) <=
    (90 * u53 + 17 / 8 * total (fun x => angle_error eps (fst x)) l) * cnorm V + 60 * eta.
Proof.
  intros eps T He l Hl Nl e t v Re W s E r V.
  destruct (attitude eps T He l Hl Nl) as (M & NE & [q Hq] & U & A). fold s E in M, NE, Hq, U, A.
  set (S := exactly TSpin s) in *. set (tt := total _ l) in *.
  assert (U15 : 15 * u53 <= / 100) by (rewrite u53_val; lra). pose proof u53_pos as PU. pose proof eta_pos as PE.
  apply Rabs_le_inv in U.
  destruct (spin_within s 2 (proj1 M)) as [W1 W2]; [change (bpow radix2 2) with 4; fold S; lra|].
  assert (Fr : all_finite _ r).
  { assert (W3 : within (2 + e + 3) _ (mul TSpin t s v)) by (apply mul_within; [lia|lia|exact W1|exact W]).
    assert (W4 : within (2 + e + 3 + 2 + 3) _ r) by (apply mul_within; [lia|lia|exact W3|exact W2]).
    unfold within in W4. unfold all_finite. eapply Forall_impl; [|exact W4]. intros x Hx. apply Hx. }
  split; [exact Fr|].
  pose proof (sandwich_error s t v Fr) as SE. cbv zeta in SE. fold r V S in SE.
  pose proof (sandwich_lip (mapv (fun v : f64 => b2r v) TSpin s) q V) as SL. cbv zeta in SL.
  change (den TSpin (mapv (fun v : f64 => b2r v) TSpin s)) with S in SL.
  assert (Hr : ceq (crev (den TSpin q)) (crev E)) by (intros k; unfold crev; rewrite <- (Hq k); reflexivity).
  assert (G : ceq (gp (gp (den TSpin q) V) (crev (den TSpin q))) (gp (gp E V) (crev E))).
  { apply gp_ceq; [|exact Hr]. apply gp_ceq; [intros k; symmetry; apply Hq|intros k; reflexivity]. }
  rewrite <- (cnorm_ceq _ _ Hq), NE in SL.
  rewrite (cnorm_ceq (csub S (den TSpin q)) (csub S E)) in SL by (intros k; unfold csub; rewrite (Hq k); reflexivity).
  rewrite (cnorm_ceq (csub (gp (gp S V) (crev S)) (gp (gp (den TSpin q) V) (crev (den TSpin q))))
     (csub (gp (gp S V) (crev S)) (gp (gp E V) (crev E)))) in SL by (intros k; unfold csub; rewrite (G k); reflexivity).
  pose proof (cnorm_nonneg V) as PV. pose proof (cnorm_nonneg S) as PS. pose proof (cnorm_nonneg (csub S E)) as PD.
  eapply Rle_trans; [apply (norm_sub_le _ (gp (gp S V) (crev S)))|]. rewrite <- cnorm_sq in SE.
  assert (Q1 : cnorm S * cnorm S <= 41 / 40).
  { apply Rle_trans with (101 / 100 * (101 / 100)); [apply Rmult_le_compat; lra|lra]. }
  assert (Q2 : 53 * u53 * (cnorm S * cnorm S * cnorm V) <= 55 * u53 * cnorm V).
  { replace (53 * u53 * (cnorm S * cnorm S * cnorm V)) with (53 * (cnorm S * cnorm S) * (u53 * cnorm V)) by ring.
    replace (55 * u53 * cnorm V) with (55 * (u53 * cnorm V)) by ring. apply Rmult_le_compat_r; [apply Rmult_le_pos; lra|lra]. }
  assert (Q3 : 27 * eta * (1 + cnorm S) <= 60 * eta).
  { replace (27 * eta * (1 + cnorm S)) with (27 * (1 + cnorm S) * eta) by ring. apply Rmult_le_compat_r; lra. }
  assert (Q4 : cnorm (csub S E) * cnorm V * (cnorm S + 1) <= (15 * u53 + tt) * cnorm V * (17 / 8)).
  { apply Rmult_le_compat; [apply Rmult_le_pos; assumption|lra|apply Rmult_le_compat_r; assumption|lra]. }
  assert (Q5 : 0 <= u53 * cnorm V) by (apply Rmult_le_pos; lra).
  nra.
Qed.
End Angles.

(** ** Without normalisation *)
Lemma rnd_id : forall v : f64, rnd64 (b2r v) = b2r v.
Proof. intros v. apply round_generic; [apply valid_rnd_N|]. apply generic_format_B2R. Qed.
Lemma grow_up : forall r, generic_format radix2 fexp64 r -> 1 <= r -> r + bpow radix2 (-52) <= rnd64 (r * (1 + bpow radix2 (-52))).
Proof.
  change fexp64 with (FLT_exp (-1074) 53). intros r Fr H1. 
  assert (P : 0 <= r) by lra.
  assert (U1 : ulp radix2 (FLT_exp (-1074) 53) r <= r * bpow radix2 (-52)).
  { rewrite <- (Rabs_pos_eq r) at 2 by exact P. change (-52)%Z with (1 - 53)%Z. apply (ulp_FLT_le radix2 (-1074) 53).
    rewrite Rabs_pos_eq by exact P. apply Rle_trans with (bpow radix2 0); [apply bpow_le; lia|exact H1]. }
  assert (U2 : bpow radix2 (-52) <= ulp radix2 (FLT_exp (-1074) 53) r).
  { replace (bpow radix2 (-52)) with (ulp radix2 (FLT_exp (-1074) 53) (bpow radix2 0)) by (rewrite ulp_bpow; reflexivity).
    apply ulp_le_pos; [apply FLT_exp_valid; reflexivity|apply FLT_exp_monotone|apply bpow_ge_0|exact H1]. }
  apply Rle_trans with (succ radix2 (FLT_exp (-1074) 53) r).
  - rewrite succ_eq_pos by exact P. lra.
  - apply round_ge_generic; [apply FLT_exp_valid; reflexivity|apply valid_rnd_N|apply generic_format_succ; [apply FLT_exp_valid; reflexivity|exact Fr]|].
    rewrite succ_eq_pos by exact P. lra.
Qed.
Definition above_one : Spinor f64 := mkSpin (Sca (f64_lit (2 ^ 52 + 1) (-52))) (Biv (f64_lit 0 0) (f64_lit 0 0) (f64_lit 0 0)).
Lemma above_val : b2r (f64_lit (2 ^ 52 + 1) (-52)) = 1 + bpow radix2 (-52).
Proof.
  rewrite (proj2 (AcceptFacts.lit_val53 (2 ^ 52 + 1) (-52) ltac:(reflexivity) ltac:(lia))).
  rewrite plus_IZR, Rmult_plus_distr_r. f_equal; [|ring]. change (IZR (2 ^ 52)) with (bpow radix2 52). rewrite <- bpow_plus. reflexivity.
Qed.
Lemma times_scalar : forall (p : Spinor f64) (c o : f64), b2r o = 0 ->
  all_finite TSpin (mul TSpin TSpin p (mkSpin (Sca c) (Biv o o o))) ->
  b2r (sca_0 (spinSca (mul TSpin TSpin p (mkSpin (Sca c) (Biv o o o))))) = rnd64 (b2r (sca_0 (spinSca p)) * b2r c).
Proof.
  intros [[[a]] [[x y z]]] c o O F. apply Forall_inv in F.
  change (fin (Bminus mode_NE (Bmult mode_NE a c) (Bplus mode_NE (Bplus mode_NE (Bplus mode_NE (nzero : f64) (Bmult mode_NE x o)) (Bmult mode_NE y o)) (Bmult mode_NE z o))) = true) in F.
  change (b2r (Bminus mode_NE (Bmult mode_NE a c) (Bplus mode_NE (Bplus mode_NE (Bplus mode_NE (nzero : f64) (Bmult mode_NE x o)) (Bmult mode_NE y o)) (Bmult mode_NE z o))) = rnd64 (b2r a * b2r c)).
  destruct (bminus_fin _ _ F) as (G1 & G2 & E). destruct (bplus_fin _ _ G2) as (G3 & G4 & E2).
  destruct (bplus_fin _ _ G3) as (G5 & G6 & E3). destruct (bplus_fin _ _ G5) as (G7 & G8 & E4).
  destruct (bmult_fin _ _ G4) as (_ & _ & M1). destruct (bmult_fin _ _ G6) as (_ & _ & M2). destruct (bmult_fin _ _ G8) as (_ & _ & M3).
  assert (R0' : rnd64 0 = 0) by (apply round_0; apply valid_rnd_N).
  rewrite O, Rmult_0_r, R0' in M1, M2, M3. rewrite M3 in E4. change (b2r (nzero : f64)) with 0 in E4. rewrite Rplus_0_r, R0' in E4.
  rewrite E4, M2, Rplus_0_r, R0' in E3. rewrite E3, M1, Rplus_0_r, R0' in E2. rewrite E2, Rminus_0_r, rnd_id in E.
  rewrite E. apply (bmult_fin _ _ G1).
Qed.
Lemma drifts : forall n, let p := running_product above_one (repeat above_one n) in
  all_finite TSpin p -> 1 + INR (S n) * bpow radix2 (-52) <= cnorm (exactly TSpin p).
Proof.
  intros n p F.
  assert (K : 1 + INR (S n) * bpow radix2 (-52) <= b2r (sca_0 (spinSca p))).
  2:{ eapply Rle_trans; [exact K|]. eapply Rle_trans; [|apply (comp_le_norm _ bS)]. eapply Rle_trans; [apply Rle_abs|]. right. reflexivity. }
  unfold p in *. clear p. induction n as [|n IH].
  - unfold running_product. cbn [repeat fold_left]. change (sca_0 (spinSca above_one)) with (f64_lit (2 ^ 52 + 1) (-52)).
    rewrite above_val. cbn [INR]. lra.
  - replace (repeat above_one (S n)) with (repeat above_one n ++ [above_one]) in * by (symmetry; apply repeat_cons).
    unfold running_product in *. rewrite fold_left_app in *. cbn [fold_left] in *.
    match type of F with all_finite _ (mul _ _ ?P _) => set (q := P) in * end.
    destruct (mul_fin_inv TSpin TSpin q above_one F) as [Fq _]. specialize (IH Fq).
    unfold above_one in F |- *. rewrite (times_scalar q (f64_lit (2 ^ 52 + 1) (-52)) (f64_lit 0 0) eq_refl F), above_val. fold above_one in IH; fold q in IH. rewrite S_INR, Rmult_plus_distr_r, Rmult_1_l.
    pose proof (bpow_ge_0 radix2 (-52)) as B0. pose proof (pos_INR (S n)) as I0.
    assert (0 <= INR (S n) * bpow radix2 (-52)) by (apply Rmult_le_pos; assumption).
    assert (Gw : generic_format radix2 fexp64 (b2r (sca_0 (spinSca q)))) by apply generic_format_B2R.
    set (w := b2r (sca_0 (spinSca q))) in *. assert (IH' : 1 + INR (S n) * bpow radix2 (-52) <= w) by exact IH. clearbody w.
    eapply Rle_trans; [|apply grow_up; [exact Gw|lra]]. lra.
Qed.
Lemma above_medium : medium above_one /\ Rabs (cnorm (exactly TSpin above_one) - 1) <= bpow radix2 (-52).
Proof.
  unfold medium. rewrite and_assoc.
  split; [repeat (apply Forall_cons || apply Forall_nil); reflexivity|].
  assert (N : cnorm (exactly TSpin above_one) = 1 + bpow radix2 (-52)).
  { pose proof (bpow_gt_0 radix2 (-52)) as B0. unfold cnorm. replace (cnorm2 _) with ((1 + bpow radix2 (-52)) * (1 + bpow radix2 (-52))); [apply sqrt_square; lra|].
    rewrite spin_norm2. change (sca_0 (spinSca above_one)) with (f64_lit (2 ^ 52 + 1) (-52)). rewrite above_val.
    assert (Z : cnorm2 (exactly TBiv (spinBiv above_one)) = 0); [|rewrite Z; ring].
    rewrite (cnorm2_ceq _ czero); [unfold cnorm2, czero, all_blades, rsum; cbn [map fold_right]; ring|].
    apply AccThm.zero_elems. repeat (apply Forall_cons || apply Forall_nil); reflexivity. }
  rewrite N. replace (1 + bpow radix2 (-52) - 1) with (bpow radix2 (-52)) by ring. rewrite Rabs_pos_eq by apply bpow_ge_0.
  split; [|right; reflexivity]. assert (bpow radix2 (-52) <= 1) by (change 1 with (bpow radix2 0); apply bpow_le; lia). pose proof (bpow_gt_0 radix2 (-52)).
  split.
  - apply Rle_trans with (bpow radix2 0); [apply bpow_le; lia|change (bpow radix2 0) with 1; lra].
  - apply Rle_trans with (bpow radix2 1); [change (bpow radix2 1) with 2; lra|apply bpow_le; lia].
Qed.
Lemma no_bound : forall M, exists n, let p := running_product above_one (repeat above_one n) in
  ~ (all_finite TSpin p /\ cnorm (exactly TSpin p) <= M).
Proof.
  intros M. assert (HN : exists n, INR n > M * bpow radix2 52).
  { exists (Z.to_nat (up (M * bpow radix2 52))). destruct (archimed (M * bpow radix2 52)) as [A _].
    destruct (Z_le_gt_dec 0 (up (M * bpow radix2 52))) as [K|K]; [rewrite INR_IZR_INZ, Z2Nat.id by exact K; exact A|].
    pose proof (pos_INR (Z.to_nat (up (M * bpow radix2 52)))) as P. assert (IZR (up (M * bpow radix2 52)) < 0) by (apply IZR_lt; lia). lra. }
  destruct HN as [n Hn]. exists n. intros p [F N]. pose proof (drifts n F) as D. cbv zeta in D. fold p in D.
  assert (K : INR n * bpow radix2 (-52) <= M).
  { rewrite S_INR in D. pose proof (bpow_gt_0 radix2 (-52)). lra. }
  apply Rmult_le_compat_r with (r := bpow radix2 52) in K; [|apply bpow_ge_0].
  rewrite Rmult_assoc, <- bpow_plus in K. change (bpow radix2 (-52 + 52)) with 1 in K. lra.
Qed.
Lemma plain_drifts : medium above_one /\ Rabs (cnorm (exactly TSpin above_one) - 1) <= bpow radix2 (-52) /\
  forall M, exists n, let p := running_product above_one (repeat above_one n) in
    ~ (all_finite TSpin p /\ cnorm (exactly TSpin p) <= M).
Proof. split; [apply above_medium|]. split; [apply above_medium|exact no_bound]. Qed.
Lemma loop_case : trig_within (bpow radix2 (-52)) rounded_lib /\ bpow radix2 (-52) <= / 16 /\
  let b := Biv (f64_lit 3 0) (f64_lit 0 0) (f64_lit (-4) 0) in
  exists E, Forall angle_ok [(b, E); (b, E); (b, E)] /\ medium above_one.
Proof.
  split; [exact (proj1 library_within)|]. split; [replace (/ 16) with (bpow radix2 (-4)) by reflexivity; apply bpow_le; discriminate|].
  intros b. set (X := exactly TBiv b).
  assert (C : is_cexp X (cadd (cscale (cos (cnorm X)) cone) (cscale (sinc (cnorm X)) X))).
  { apply cexp_square. apply (biv_sq (mapv (fun v : f64 => b2r v) TBiv b)). }
  eexists. split; [|apply above_medium].
  assert (K : angle_ok (b, cadd (cscale (cos (cnorm X)) cone) (cscale (sinc (cnorm X)) X))).
  { split; [exact example_exp_domain|]. split; [|exact C]. cbn [fst]. fold X.
    apply Rle_trans with 5; [|apply Rle_trans with (bpow radix2 3); [change (bpow radix2 3) with 8; lra|apply bpow_le; lia]].
    right. unfold cnorm. replace (cnorm2 X) with (5 * 5); [apply sqrt_square; lra|].
    destruct (AcceptFacts.lit_val53 3 0 ltac:(reflexivity) ltac:(lia)) as [_ V3]. destruct (AcceptFacts.lit_val53 (-4) 0 ltac:(reflexivity) ltac:(lia)) as [_ V4].
    destruct (AcceptFacts.lit_val53 0 0 ltac:(reflexivity) ltac:(lia)) as [_ V0]. change (bpow radix2 0) with 1 in *.
    unfold X, b, exactly, cnorm2. revert V3 V4 V0. generalize (f64_lit 3 0) (f64_lit (-4) 0) (f64_lit 0 0). intros x y z V3 V4 V0.
    cbv -[B2R Rplus Rmult Ropp R0 R1 IZR]. rewrite V3, V4, V0. ring. }
  repeat (apply Forall_cons; [exact K|]). apply Forall_nil.
Qed.
