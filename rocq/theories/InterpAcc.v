(** * Interpolation between attitudes on binary64: proofs. *)

Require Import Reals ZArith List Bool Lra Lia.
From Flocq Require Import Core Relative BinarySingleNaN.
Require Import Verif.Num Verif.Types Verif.Priv Verif.OpsUni Verif.OpsAdd Verif.OpsSub
  Verif.OpsMul Verif.Const Verif.Validity Verif.Func Verif.SpecCl Verif.RealInst Verif.AlgTac Verif.AlgMul Verif.AlgFacts Verif.SpecFunc
  Verif.FuncFacts Verif.SpecExp Verif.ExpFacts Verif.ExpThm Verif.LogThm Verif.Rel Verif.B64 Verif.B64Facts Verif.SpecValid Verif.ValidFacts
  Verif.SpecRound Verif.ArrErr Verif.IntFacts Verif.ErrFacts Verif.SpecAcc Verif.BoundFacts Verif.AccFacts Verif.NormFacts Verif.ExpAcc Verif.LogAcc Verif.RootAcc Verif.ExtentFacts Verif.SpecPow Verif.PowAcc Verif.SpecInterp.
Import ListNotations.
Local Open Scope R_scope.

Lemma att_norm : forall d a, d <= / 16 -> attitude d a -> all_finite TSpin a /\ 96 / 100 <= cnorm (exactly TSpin a) <= 104 / 100 /\
  Rabs (cnorm (exactly TSpin a) * cnorm (exactly TSpin a) - 1) <= d.
Proof.
  intros d a Hd [F H]. rewrite <- cnorm_sq in H. split; [exact F|]. split; [|exact H]. apply Rabs_le_inv in H.
  pose proof (cnorm_nonneg (exactly TSpin a)). nra.
Qed.
Lemma mul_ok : forall (p q : Spinor f64), all_finite TSpin p -> all_finite TSpin q -> cnorm (exactly TSpin p) <= 2 -> cnorm (exactly TSpin q) <= 2 ->
  all_finite TSpin (mul TSpin TSpin p q) /\
  cnorm (csub (exactly TSpin (mul TSpin TSpin p q)) (gp (exactly TSpin p) (exactly TSpin q))) <= 26 * u53 * (cnorm (exactly TSpin p) * cnorm (exactly TSpin q)) + 26 * eta.
Proof.
  intros p q Fp Fq Hp Hq.
  assert (G : all_finite TSpin (mul TSpin TSpin p q)).
  { assert (Wp : within 1 TSpin p) by (apply norm_within; assumption). assert (Wq : within 1 TSpin q) by (apply norm_within; assumption).
    eapply Forall_impl; [|exact (mul_within 1 1 TSpin TSpin p q ltac:(lia) ltac:(lia) Wp Wq)]. intros v [f _]; exact f. }
  split; [exact G|exact (mul_norm_error TSpin TSpin p q G)].
Qed.
Lemma rev_ok : forall a : Spinor f64, all_finite TSpin a -> all_finite TSpin (reverse TSpin a) /\ ceq (exactly TSpin (reverse TSpin a)) (crev (exactly TSpin a)) /\
  cnorm (exactly TSpin (reverse TSpin a)) = cnorm (exactly TSpin a).
Proof.
  intros a F. assert (E : ceq (exactly TSpin (reverse TSpin a)) (crev (exactly TSpin a))) by (intros k; apply reverse_exactly).
  split; [|split; [exact E|rewrite (cnorm_ceq _ _ E); unfold cnorm; rewrite cnorm2_rev; reflexivity]].
  destruct a as [[[c]] [[x y z]]]. unfold all_finite in *.
  change (Forall (fun v : f64 => fin v = true) [c; x; y; z]) in F. change (Forall (fun v : f64 => fin v = true) [c; Bopp x; Bopp y; Bopp z]).
  inversion F as [|? ? f1 F1]; subst. inversion F1 as [|? ? f2 F2]; subst. inversion F2 as [|? ? f3 F3]; subst. inversion F3 as [|? ? f4 _]; subst.
  repeat constructor; rewrite ?is_finite_Bopp; assumption.
Qed.
Lemma ln_small : forall x d, Rabs (x - 1) <= d -> d <= / 4 -> Rabs (ln x) <= 3 / 2 * d.
Proof.
  intros x d H Hd. apply Rabs_le_inv in H. assert (P : 0 < x) by lra. pose proof (exp_ineq1_le (ln x)) as A. rewrite exp_ln in A by exact P.
  pose proof (exp_ineq1_le (- ln x)) as B. rewrite exp_Ropp, exp_ln in B by exact P.
  assert (C : / x <= 1 + 3 / 2 * d).
  { apply (Rmult_le_reg_l x); [exact P|]. rewrite Rinv_r by lra. nra. }
  apply Rabs_le. lra.
Qed.

Lemma exp_close : forall x g, Rabs x <= g -> g <= 1 / 10 -> Rabs (exp x - 1) <= 10 / 9 * g.
Proof.
  intros x g H Hg. apply Rabs_le_inv in H. pose proof (exp_ineq1_le x) as A. pose proof (exp_ineq1_le (- x)) as B. rewrite exp_Ropp in B.
  pose proof (exp_pos x) as P. set (e := exp x) in *. apply (Rmult_le_compat_l e) in B; [|lra]. rewrite Rinv_r in B by lra. apply Rabs_le. nra.
Qed.
Lemma norm_diff : forall a b, Rabs (cnorm a - cnorm b) <= cnorm (csub a b).
Proof.
  intros a b. pose proof (norm_le_sub a b) as h1. pose proof (norm_le_sub b a) as h2.
  rewrite (cnorm_ceq (csub b a) (cscale (-1) (csub a b))) in h2 by (intros k; unfold csub, cscale; ring).
  rewrite cnorm_scale, (Rabs_left (-1)) in h2 by lra. apply Rabs_le. lra.
Qed.

Section Library.
Context {L : Libm f64}.

Lemma interpolation_accurate : forall eps, trig_within eps L -> exp_within eps L -> log_within eps L -> atan2_within eps L ->
  eps <= bpow radix2 (-40) -> forall d (a b : Spinor f64) plane, d <= / 16 -> attitude d a -> attitude d b -> root_domain (step a b) plane ->
  let A := exactly TSpin a in let B := exactly TSpin b in let r := step a b in
  exists X : Spinor R, Rabs (sca_0 (spinSca X)) <= 2 * d + 4 * eps + 60 * unit_roundoff /\
    cnorm (den TBiv (spinBiv X)) <= PI + eps + 64 * unit_roundoff /\
    (forall E, is_cexp (den TSpin X) E -> cnorm (csub (gp E A) B) <= 2 * d + 5 * eps + bpow radix2 (-21) /\
      (bpow radix2 (-23) * cnorm (exactly TSpin r) <= cnorm (exactly TBiv (spinBiv r)) -> cnorm (csub (gp E A) B) <= 2 * d + 5 * eps + 200 * unit_roundoff)) /\
    (forall t E, exponent t -> is_cexp (cscale (B2R t) (den TSpin X)) E -> all_finite TSpin (interpolated a b plane t) /\
      cnorm (csub (exactly TSpin (interpolated a b plane t)) (gp E A)) <= 7 * eps + 150 * unit_roundoff /\
      attitude (7 * d + 30 * eps + 600 * unit_roundoff) (interpolated a b plane t)).
Proof.
  intros eps T Te TL TA He d a b plane Hd Ha Hb D A B r.
  destruct (att_norm d a Hd Ha) as (Fa & NA & SA). destruct (att_norm d b Hd Hb) as (Fb & NB & SB). fold A in NA, SA. fold B in NB, SB.
  destruct (rev_ok a Fa) as (Fr & Er & Nr). fold A in Er, Nr.
  destruct (mul_ok b (reverse TSpin a) Fb Fr ltac:(fold B; lra) ltac:(rewrite Nr; lra)) as [FR ER].
  change (mul TSpin TSpin b (reverse TSpin a)) with r in FR, ER. fold B in ER. rewrite Nr in ER.
  set (R := exactly TSpin r) in *.
  assert (ER' : cnorm (csub R (gp B (crev A))) <= 26 * u53 * (cnorm B * cnorm A) + 26 * eta).
  { rewrite (cnorm_ceq _ (csub R (gp B (exactly TSpin (reverse TSpin a))))); [exact ER|]. intros k. unfold csub. rewrite (gp_ceq B B (crev A) (exactly TSpin (reverse TSpin a)) ltac:(reflexivity) ltac:(symmetry; exact Er) k). reflexivity. }
  clear ER. pose proof u53_pos as Pu. pose proof eta_small as Es. pose proof eta_pos as Pe.
  assert (RA : rev_scalar A) by (apply (exactly_rev_scalar TSpin); reflexivity). assert (RB : rev_scalar B) by (apply (exactly_rev_scalar TSpin); reflexivity).
  assert (NBA : cnorm (gp B (crev A)) = cnorm B * cnorm A).
  { rewrite norm_gp_l by exact RB. f_equal. unfold cnorm. rewrite cnorm2_rev. reflexivity. }
  assert (PBA : cnorm B * cnorm A <= 11 / 10) by nra.
  assert (PBA' : Rabs (cnorm B * cnorm A - 1) <= d) by (apply Rabs_le_inv in SA; apply Rabs_le_inv in SB; apply Rabs_le; nra).
  assert (UBA : 26 * u53 * (cnorm B * cnorm A) <= 26 * u53 * (11 / 10)) by (apply Rmult_le_compat_l; lra).
  assert (ER2 : cnorm (csub R (gp B (crev A))) <= 29 * u53) by lra.
  assert (NR : Rabs (cnorm R - 1) <= d + 29 * u53).
  { pose proof (norm_le_sub R (gp B (crev A))) as h1. pose proof (norm_le_sub (gp B (crev A)) R) as h2.
    rewrite (cnorm_ceq (csub (gp B (crev A)) R) (cscale (-1) (csub R (gp B (crev A))))) in h2 by (intros k; unfold csub, cscale; ring).
    rewrite cnorm_scale, (Rabs_left (-1)) in h2 by lra. rewrite NBA in h1, h2. apply Rabs_le_inv in PBA'. apply Rabs_le. lra. }
  assert (U30 : 29 * u53 <= / 1000000) by (rewrite u53_val; lra).
  pose proof (ln_small _ _ NR ltac:(lra)) as LN. set (ll := Rabs (ln (cnorm R))) in *. assert (Pll : 0 <= ll) by apply Rabs_pos.
  assert (HL : ll <= 95 / 1000) by lra.
  assert (NR' : cnorm R <= 107 / 100) by (apply Rabs_le_inv in NR; lra).
  assert (PR : 0 <= cnorm R) by apply cnorm_nonneg.
  destruct (power_all eps T Te TL TA He r plane D) as (He0 & _ & S1 & S2 & S3 & S4). fold R ll in S1, S3, S4.
  set (X := mapv (fun v : f64 => b2r v) TSpin (logG2 r plane)) in *.
  change (bpow radix2 (-40)) with (/ 1099511627776) in He.
  assert (SX : Rabs (sca_0 (spinSca X)) <= ll + eps * (2 + ll) + 9 * u53).
  { replace (sca_0 (spinSca X)) with ((sca_0 (spinSca X) - ln (cnorm R)) + ln (cnorm R)) by ring. eapply Rle_trans; [apply Rabs_triang|]. fold ll. lra. }
  assert (EL : eps * (2 + ll) <= 21 / 10 * eps) by nra.
  exists X. change unit_roundoff with u53. split; [|split; [exact S2|split]].
  - assert (0 <= d) by (destruct Ha as [_ h]; eapply Rle_trans; [apply Rabs_pos|exact h]). lra.
  - intros E HE. destruct (S3 E HE) as [K1 K2].
    assert (GEN : forall q, cnorm (csub E R) <= cnorm R * (eps * (4 + 2 * ll) + q) -> 0 <= q -> cnorm (csub (gp E A) B) <= 2 * d + 5 * eps + 12 / 10 * q + 31 * u53).
    { intros q Hq Pq.
      rewrite (cnorm_ceq _ (cadd (cadd (gp (csub E R) A) (gp (csub R (gp B (crev A))) A)) (cscale (cnorm A * cnorm A - 1) B))).
      2:{ intros k. unfold cadd. rewrite (gp_sub_l E R A k), (gp_sub_l R (gp B (crev A)) A k). unfold csub, cscale.
          rewrite (gp_assoc B (crev A) A k). rewrite (gp_ceq B B (gp (crev A) A) (cscale (cnorm2 A) cone) ltac:(reflexivity) (proj1 RA) k).
          rewrite (gp_scale_r (cnorm2 A) B cone k). unfold cscale. rewrite (gp_one_r B k). rewrite cnorm_sq. ring. }
      eapply Rle_trans; [apply cnorm_triangle|]. eapply Rle_trans; [apply Rplus_le_compat_r, cnorm_triangle|].
      rewrite !norm_gp_r by exact RA. rewrite cnorm_scale.
      assert (Z1 : cnorm (csub E R) * cnorm A <= (107 / 100 * (eps * (4 + 2 * ll) + q)) * (104 / 100)).
      { apply Rmult_le_compat; try apply cnorm_nonneg; try lra. eapply Rle_trans; [exact Hq|]. apply Rmult_le_compat_r; [|lra].
        assert (0 <= eps * (4 + 2 * ll)) by (apply Rmult_le_pos; lra). lra. }
      assert (Z2 : cnorm (csub R (gp B (crev A))) * cnorm A <= 29 * u53 * (104 / 100)) by (apply Rmult_le_compat; try apply cnorm_nonneg; lra).
      assert (Z3 : Rabs (cnorm A * cnorm A - 1) * cnorm B <= d * (104 / 100)) by (apply Rmult_le_compat; try apply cnorm_nonneg; try apply Rabs_pos; lra).
      assert (Z4 : eps * (4 + 2 * ll) <= eps * (42 / 10)) by (apply Rmult_le_compat_l; lra).
      assert (0 <= d) by (destruct Ha as [_ h]; eapply Rle_trans; [apply Rabs_pos|exact h]). lra. }
    split.
    + eapply Rle_trans; [apply GEN; [exact K1|apply bpow_ge_0]|]. change (bpow radix2 (-21)) with (/ 2097152). change (bpow radix2 (-22)) with (/ 4194304). rewrite u53_val. lra.
    + intros h. eapply Rle_trans; [apply GEN; [exact (K2 h)|lra]|]. lra.
  - intros t E Ht HE. destruct (S4 t E Ht HE) as (NE & RE & Fp & Ep).
    assert (SX2 : Rabs (sca_0 (spinSca X)) <= 1 / 10) by (rewrite u53_val in *; lra).
    assert (NE2 : cnorm E <= 112 / 100).
    { rewrite NE. destruct Ht as [_ [_ Ht]].
      assert (TX : Rabs (b2r t * sca_0 (spinSca X)) <= 1 / 10) by (rewrite Rabs_mult; pose proof (Rabs_pos (b2r t)); pose proof (Rabs_pos (sca_0 (spinSca X))); nra).
      pose proof (exp_ineq1_le (- (b2r t * sca_0 (spinSca X)))) as B1. rewrite exp_Ropp in B1. apply Rabs_le_inv in TX.
      pose proof (exp_pos (b2r t * sca_0 (spinSca X))) as PX. set (e := exp (b2r t * sca_0 (spinSca X))) in *.
      assert (B2 : 9 / 10 <= / e) by lra. apply (Rmult_le_compat_l e) in B2; [|lra]. rewrite Rinv_r in B2 by lra. lra. }
    assert (PE : 0 <= cnorm E) by apply cnorm_nonneg.
    assert (Ep2 : cnorm (csub (exactly TSpin (powered r plane t)) E) <= 112 / 100 * (5 * eps + 902 / 10 * u53)).
    { eapply Rle_trans; [exact Ep|]. apply Rmult_le_compat; [exact PE| |exact NE2|].
      - assert (0 <= (90 + 2 * ll) * u53) by (apply Rmult_le_pos; lra). lra.
      - assert ((90 + 2 * ll) * u53 <= 902 / 10 * u53) by (apply Rmult_le_compat_r; lra). lra. }
    pose proof (norm_le_sub (exactly TSpin (powered r plane t)) E) as NP. set (P := exactly TSpin (powered r plane t)) in *.
    assert (NP2 : cnorm P <= 113 / 100) by (rewrite u53_val in *; lra).
    destruct (mul_ok (powered r plane t) a Fp Fa ltac:(fold P; lra) ltac:(fold A; lra)) as [G K].
    change (mul TSpin TSpin (powered r plane t) a) with (interpolated a b plane t) in G, K. fold P A in K. split; [exact G|].
    assert (Pd : 0 <= d) by (destruct Ha as [_ h]; eapply Rle_trans; [apply Rabs_pos|exact h]).
    assert (K2 : cnorm (csub (gp P A) (gp E A)) <= 112 / 100 * (5 * eps + 902 / 10 * u53) * (104 / 100)).
    { rewrite (cnorm_ceq _ (gp (csub P E) A)) by (intros k; rewrite (gp_sub_l P E A k); reflexivity). rewrite norm_gp_r by exact RA.
      apply Rmult_le_compat; try apply cnorm_nonneg; lra. }
    assert (K3 : 26 * u53 * (cnorm P * cnorm A) <= 26 * u53 * (113 / 100 * (104 / 100))).
    { apply Rmult_le_compat_l; [lra|]. apply Rmult_le_compat; try apply cnorm_nonneg; lra. }
    assert (K4 : cnorm (csub (exactly TSpin (interpolated a b plane t)) (gp E A)) <= 7 * eps + 150 * u53) by (eapply Rle_trans; [apply (norm_sub_le _ (gp P A))|]; lra).
    split; [exact K4|]. split; [exact G|]. set (Q := exactly TSpin (interpolated a b plane t)) in *. rewrite <- cnorm_sq.
    assert (SX3 : Rabs (sca_0 (spinSca X)) <= 3 / 2 * d + 3 * eps + 60 * u53) by lra. set (g := 3 / 2 * d + 3 * eps + 60 * u53) in *.
    assert (Hg : 0 <= g <= 1 / 10) by (unfold g; rewrite u53_val; lra).
    assert (TX : Rabs (b2r t * sca_0 (spinSca X)) <= g).
    { destruct Ht as [_ [_ Ht]]. rewrite Rabs_mult; pose proof (Rabs_pos (b2r t)); pose proof (Rabs_pos (sca_0 (spinSca X))); nra. }
    pose proof (exp_close _ _ TX ltac:(lra)) as XC. rewrite <- NE in XC.
    pose proof (norm_diff Q (gp E A)) as ND. rewrite norm_gp_r in ND by exact RA.
    set (h := 7 * eps + 150 * u53) in *. assert (Hh : 0 <= h <= / 1000000) by (unfold h; rewrite u53_val; lra).
    apply Rle_trans with (2 * (112 / 100) * (104 / 100) * h + h * h + (10 / 9 * (2 * (11 / 10)) * g * (107 / 100) + d)).
    - pose proof (cnorm_nonneg Q). set (nq := cnorm Q) in *. set (ne := cnorm E) in *. set (na := cnorm A) in *.
      assert (Y1 : Rabs (nq * nq - (ne * na) * (ne * na)) <= 2 * (112 / 100) * (104 / 100) * h + h * h).
      { assert (Q0 : 0 <= ne * na <= 112 / 100 * (104 / 100)) by (split; [apply Rmult_le_pos; lra|apply Rmult_le_compat; lra]).
        assert (Q1 : Rabs (nq - ne * na) <= h) by lra. set (m := ne * na) in *.
        replace (nq * nq - m * m) with ((nq - m) * (2 * m + (nq - m))) by ring. rewrite Rabs_mult.
        replace (2 * (112 / 100) * (104 / 100) * h + h * h) with (h * (2 * (112 / 100 * (104 / 100)) + h)) by ring.
        apply Rmult_le_compat; try apply Rabs_pos; [exact Q1|]. eapply Rle_trans; [apply Rabs_triang|]. rewrite (Rabs_pos_eq (2 * m)) by lra. lra. }
      assert (Y2 : Rabs (ne * ne - 1) <= 10 / 9 * (2 * (11 / 10)) * g).
      { replace (ne * ne - 1) with ((ne - 1) * (ne + 1)) by ring. rewrite Rabs_mult, (Rabs_pos_eq (ne + 1)) by lra.
        replace (10 / 9 * (2 * (11 / 10)) * g) with ((10 / 9 * g) * (22 / 10)) by field.
        apply Rmult_le_compat; try apply Rabs_pos; lra. }
      assert (Y3 : na * na <= 107 / 100) by (apply Rabs_le_inv in SA; lra).
      replace (nq * nq - 1) with ((nq * nq - (ne * na) * (ne * na)) + ((ne * ne - 1) * (na * na) + (na * na - 1))) by ring.
      eapply Rle_trans; [apply Rabs_triang|]. apply Rplus_le_compat; [exact Y1|]. eapply Rle_trans; [apply Rabs_triang|]. apply Rplus_le_compat; [|exact SA].
      rewrite Rabs_mult, (Rabs_pos_eq (na * na)) by nra. apply Rmult_le_compat; try apply Rabs_pos; try lra; nra.
    - assert (h * h <= / 1000000 * h) by (apply Rmult_le_compat_r; lra). unfold g, h in *. lra.
Qed.
End Library.

(** ** The case: from no turn to the exchange of the axes in a cycle *)
Lemma step_half : let h := f64_lit 1 (-1) in step (one TSpin) (mkSpin (Sca h) (Biv h h h)) = mkSpin (Sca h) (Biv h h h).
Proof.
  cbv zeta. set (h := f64_lit 1 (-1)).
  assert (E1 : sca_0 (spinSca (step (one TSpin) (mkSpin (Sca h) (Biv h h h)))) = h) by (apply B2SF_inj; vm_compute; reflexivity).
  assert (E2 : biv_0 (spinBiv (step (one TSpin) (mkSpin (Sca h) (Biv h h h)))) = h) by (apply B2SF_inj; vm_compute; reflexivity).
  assert (E3 : biv_1 (spinBiv (step (one TSpin) (mkSpin (Sca h) (Biv h h h)))) = h) by (apply B2SF_inj; vm_compute; reflexivity).
  assert (E4 : biv_2 (spinBiv (step (one TSpin) (mkSpin (Sca h) (Biv h h h)))) = h) by (apply B2SF_inj; vm_compute; reflexivity).
  revert E1 E2 E3 E4. generalize (step (one TSpin) (mkSpin (Sca h) (Biv h h h))). intros [[[c]] [[x y z]]] E1 E2 E3 E4.
  cbn in E1, E2, E3, E4. rewrite E1, E2, E3, E4. reflexivity.
Qed.
Lemma example_attitudes : let h := f64_lit 1 (-1) in let b := mkSpin (Sca h) (Biv h h h) in let plane := Biv (f64_lit 0 0) (f64_lit 1 0) (f64_lit 0 0) in
  attitude 0 (one TSpin) /\ attitude 0 b /\ root_domain (step (one TSpin) b) plane /\
  bpow radix2 (-23) * cnorm (exactly TSpin (step (one TSpin) b)) <= cnorm (exactly TBiv (spinBiv (step (one TSpin) b))).
Proof.
  cbv zeta. rewrite step_half. set (h := f64_lit 1 (-1)). destruct (lit_of 1 (-1) ltac:(lia) ltac:(lia)) as [Fh Bh]. fold h in Fh, Bh.
  change (bpow radix2 (-1)) with (/ 2) in Bh. set (b := mkSpin (Sca h) (Biv h h h)). set (plane := Biv (f64_lit 0 0) _ _).
  assert (Fb : all_finite TSpin b) by (unfold all_finite; repeat constructor; exact Fh).
  assert (Nb : cnorm2 (exactly TSpin b) = 1) by (unfold exactly, b; cbv -[B2R h Rplus Rmult R0 IZR Ropp]; rewrite Bh; field).
  assert (Nc : cnorm (exactly TSpin b) = 1) by (unfold cnorm; rewrite Nb; apply sqrt_1).
  assert (Nv : 1 / 2 <= cnorm (exactly TBiv (spinBiv b))).
  { eapply Rle_trans; [|apply (comp_le_norm _ bE23)]. replace (exactly TBiv (spinBiv b) bE23) with (b2r h) by reflexivity. rewrite Bh, Rabs_pos_eq; lra. }
  assert (P : forall e, (e <= 0)%Z -> bpow radix2 e <= 1) by (intros e He; change 1 with (bpow radix2 0); apply bpow_le; exact He).
  assert (P1 : forall e, (0 <= e)%Z -> 1 <= bpow radix2 e) by (intros e He; change 1 with (bpow radix2 0); apply bpow_le; exact He).
  assert (P2 : forall e, (e <= -1)%Z -> bpow radix2 e <= / 2) by (intros e He; change (/ 2) with (bpow radix2 (-1)); apply bpow_le; exact He).
  destruct example_root_domain as (_ & _ & Fp & Hp & Cp). fold plane in Fp, Hp, Cp.
  split; [|split; [|split]].
  - split; [unfold all_finite; repeat constructor|]. rewrite <- cnorm_sq, (cnorm_ceq _ _ one_exactly), cone_norm. rewrite Rabs_pos_eq; lra.
  - split; [exact Fb|]. rewrite Nb, Rabs_pos_eq; lra.
  - assert (V : valid_number h). { split; [exact Fh|]. right. rewrite Bh, Rmult_1_l, Rabs_pos_eq by lra. apply P2. lia. }
    split; [|split; [|split; [exact Fp|split; [exact Hp|exact Cp]]]].
    + split; [exact Fb|]. rewrite Nc. split; [split; [apply P|apply P1]; lia|]. split; exact V.
    + right. rewrite Nc. change (biv_0 (spinBiv b)) with h. rewrite Bh, Rabs_pos_eq by lra. pose proof (P2 (-900)%Z ltac:(lia)). lra.
  - rewrite Nc. pose proof (P2 (-23)%Z ltac:(lia)). lra.
Qed.
