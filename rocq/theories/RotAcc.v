(** * Rotations by computed exponentials on binary64: proofs. *)

Require Import Reals ZArith List Bool Lra Lia.
From Flocq Require Import Core BinarySingleNaN.
Require Import Verif.Num Verif.Types Verif.Priv Verif.OpsUni Verif.OpsAdd Verif.OpsSub
  Verif.OpsMul Verif.Const Verif.Validity Verif.Func Verif.SpecCl Verif.RealInst Verif.AlgTac Verif.AlgMul Verif.AlgFacts Verif.SpecFunc
  Verif.FuncFacts Verif.SpecExp Verif.ExpFacts Verif.ExpThm Verif.Rel Verif.B64 Verif.B64Facts Verif.SpecValid
  Verif.SpecRound Verif.ErrFacts Verif.SpecAcc Verif.BoundFacts Verif.AccFacts Verif.NormFacts Verif.ExpAcc Verif.LogAcc.
Import ListNotations.
Local Open Scope R_scope.

Lemma spin_sub : forall s e : Spinor R, exists d : Spinor R, ceq (csub (den TSpin s) (den TSpin e)) (den TSpin d).
Proof.
  intros [[[a]] [[p q r]]] [[[b]] [[x y z]]]. exists (mkSpin (Sca (a - b)) (Biv (p - x) (q - y) (r - z))).
  intros k; dblade k; unfold csub; cbv -[Rplus Rminus Rmult Ropp R0 IZR]; ring.
Qed.
Lemma crev_spin : forall s : Spinor R, rev_scalar (crev (den TSpin s)).
Proof.
  intros s. destruct (unmixed_rev TSpin s eq_refl) as [A B].
  split; intros k; rewrite cnorm2_rev.
  - rewrite <- (B k). apply gp_ceq; [apply crev_crev|intros ?; reflexivity].
  - rewrite <- (A k). apply gp_ceq; [intros ?; reflexivity|apply crev_crev].
Qed.
Lemma cnorm_crev : forall a, cnorm (crev a) = cnorm a.
Proof. intros a. unfold cnorm. rewrite cnorm2_rev. reflexivity. Qed.
(** Nearby rotors rotate nearly alike. *)
Lemma sandwich_lip : forall (s e : Spinor R) (V : clf), let S := den TSpin s in let E := den TSpin e in
  cnorm (csub (gp (gp S V) (crev S)) (gp (gp E V) (crev E))) <= cnorm (csub S E) * cnorm V * (cnorm S + cnorm E).
Proof.
  intros s e V S E. destruct (spin_sub s e) as [d Hd]. fold S E in Hd. set (D := den TSpin d) in *.
  assert (RD : rev_scalar D) by (apply unmixed_rev; reflexivity).
  rewrite (cnorm_ceq _ (cadd (gp (gp D V) (crev S)) (gp (gp E V) (crev D)))).
  2:{ assert (R : ceq (crev D) (csub (crev S) (crev E))).
      { intros k. unfold crev, csub. rewrite <- (Hd k). unfold csub. dblade k; cbv -[Rplus Rminus Rmult Ropp R0 IZR S E]; ring. }
      intros k. unfold cadd, csub at 1.
      rewrite (gp_ceq (gp D V) (csub (gp S V) (gp E V)) (crev S) (crev S)); [|intros i|intros i; reflexivity].
      2:{ rewrite <- (gp_sub_l S E V i). apply gp_ceq; [intros j; symmetry; apply Hd|intros j; reflexivity]. }
      rewrite (gp_sub_l (gp S V) (gp E V) (crev S) k).
      rewrite (gp_ceq (gp E V) (gp E V) (crev D) _ (fun _ => eq_refl) R k), (gp_sub_r (crev S) (crev E) (gp E V) k). unfold csub. ring. }
  eapply Rle_trans; [apply cnorm_triangle|].
  rewrite (norm_gp_r _ (crev S)) by apply crev_spin. rewrite (norm_gp_r _ (crev D)) by apply crev_spin.
  rewrite (norm_gp_l D V) by exact RD. rewrite (norm_gp_l E V) by (apply unmixed_rev; reflexivity).
  rewrite !cnorm_crev, (cnorm_ceq _ _ Hd). lra.
Qed.
Lemma cexp_biv_spin : forall (b : BiVector f64) E, is_cexp (exactly TBiv b) E -> exists e : Spinor R, ceq E (den TSpin e).
Proof.
  intros b E HE. set (X := exactly TBiv b) in *.
  assert (Q : ceq E (cadd (cscale (cos (cnorm X)) cone) (cscale (sinc (cnorm X)) X))).
  { apply (is_cexp_unique X); [exact HE|]. apply cexp_square. apply (biv_sq (mapv (fun v : f64 => b2r v) TBiv b)). }
  revert Q. generalize (cos (cnorm X)) (sinc (cnorm X)). intros c d Q. unfold X in Q. clear -Q.
  destruct b as [[x y z]].
  exists (mkSpin (Sca c) (Biv (d * b2r x) (d * b2r y) (d * b2r z))). intros k. rewrite (Q k).
  unfold cadd, cscale, cone, exactly. dblade k; cbv -[B2R Rplus Rmult Ropp R0 IZR]; ring.
Qed.
Lemma spin_within : forall (x : Spinor f64) (e : Z), all_finite TSpin x -> cnorm (exactly TSpin x) <= bpow radix2 e ->
  within e TSpin x /\ within e TSpin (reverse TSpin x).
Proof.
  intros x e F H.
  assert (C : forall k, Rabs (exactly TSpin x k) <= bpow radix2 e) by (intros k; eapply Rle_trans; [apply comp_le_norm|exact H]).
  destruct x as [[[a]] [[p q r]]]. unfold all_finite in F.
  inversion F as [|? ? Fa F1]; subst. inversion F1 as [|? ? Fp F2]; subst. inversion F2 as [|? ? Fq F3]; subst. inversion F3 as [|? ? Fr _]; subst.
  pose proof (C bS) as Ca. pose proof (C bE23) as Cp. pose proof (C bE13) as Cq. pose proof (C bE12) as Cr.
  assert (Ca' : Rabs (b2r a) <= bpow radix2 e) by exact Ca.
  assert (Cp' : Rabs (b2r p) <= bpow radix2 e) by exact Cp.
  assert (Cq' : Rabs (b2r q) <= bpow radix2 e) by (first [exact Cq | rewrite <- Rabs_Ropp; exact Cq]).
  assert (Cr' : Rabs (b2r r) <= bpow radix2 e) by exact Cr.
  assert (O : forall v : f64, is_finite v = true -> Rabs (b2r v) <= bpow radix2 e -> is_finite (Bopp v) = true /\ Rabs (B2R (Bopp v)) <= bpow radix2 e).
  { intros v Fv Hv. rewrite is_finite_Bopp, B2R_Bopp, Rabs_Ropp. split; assumption. }
  split; unfold within.
  - repeat (apply Forall_cons; [split; assumption|]). apply Forall_nil.
  - change (elems TSpin (reverse TSpin _)) with [a; Bopp p; Bopp q; Bopp r]. 
    apply Forall_cons; [split; assumption|]. repeat (apply Forall_cons; [apply O; assumption|]). apply Forall_nil.
Qed.
Section Rot.
Context (L : Libm f64).
Lemma exp_rotation : forall eps, trig_within eps L -> eps <= / 16 -> forall (b : BiVector f64) E, exp_domain b ->
  is_cexp (exactly TBiv b) E ->
  forall (e : Z) t (v : val f64 t), (-1076 <= e <= 1013)%Z -> within e t v ->
  let s := exp_Biv b in
  let r := mul _ TSpin (mul TSpin t s v) (reverse TSpin s) in
  let V := exactly t v in
  let delta := 2 * eps + 16 * unit_roundoff * (1 + cnorm (exactly TBiv b)) in
  let bound := (269 * unit_roundoff + 13 / 4 * delta) * cnorm V + 88 * underflow_unit in
  all_finite _ r /\
  cnorm (csub (exactly _ r) (gp (gp E V) (crev E))) <= bound /\
  Rabs (cnorm (exactly _ r) - cnorm V) <= bound.
Proof.
  intros eps T He b E D HE e t v Re W s r V delta bound.
  destruct (exp_Biv_accurate eps T He b E D HE) as (F & N & A). fold s in F, N, A. fold delta in A.
  destruct (spin_within s 2 F) as [W1 W2]; [change (bpow radix2 2) with 4; lra|].
  assert (Fr : all_finite _ r).
  { assert (W3 : within (2 + e + 3) _ (mul TSpin t s v)) by (apply mul_within; [lia|lia|exact W1|exact W]).
    assert (W4 : within (2 + e + 3 + 2 + 3) _ r) by (apply mul_within; [lia|lia|exact W3|exact W2]).
    unfold within in W4. unfold all_finite. eapply Forall_impl; [|exact W4]. intros x Hx. apply Hx. }
  pose proof (sandwich_error s t v Fr) as SE. cbv zeta in SE. fold r V in SE. 
  destruct (cexp_biv_spin b E HE) as [q Hq]. pose proof (cexp_biv_norm b E HE) as N1.
  set (S := exactly TSpin s) in *.
  pose proof (sandwich_lip (mapv (fun v : f64 => b2r v) TSpin s) q V) as SL. cbv zeta in SL.
  change (den TSpin (mapv (fun v : f64 => b2r v) TSpin s)) with S in SL.
  assert (Hr : ceq (crev (den TSpin q)) (crev E)) by (intros k; unfold crev; rewrite <- (Hq k); reflexivity).
  assert (G : ceq (gp (gp (den TSpin q) V) (crev (den TSpin q))) (gp (gp E V) (crev E))).
  { apply gp_ceq; [|exact Hr]. apply gp_ceq; [intros k; symmetry; apply Hq|intros k; reflexivity]. }
  assert (N2 : cnorm (den TSpin q) = 1) by (rewrite <- (cnorm_ceq _ _ Hq); exact N1).
  rewrite N2 in SL.
  rewrite (cnorm_ceq (csub S (den TSpin q)) (csub S E)) in SL by (intros k; unfold csub; rewrite (Hq k); reflexivity).
  rewrite (cnorm_ceq (csub (gp (gp S V) (crev S)) (gp (gp (den TSpin q) V) (crev (den TSpin q))))
     (csub (gp (gp S V) (crev S)) (gp (gp E V) (crev E)))) in SL by (intros k; unfold csub; rewrite (G k); reflexivity).
  pose proof (cnorm_nonneg V) as PV. pose proof (cnorm_nonneg S) as PS. pose proof (cnorm_nonneg (csub S E)) as PD.
  change unit_roundoff with u53 in *. change underflow_unit with eta in *. pose proof u53_pos as PU. pose proof eta_pos as PE.
  assert (M : cnorm (csub (exactly _ r) (gp (gp E V) (crev E))) <= bound).
  { eapply Rle_trans; [apply (norm_sub_le _ (gp (gp S V) (crev S)))|]. rewrite <- cnorm_sq in SE.
    assert (Q1 : cnorm S * cnorm S <= 81 / 16) by (replace (81 / 16) with (9 / 4 * (9 / 4)) by field; apply Rmult_le_compat; lra).
    assert (Q2 : 53 * u53 * (cnorm S * cnorm S * cnorm V) <= 269 * u53 * cnorm V).
    { replace (53 * u53 * (cnorm S * cnorm S * cnorm V)) with (53 * (cnorm S * cnorm S) * (u53 * cnorm V)) by ring.
      replace (269 * u53 * cnorm V) with (269 * (u53 * cnorm V)) by ring. apply Rmult_le_compat_r; [apply Rmult_le_pos; lra|lra]. }
    assert (Q3 : 27 * eta * (1 + cnorm S) <= 88 * eta).
    { replace (27 * eta * (1 + cnorm S)) with (27 * (1 + cnorm S) * eta) by ring. apply Rmult_le_compat_r; lra. }
    assert (Q4 : cnorm (csub S E) * cnorm V * (cnorm S + 1) <= 13 / 4 * delta * cnorm V).
    { replace (13 / 4 * delta * cnorm V) with (delta * cnorm V * (13 / 4)) by ring.
      apply Rmult_le_compat; [apply Rmult_le_pos; assumption|lra|apply Rmult_le_compat_r; assumption|lra]. }
    unfold bound. lra. }
  split; [exact Fr|]. split; [exact M|].
  assert (NE : cnorm (gp (gp E V) (crev E)) = cnorm V).
  { rewrite <- (cnorm_ceq _ _ G), (norm_gp_r _ _ (crev_spin q)), cnorm_crev, N2, (norm_gp_l (den TSpin q) V) by (apply unmixed_rev; reflexivity).
    rewrite N2. ring. }
  set (Z := gp (gp E V) (crev E)) in *.
  pose proof (norm_le_sub (exactly _ r) Z) as H1. pose proof (norm_le_sub Z (exactly _ r)) as H2.
  assert (SY : cnorm (csub Z (exactly _ r)) = cnorm (csub (exactly _ r) Z)).
  { assert (O : Rabs (-1) = 1) by (unfold Rabs; destruct Rcase_abs; lra).
    rewrite <- (Rmult_1_l (cnorm (csub (exactly _ r) Z))), <- O, <- cnorm_scale.
    apply cnorm_ceq. intros k. unfold csub, cscale. ring. }
  rewrite SY in H2. apply Rabs_le. lra.
Qed.
End Rot.
