(** * exp, logG2 and sqrtG2 in exact arithmetic (proofs only). *)

Require Import Reals Lra Lia List Bool Setoid Morphisms.
From Flocq Require Import Core.
From Coquelicot Require Import Coquelicot.
Require Import Verif.Num Verif.Types Verif.Priv Verif.OpsUni Verif.OpsAdd
  Verif.OpsSub Verif.OpsMul Verif.Const Verif.Validity Verif.Func Verif.SpecCl Verif.SpecExp
  Verif.RealInst Verif.AlgTac Verif.AlgMul Verif.AlgFacts Verif.AlgSpec Verif.AlgThm
  Verif.FuncFacts Verif.ExpFacts.
Import ListNotations.
Local Open Scope R_scope.

Lemma Rltb_spec x y : Rltb x y = true <-> x < y.
Proof. unfold Rltb; destruct (Rlt_dec x y); split; intros; (assumption || reflexivity || discriminate || contradiction). Qed.

Lemma biv_sq (B : BiVector R) :
  ceq (gp (den TBiv B) (den TBiv B)) (cscale (- (cnorm (den TBiv B) * cnorm (den TBiv B))) cone).
Proof. rewrite cnorm_sq; dvals; intro k; dblade k; dring. Qed.

Lemma spin_some a b c d a' b' c' d' : a = a' -> b = b' -> c = c' -> d = d' ->
  mkSpin (Sca (Some a : xreal)) (Biv (Some b) (Some c) (Some d)) =
  exact TSpin (mkSpin (Sca a') (Biv b' c' d')).
Proof. intros -> -> -> ->; reflexivity. Qed.
Lemma sin_le_abs x : Rabs (sin x) <= Rabs x.
Proof.
  assert (H : forall y, 0 <= y -> Rabs (sin y) <= y).
  { intros y Hy; destruct (Rle_lt_or_eq_dec 0 y Hy) as [h|<-];
      [|rewrite sin_0, Rabs_R0; lra].
    apply Rabs_le; split; [|apply Rlt_le, sin_lt_x, h].
    destruct (Rle_or_lt y PI) as [hp|hp].
    - pose proof (sin_ge_0 y Hy hp); lra.
    - pose proof (SIN_bound y); pose proof PI2_1; lra. }
  destruct (Rle_or_lt 0 x) as [h|h].
  - rewrite (Rabs_pos_eq x h); apply H, h.
  - rewrite <- (Rabs_Ropp (sin x)), <- sin_neg, <- (Rabs_Ropp x), (Rabs_pos_eq (- x)) by lra.
    apply H; lra.
Qed.

(** ** exp(BiVector) *)
Definition rotor (c q : R) (B : BiVector R) : Spinor R := mkSpin (Sca c) (scale TBiv q B).
Lemma rotor_den c q B : ceq (den TSpin (rotor c q B)) (cadd (cscale c cone) (cscale q (den TBiv B))).
Proof. dvals; intro k; dblade k; dring. Qed.

Lemma exp_Biv_exact : forall B : BiVector R,
  exp_Biv (exact TBiv B) = exact TSpin
    (if Rltb tiny (cnorm (den TBiv B))
     then rotor (cos (cnorm (den TBiv B))) (sinc (cnorm (den TBiv B))) B
     else rotor 1 0 (zero TBiv)).
Proof.
  intros B; unfold exp_Biv.
  change (isValid_Biv (exact TBiv B)) with (isValid TBiv (exact TBiv B)).
  rewrite isValid_exact, pairMagDir_exact; cbv zeta; cbn [fst snd].
  destruct (Rltb tiny (cnorm (den TBiv B))) eqn:E.
  - change (isValid_Biv (exact TBiv ?b)) with (isValid TBiv (exact TBiv b)); rewrite isValid_exact.
    apply Rltb_spec in E; pose proof tiny_pos.
    unfold sinc; destruct (Req_EM_T (cnorm (den TBiv B)) 0) as [h|_]; [lra|].
    generalize dependent (cnorm (den TBiv B)); intros m Hm.
    dvals; apply spin_some; [reflexivity | | |]; cbn -[Rmult Rdiv sin cos]; field; lra.
  - change (isValid_Biv (null TBiv : BiVector xreal)) with false; cbv iota.
    cbv -[Rplus Rminus Rmult Ropp Rinv Rdiv R R0 R1 IZR cos sin].
    replace (0 * 0) with 0 by ring; reflexivity.
Qed.

Lemma cnorm2_rotor c q B :
  cnorm2 (cadd (cscale c cone) (cscale q (den TBiv B))) = c * c + q * q * cnorm2 (den TBiv B).
Proof. dvals; dring. Qed.

(** Bivectors on which the code computes the series exactly. *)

Lemma cnorm_zero : cnorm czero = 0.
Proof. unfold cnorm; replace (cnorm2 czero) with 0 by dring; apply sqrt_0. Qed.

Lemma exp_Biv_series : forall B : BiVector R, exists r E,
  exp_Biv (exact TBiv B) = exact TSpin r /\ is_cexp (den TBiv B) E /\
  (nontiny B -> ceq (den TSpin r) E) /\ cnorm (csub (den TSpin r) E) <= tiny.
Proof.
  intros B; rewrite exp_Biv_exact.
  set (m := cnorm (den TBiv B)).
  exists (if Rltb tiny m then rotor (cos m) (sinc m) B else rotor 1 0 (zero TBiv)).
  exists (cadd (cscale (cos m) cone) (cscale (sinc m) (den TBiv B))).
  split; [reflexivity|]; split; [apply cexp_square, biv_sq|].
  destruct (Rltb tiny m) eqn:E.
  - split; [intros _; apply rotor_den|].
    rewrite (cnorm_ceq _ czero); [rewrite cnorm_zero; apply Rlt_le, tiny_pos|].
    rewrite rotor_den; intro k; unfold csub, czero; ring.
  - assert (Hm : m <= tiny).
    { destruct (Rle_or_lt m tiny) as [h|h]; [exact h|]; apply Rltb_spec in h; congruence. }
    split.
    + intros [->|h]; [|fold m in h; lra].
      assert (Hm0 : m = 0).
      { subst m; rewrite (cnorm_ceq _ _ (zero_den TBiv)); apply cnorm_zero. }
      clearbody m; subst m; rewrite rotor_den, cos_0; unfold sinc.
      destruct (Req_EM_T 0 0); [|lra].
      rewrite zero_den; intro k; unfold cadd, cscale, czero; ring.
    + assert (E1 : ceq (csub (den TSpin (rotor 1 0 (zero TBiv)))
                     (cadd (cscale (cos m) cone) (cscale (sinc m) (den TBiv B))))
                    (cadd (cscale (1 - cos m) cone) (cscale (- sinc m) (den TBiv B)))).
      { rewrite rotor_den, zero_den; intro k; unfold cadd, csub, cscale, czero; ring. }
      rewrite (cnorm_ceq _ _ E1); eapply Rle_trans; [|exact Hm].
      assert (Hm0 : 0 <= m) by apply cnorm_nonneg.
      unfold cnorm at 1; rewrite cnorm2_rotor, <- cnorm_sq; fold m.
      replace (- sinc m * - sinc m * (m * m)) with ((m * sinc m) * (m * sinc m)) by ring.
      rewrite sinc_mul.
      replace ((1 - cos m) * (1 - cos m) + sin m * sin m) with (2 * (1 - cos m)).
      2:{ pose proof (sin2_cos2 m) as h; unfold Rsqr in h; nra. }
      assert (Hb : 2 * (1 - cos m) <= m * m).
      { replace (cos m) with (cos (2 * (m / 2))) by (f_equal; field).
        rewrite cos_2a_sin.
        assert (Hs : Rabs (sin (m / 2)) <= Rabs (m / 2)) by apply sin_le_abs.
        apply Rsqr_le_abs_1 in Hs; unfold Rsqr in Hs; nra. }
      eapply Rle_trans; [apply sqrt_le_1_alt; exact Hb|]; rewrite sqrt_square by exact Hm0; lra.
Qed.

Lemma exp_Biv_unit : forall B : BiVector R, exists r,
  exp_Biv (exact TBiv B) = exact TSpin r /\ cnorm (den TSpin r) = 1.
Proof.
  intros B; rewrite exp_Biv_exact; eexists; split; [reflexivity|].
  set (m := cnorm (den TBiv B)).
  assert (H : forall c q (A : BiVector R), c * c + q * q * cnorm2 (den TBiv A) = 1 -> cnorm (den TSpin (rotor c q A)) = 1).
  { intros c q A h; rewrite (cnorm_ceq _ _ (rotor_den c q A)); unfold cnorm; rewrite cnorm2_rotor, h; apply sqrt_1. }
  destruct (Rltb tiny m); apply H.
  - rewrite <- cnorm_sq; fold m.
    replace (sinc m * sinc m * (m * m)) with ((m * sinc m) * (m * sinc m)) by ring.
    rewrite sinc_mul; pose proof (sin2_cos2 m) as h; unfold Rsqr in h; lra.
  - ring.
Qed.

Lemma exp_Biv_zero : exp_Biv (exact TBiv (zero TBiv)) = exact TSpin (one TSpin).
Proof.
  rewrite exp_Biv_exact, (cnorm_ceq _ _ (zero_den TBiv)), cnorm_zero.
  rewrite Rltb_false by (apply Rlt_le, tiny_pos).
  apply (f_equal (exact TSpin)), (den_inj TSpin); intro k; dblade k; dring.
Qed.

Lemma cnorm_neg_biv (B : BiVector R) : cnorm (den TBiv (neg TBiv B)) = cnorm (den TBiv B).
Proof.
  unfold cnorm; f_equal; rewrite (cnorm2_ceq _ _ (neg_den TBiv B)); apply cnorm2_opp.
Qed.
Lemma exp_Biv_inverse : forall B : BiVector R, exists r r',
  exp_Biv (exact TBiv B) = exact TSpin r /\ exp_Biv (exact TBiv (neg TBiv B)) = exact TSpin r' /\
  ceq (den _ (mul TSpin TSpin r r')) cone /\ ceq (den _ (mul TSpin TSpin r' r)) cone /\
  r' = reverse TSpin r.
Proof.
  intros B; rewrite !exp_Biv_exact, cnorm_neg_biv.
  set (m := cnorm (den TBiv B)).
  do 2 eexists; split; [reflexivity|]; split; [reflexivity|].
  assert (H : forall c q, c * c + q * q * cnorm2 (den TBiv B) = 1 ->
    ceq (den _ (mul TSpin TSpin (rotor c q B) (rotor c q (neg TBiv B)))) cone /\
    ceq (den _ (mul TSpin TSpin (rotor c q (neg TBiv B)) (rotor c q B))) cone).
  { intros c q h; rewrite !mul_den, !rotor_den, neg_den.
    assert (S2 : forall x, ceq (gp (cadd (cscale c cone) (cscale x (den TBiv B)))
               (cadd (cscale c cone) (cscale (-x) (den TBiv B))))
       (cscale (c * c + x * x * cnorm2 (den TBiv B)) cone)).
    { intro x; dvals; intro k; dblade k; dring. }
    assert (N : forall x, ceq (cscale x (copp (den TBiv B))) (cscale (- x) (den TBiv B)))
      by (intros x k; unfold cscale, copp; ring).
    rewrite !N, S2; split.
    - rewrite h; intro k; unfold cscale; ring.
    - pose proof (S2 (- q)) as h2; rewrite Ropp_involutive in h2; rewrite h2.
      replace (- q * - q) with (q * q) by ring; rewrite h; intro k; unfold cscale; ring. }
  destruct (Rltb tiny m).
  - assert (h : cos m * cos m + sinc m * sinc m * cnorm2 (den TBiv B) = 1).
    { rewrite <- cnorm_sq; fold m.
      replace (sinc m * sinc m * (m * m)) with ((m * sinc m) * (m * sinc m)) by ring.
      rewrite sinc_mul; pose proof (sin2_cos2 m) as h; unfold Rsqr in h; lra. }
    destruct (H _ _ h) as [H1 H2]; split; [exact H1|]; split; [exact H2|].
    apply (den_inj TSpin); clearbody m; dvals; intro k; dblade k; dring.
  - repeat split; try (intro k; dblade k; dring).
    apply (den_inj TSpin); intro k; dblade k; dring.
Qed.

Lemma exp_Biv_nontiny : forall B : BiVector R, nontiny B -> exists r,
  exp_Biv (exact TBiv B) = exact TSpin r /\ is_cexp (den TBiv B) (den TSpin r).
Proof.
  intros B HB; destruct (exp_Biv_series B) as (r & E & H1 & H2 & H3 & _).
  exists r; split; [exact H1|].
  apply (is_cexp_ceq (den TBiv B) (den TBiv B) E); [reflexivity | symmetry; apply H3, HB | exact H2].
Qed.
Lemma exp_Biv_add : forall (A B : BiVector R) ,
  ceq (den _ (mul TBiv TBiv A B)) (den _ (mul TBiv TBiv B A)) ->
  nontiny A -> nontiny B -> nontiny (add_Biv_Biv A B) ->
  exists ra rb rc, exp_Biv (exact TBiv A) = exact TSpin ra /\ exp_Biv (exact TBiv B) = exact TSpin rb /\
    exp_Biv (exact TBiv (add_Biv_Biv A B)) = exact TSpin rc /\
    rc = mul TSpin TSpin ra rb.
Proof.
  intros A B Hc HA HB HAB.
  destruct (exp_Biv_nontiny A HA) as (ra & Ea & Sa).
  destruct (exp_Biv_nontiny B HB) as (rb & Eb & Sb).
  destruct (exp_Biv_nontiny _ HAB) as (rc & Ec & Sc).
  exists ra, rb, rc; repeat (split; [assumption|]).
  apply (den_inj TSpin); rewrite (mul_den TSpin TSpin).
  rewrite !mul_den in Hc.
  apply (is_cexp_unique (den TBiv (add_Biv_Biv A B))); [exact Sc|].
  apply (is_cexp_ceq (cadd (den TBiv A) (den TBiv B)) _ (gp (den TSpin ra) (den TSpin rb)));
   [symmetry; apply (add_den TBiv TBiv) | reflexivity | apply cexp_add; assumption].
Qed.
Lemma exp_Biv_scaled : forall (B : BiVector R) s t,
  nontiny (scale TBiv s B) -> nontiny (scale TBiv t B) -> nontiny (scale TBiv (s + t) B) ->
  exists rs rt rst, exp_Biv (exact TBiv (scale TBiv s B)) = exact TSpin rs /\
    exp_Biv (exact TBiv (scale TBiv t B)) = exact TSpin rt /\
    exp_Biv (exact TBiv (scale TBiv (s + t) B)) = exact TSpin rst /\
    rst = mul TSpin TSpin rs rt.
Proof.
  intros B s t Hs Ht Hst.
  assert (E : scale TBiv (s + t) B = add_Biv_Biv (scale TBiv s B) (scale TBiv t B)).
  { apply (den_inj TBiv); dvals; intro k; dblade k; dring. }
  rewrite E in *; apply exp_Biv_add; try assumption.
  rewrite !mul_den, !scale_den, !gp_scale_l, !gp_scale_r; intro k; unfold cscale; ring.
Qed.

(** ** exp(Spinor) *)
Definition spin_den (S : Spinor R) :
  ceq (den TSpin S) (cadd (cscale (sca_0 (spinSca S)) cone) (den TBiv (spinBiv S))).
Proof. dvals; intro k; dblade k; dring. Qed.
Lemma exp_Spin_exact : forall (S : Spinor R) r, exp_Biv (exact TBiv (spinBiv S)) = exact TSpin r ->
  exp_Spin (exact TSpin S) = exact TSpin (scale TSpin (exp (sca_0 (spinSca S))) r).
Proof.
  intros S r Hr; unfold exp_Spin.
  change (spinBiv (exact TSpin S)) with (exact TBiv (spinBiv S)); rewrite Hr.
  change (mexp (sca_0 (spinSca (exact TSpin S)))) with (Some (exp (sca_0 (spinSca S)))).
  apply (scale_exact TSpin).
Qed.
Lemma gp_scalar_l s a : ceq (gp (cscale s cone) a) (cscale s a).
Proof. rewrite gp_scale_l, gp_one_l; reflexivity. Qed.
Lemma exp_Spin_series : forall S : Spinor R, exists r E,
  exp_Spin (exact TSpin S) = exact TSpin r /\ is_cexp (den TSpin S) E /\
  (nontiny (spinBiv S) -> ceq (den TSpin r) E) /\
  cnorm (csub (den TSpin r) E) <= exp (sca_0 (spinSca S)) * tiny.
Proof.
  intros S; destruct (exp_Biv_series (spinBiv S)) as (r & E & H1 & H2 & H3 & H4).
  set (s := sca_0 (spinSca S)).
  exists (scale TSpin (exp s) r), (cscale (exp s) E).
  split; [apply exp_Spin_exact, H1|]; split; [|split].
  - apply (is_cexp_ceq (cadd (cscale s cone) (den TBiv (spinBiv S))) _
      (gp (cscale (exp s) cone) E)); [symmetry; apply spin_den | apply gp_scalar_l|].
    apply cexp_add; [|apply cexp_scalar | exact H2].
    rewrite gp_scalar_l, gp_scale_r, gp_one_r; reflexivity.
  - intros h; rewrite (scale_den TSpin), (H3 h); reflexivity.
  - rewrite (cnorm_ceq _ (cscale (exp s) (csub (den TSpin r) E))).
    + rewrite cnorm_scale, Rabs_pos_eq by (apply Rlt_le, exp_pos).
      apply Rmult_le_compat_l; [apply Rlt_le, exp_pos | exact H4].
    + rewrite (scale_den TSpin); intro k; unfold csub, cscale; ring.
Qed.
Lemma exp_Spin_inverse : forall S : Spinor R, exists r r',
  exp_Spin (exact TSpin S) = exact TSpin r /\ exp_Spin (exact TSpin (neg TSpin S)) = exact TSpin r' /\
  ceq (den _ (mul TSpin TSpin r r')) cone /\ ceq (den _ (mul TSpin TSpin r' r)) cone.
Proof.
  intros S; destruct (exp_Biv_inverse (spinBiv S)) as (r & r' & H1 & H2 & H3 & H4 & _).
  assert (Es : exp (sca_0 (spinSca (neg TSpin S))) = exp (- sca_0 (spinSca S))) by (destruct S; reflexivity).
  exists (scale TSpin (exp (sca_0 (spinSca S))) r), (scale TSpin (exp (- sca_0 (spinSca S))) r').
  split; [apply exp_Spin_exact, H1|].
  split; [rewrite <- Es; apply (exp_Spin_exact (neg TSpin S)); destruct S; exact H2|].
  rewrite !mul_den, !(scale_den TSpin), !gp_scale_l, !gp_scale_r in *.
  rewrite H3, H4.
  assert (E : exp (sca_0 (spinSca S)) * exp (- sca_0 (spinSca S)) = 1)
    by (rewrite <- exp_plus, Rplus_opp_r; apply exp_0).
  split; intro k; unfold cscale; rewrite <- Rmult_assoc, ?E; [ring|].
  rewrite (Rmult_comm (exp (- _))), E; ring.
Qed.
