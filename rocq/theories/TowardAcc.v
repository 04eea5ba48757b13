(** * Turning one vector into another on binary64: proofs. *)

Require Import Reals ZArith List Bool Lra Lia.
From Flocq Require Import Core BinarySingleNaN.
Require Import Verif.Num Verif.Types Verif.Priv Verif.OpsUni Verif.OpsAdd Verif.OpsSub
  Verif.OpsMul Verif.Const Verif.Validity Verif.Func Verif.SpecCl Verif.RealInst Verif.AlgTac Verif.AlgMul Verif.AlgFacts Verif.SpecFunc Verif.SpecGeom
  Verif.FuncFacts Verif.SpecExp Verif.ExpFacts Verif.ExpThm Verif.LogThm Verif.Rel Verif.B64 Verif.B64Facts Verif.SpecValid Verif.ValidFacts
  Verif.SpecRound Verif.ErrFacts Verif.SpecAcc Verif.BoundFacts Verif.AccFacts Verif.NormFacts Verif.ExpAcc Verif.LogAcc Verif.RootAcc Verif.RotAcc Verif.SpecPrin Verif.ExtentFacts Verif.SpecToward Verif.TowardFacts.
Import ListNotations.
Local Open Scope R_scope.

(** Spinors with nearly equal squares are nearly equal, or nearly opposite. *)
Lemma root_stable : forall q Q : Spinor R, 0 <= sca_0 (spinSca q) + sca_0 (spinSca Q) ->
  (sca_0 (spinSca q) + sca_0 (spinSca Q)) * cnorm (csub (den TSpin Q) (den TSpin q)) <=
  cnorm (csub (gp (den TSpin Q) (den TSpin Q)) (gp (den TSpin q) (den TSpin q))).
Proof.
  intros q Q H. set (f := sca_0 (spinSca q) + sca_0 (spinSca Q)) in *. unfold cnorm. rewrite <- (sqrt_square f H) at 1.
  rewrite <- sqrt_mult_alt by (apply Rmult_le_pos; exact H). apply sqrt_le_1_alt. apply Rge_le, Rminus_ge, Rle_ge. unfold f. clear.
  destruct q as [[[a]] [[x y z]]], Q as [[[b]] [[u v w]]].
  replace (_ - _) with (Rsqr ((u - x) * (u + x) + (v - y) * (v + y) + (w - z) * (w + z)) +
    Rsqr (b - a) * (Rsqr (u + x) + Rsqr (v + y) + Rsqr (w + z))).
  - pose proof (Rle_0_sqr ((u - x) * (u + x) + (v - y) * (v + y) + (w - z) * (w + z))). pose proof (Rle_0_sqr (b - a)).
    pose proof (Rle_0_sqr (u + x)). pose proof (Rle_0_sqr (v + y)). pose proof (Rle_0_sqr (w + z)).
    assert (0 <= Rsqr (b - a) * (Rsqr (u + x) + Rsqr (v + y) + Rsqr (w + z))) by (apply Rmult_le_pos; lra). lra.
  - unfold Rsqr, cnorm2. cbv -[Rplus Rminus Rmult Ropp R0 IZR]. ring.
Qed.

(** The half-way spinor turns by the smallest angle also for parallel vectors. *)
Lemma halfway_shortest : forall (a b : Vector R), let M := cnorm (den TVec a) * cnorm (den TVec b) in
  0 < M -> 0 < M + dot a b -> forall r, turns r a b -> Rabs (sca_0 (spinSca r)) <= sca_0 (spinSca (halfway a b)).
Proof.
  intros a b M HM HD r Hr. destruct (halfway_sca a b HD) as [H1 H2]. fold M in H2.
  destruct (Rlt_le_dec (dot a b) M) as [L|L]; [apply turns_shorter; [exact HM|fold M; apply Rabs_def1; lra|exact Hr]|].
  rewrite <- (Rabs_pos_eq (sca_0 (spinSca (halfway a b)))) by lra. apply Rsqr_le_abs_0. unfold Rsqr. rewrite H2.
  destruct Hr as [N _]. fold M in N. apply Rle_trans with M; [|lra]. rewrite <- N. clear. destruct r as [[[c]] [[x y z]]].
  replace (cnorm2 _) with (c * c + (Rsqr x + Rsqr y + Rsqr z)) by (unfold cnorm2, Rsqr; cbv -[Rplus Rminus Rmult Ropp R0 IZR]; ring).
  pose proof (Rle_0_sqr x). pose proof (Rle_0_sqr y). pose proof (Rle_0_sqr z). cbn [sca_0 spinSca scaData at0]. change (sca_0 (mkSca (A1 c))) with c. lra.
Qed.

Section Acc.
Context (L : Libm f64).
Lemma toward_accurate : forall eps, trig_within eps L -> exp_within eps L -> log_within eps L -> atan2_within eps L ->
  eps <= bpow radix2 (-40) -> forall (a b : Vector f64) (plane : BiVector f64) h,
  all_finite TVec a -> all_finite TVec b -> cnorm (exactly TVec a) <= bpow radix2 240 -> cnorm (exactly TVec b) <= bpow radix2 240 ->
  let p := mul TVec TVec b a in root_domain p plane -> bpow radix2 (-49) <= cnorm (exactly TSpin p) ->
  let ra := mapv (fun v : f64 => B2R v) TVec a in let rb := mapv (fun v : f64 => B2R v) TVec b in
  let M := cnorm (exactly TVec a) * cnorm (exactly TVec b) in let N := cnorm (exactly TSpin p) in
  bpow radix2 (-30) <= h -> 2 * (h * h) * M <= M + dot ra rb ->
  let q := turner a b plane in let r := mul TImsp TSpin (mul TSpin TVec q a) (reverse TSpin q) in
  all_finite TSpin q /\ all_finite TImsp r /\
  exists q0 : Spinor R, turns q0 ra rb /\ (forall r0, turns r0 ra rb -> Rabs (sca_0 (spinSca r0)) <= sca_0 (spinSca q0)) /\
    forall d, bpow radix2 (-20) <= d \/ (320 * unit_roundoff <= d /\ bpow radix2 (-23) * N <= cnorm (exactly TBiv (spinBiv p))) ->
    let err := eps * (15 + 3 * Rabs (ln N)) + d in
    cnorm (csub (exactly TSpin q) (den TSpin q0)) <= 2 * err / h * sqrt M /\
    cnorm (csub (exactly TImsp r) (den TVec (vtimes (dot ra ra) rb))) <= (5 * err / h + 60 * unit_roundoff) * (M * cnorm (exactly TVec a)).
Proof.
  intros eps T1 T2 T3 T4 He a b plane h Fa Fb Na Nb p RD HN ra rb M N Hh HD q r.
  pose proof u53_pos as U0. pose proof eta_pos as E0. pose proof (RD) as [(Fp & [_ NU] & _) _]. 
  assert (eps0 : 0 <= eps) by (destruct (cos_within _ _ T1 (none_ : f64)) as [_ K]; [apply one_ok|]; eapply Rle_trans; [apply Rabs_pos|exact K]).
  assert (Hu : unit_roundoff = / 9007199254740992) by (unfold unit_roundoff; simpl; lra).
  assert (H40 : bpow radix2 (-40) = / 1099511627776) by (simpl; lra). assert (H30 : bpow radix2 (-30) = / 1073741824) by (simpl; lra).
  assert (H20 : bpow radix2 (-20) = / 1048576) by (simpl; lra). assert (H21 : bpow radix2 (-21) = / 2097152) by (simpl; lra).
  assert (H49 : bpow radix2 (-49) = / 562949953421312) by (simpl; lra).
  destruct (sqrt_accurate eps T1 T2 T3 T4 He p plane RD HN) as (Fq & C1 & C2 & C3).
  change (sqrtG2 p plane) with q in Fq, C1, C2, C3. fold N in C1, C2, C3, HN, NU.
  set (Q := exactly TSpin q) in *. set (P := exactly TSpin p) in *. set (A := exactly TVec a) in *. set (B := exactly TVec b) in *.
  pose proof (mul_norm_error TVec TVec b a Fp) as PE. change (cnorm (csub P (gp B A)) <= 26 * u53 * (cnorm B * cnorm A) + 26 * eta) in PE.
  replace (cnorm B * cnorm A) with M in PE by (unfold M; ring).
  assert (NBA : cnorm (gp B A) = M) by (rewrite norm_gp_l; [unfold M; ring|apply (unmixed_rev TVec rb); reflexivity]).
  pose proof (cnorm_nonneg A) as A0. pose proof (cnorm_nonneg B) as B0. assert (M00 : 0 <= M) by (apply Rmult_le_pos; assumption).
  change u53 with unit_roundoff in *.
  assert (Eeta : eta <= unit_roundoff * bpow radix2 (-110) * bpow radix2 (-290)).
  { unfold eta, unit_roundoff. rewrite <- !bpow_plus. apply bpow_le. lia. }
  assert (B110 : 0 < bpow radix2 (-110) <= / 1000000000000000000000000000000000).
  { split; [apply bpow_gt_0|]. simpl. lra. }
  assert (B290 : 0 < bpow radix2 (-290) <= 1) by (split; [apply bpow_gt_0|change 1 with (bpow radix2 0); apply bpow_le; lia]).
  assert (Eeta2 : eta <= / 1000000000000000000000000000000000 * unit_roundoff).
  { eapply Rle_trans; [exact Eeta|]. rewrite Rmult_assoc, (Rmult_comm unit_roundoff). apply Rmult_le_compat_r; [lra|].
    apply Rle_trans with (bpow radix2 (-110) * 1); [apply Rmult_le_compat_l; lra|lra]. }
  assert (NM : N <= M + (26 * unit_roundoff * M + 26 * eta)).
  { unfold N. rewrite (cnorm_ceq P (cadd (gp B A) (csub P (gp B A)))) by (intros k; unfold cadd, csub; ring).
    eapply Rle_trans; [apply cnorm_triangle|]. rewrite NBA. lra. }
  assert (uM : unit_roundoff * M = / 9007199254740992 * M) by (rewrite Hu; reflexivity).
  assert (ML : / 1125899906842624 <= M) by lra.
  assert (PE2 : cnorm (csub P (gp B A)) <= 27 * unit_roundoff * M) by lra.
  assert (N98 : N <= 9 / 8 * M) by lra. assert (N0 : 0 < N) by lra. assert (M0 : 0 < M) by lra.
  assert (LN : Rabs (ln N) <= 480) by (apply ln_range; split; [eapply Rle_trans; [|exact HN]; apply bpow_le; lia|exact NU]).
  pose proof (Rabs_pos (ln N)) as LN0. set (l := Rabs (ln N)) in *.
  set (q0 := halfway ra rb).
  assert (Hh0 : 0 < h) by lra. assert (hM : 0 < h * h * M) by (apply Rmult_lt_0_compat; [apply Rmult_lt_0_compat; lra|exact M0]).
  assert (D0 : 0 < M + dot ra rb) by lra.
  pose proof (halfway_turns ra rb D0) as HT. pose proof (halfway_root ra rb D0) as HR. destruct (halfway_sca ra rb D0) as [HS1 HS2].
  change (cnorm (den TVec ra) * cnorm (den TVec rb)) with M in HS2. fold q0 in HT, HR, HS1, HS2.
  assert (HG : ceq (gp (den TSpin q0) (den TSpin q0)) (gp B A)) by (eapply ceq_trans; [exact HR|apply (mul_den TVec TVec rb ra)]).
  set (m := sqrt M). assert (mm : m * m = M) by (apply sqrt_sqrt; lra). assert (m0 : 0 < m) by (apply sqrt_lt_R0; exact M0).
  assert (S0 : h * m <= sca_0 (spinSca q0)).
  { apply Rsqr_incr_0_var; [|lra]. unfold Rsqr. rewrite HS2. replace (h * m * (h * m)) with (h * h * (m * m)) by ring. rewrite mm. lra. }
  assert (SN : sqrt N <= 2 * m).
  { apply Rsqr_incr_0_var; [|lra]. unfold Rsqr. rewrite sqrt_sqrt by lra. replace (2 * m * (2 * m)) with (4 * (m * m)) by ring. rewrite mm. lra. }
  assert (e37 : 0 <= 5 * eps + 128 * unit_roundoff <= / 100000000000) by lra.
  assert (SQ : - (2 * m * / 100000000000) <= B2R (sca_0 (spinSca q))).
  { eapply Rle_trans; [|exact C3]. rewrite Ropp_mult_distr_l_reverse. apply Ropp_le_contravar. apply Rmult_le_compat; try lra. apply sqrt_pos. }
  set (rq := mapv (fun v : f64 => B2R v) TSpin q).
  assert (SQ' : sca_0 (spinSca rq) = B2R (sca_0 (spinSca q))) by (unfold rq; clear; destruct q as [[[c]] [[x y z]]]; reflexivity).
  assert (hm : / 1073741824 * m <= h * m) by (apply Rmult_le_compat_r; lra).
  assert (F0 : h * m / 2 <= sca_0 (spinSca q0) + sca_0 (spinSca rq)) by (rewrite SQ'; lra).
  assert (hmp : 0 < h * m) by (apply Rmult_lt_0_compat; lra).
  pose proof (root_stable q0 rq ltac:(lra)) as RS. change (den TSpin rq) with Q in RS.
  assert (RS' : forall e, cnorm (csub (gp Q Q) (gp B A)) <= M * e -> cnorm (csub Q (den TSpin q0)) <= 2 * e / h * m).
  { intros e HE. assert (X : h * m / 2 * cnorm (csub Q (den TSpin q0)) <= M * e).
    { eapply Rle_trans; [|exact HE]. eapply Rle_trans; [apply Rmult_le_compat_r; [apply cnorm_nonneg|exact F0]|].
      eapply Rle_trans; [exact RS|]. right. apply cnorm_ceq. intros k. unfold csub. rewrite (HG k). reflexivity. }
    apply (Rmult_le_reg_l (h * m / 2)); [lra|]. eapply Rle_trans; [exact X|]. right. rewrite <- mm. field. lra. }
  assert (DQ : forall g, cnorm (csub (gp Q Q) P) <= N * (eps * (13 + 2 * l) + g) -> 0 <= g ->
     cnorm (csub (gp Q Q) (gp B A)) <= M * (eps * (15 + 3 * l) + (9 / 8 * g + 27 * unit_roundoff))).
  { intros g Hg g0. eapply Rle_trans; [apply (norm_sub_le _ P)|]. 
    assert (el : 0 <= eps * (13 + 2 * l)) by (apply Rmult_le_pos; lra). 
    assert (N * (eps * (13 + 2 * l) + g) <= 9 / 8 * M * (eps * (13 + 2 * l) + g)) by (apply Rmult_le_compat_r; lra).
    assert (M * (9 / 8 * (eps * (13 + 2 * l))) <= M * (eps * (15 + 3 * l))).
    { apply Rmult_le_compat_l; [lra|]. assert (0 <= eps * l) by (apply Rmult_le_pos; lra). lra. }
    lra. }
  assert (CC : cnorm (csub (gp Q Q) (gp B A)) <= M * (eps * (15 + 3 * l) + bpow radix2 (-20))).
  { eapply Rle_trans; [apply (DQ _ C1); lra|]. apply Rmult_le_compat_l; lra. }
  assert (el : 0 <= eps * (15 + 3 * l) <= / 100000000).
  { split; [apply Rmult_le_pos; lra|]. apply Rle_trans with (/ 1099511627776 * (15 + 3 * 480)); [apply Rmult_le_compat; lra|lra]. }
  assert (Q2 : cnorm Q * cnorm Q <= 101 / 100 * M).
  { rewrite <- (norm_gp_l Q Q) by (apply (unmixed_rev TSpin rq); reflexivity).
    rewrite (cnorm_ceq (gp Q Q) (cadd (gp B A) (csub (gp Q Q) (gp B A)))) by (intros k; unfold cadd, csub; ring).
    eapply Rle_trans; [apply cnorm_triangle|]. rewrite NBA.
    assert (M * (eps * (15 + 3 * l) + bpow radix2 (-20)) <= M * / 100) by (apply Rmult_le_compat_l; lra). lra. }
  assert (Q1 : cnorm Q <= 101 / 100 * m).
  { apply Rsqr_incr_0_var; [|lra]. unfold Rsqr. eapply Rle_trans; [exact Q2|]. rewrite <- mm. assert (0 < m * m) by lra. lra. }
  split; [exact Fq|].
  assert (MU : M <= bpow radix2 240 * bpow radix2 240) by (apply Rmult_le_compat; assumption).
  assert (mU : m <= bpow radix2 240) by (apply Rsqr_incr_0_var; [unfold Rsqr; lra|apply bpow_ge_0]).
  assert (Fr : all_finite TImsp r).
  { assert (B241 : bpow radix2 241 = 2 * bpow radix2 240) by (change 241%Z with (1 + 240)%Z; rewrite bpow_plus; reflexivity).
    destruct (spin_within q 241 Fq) as [W1 W2]; [change (exactly TSpin q) with Q; lra|].
    pose proof (norm_within TVec a 240 Fa Na) as Wa.
    assert (W3 : within (241 + 240 + 3) TImsp (mul TSpin TVec q a)) by (apply (mul_within 241 240 TSpin TVec); [lia|lia|exact W1|exact Wa]).
    assert (W4 : within (241 + 240 + 3 + 241 + 3) TImsp r) by (apply (mul_within _ _ TImsp TSpin); [lia|lia|exact W3|exact W2]).
    unfold within in W4. unfold all_finite. eapply Forall_impl; [|exact W4]. intros x Hx. apply Hx. }
  split; [exact Fr|]. exists q0. split; [exact HT|]. split; [apply halfway_shortest; assumption|].
  intros d Hd err.
  assert (CD : cnorm (csub (gp Q Q) (gp B A)) <= M * err).
  { destruct Hd as [Hd|[Hd Hb]].
    - eapply Rle_trans; [exact CC|]. apply Rmult_le_compat_l; [lra|]. unfold err. lra.
    - eapply Rle_trans; [apply (DQ _ (C2 Hb)); lra|]. apply Rmult_le_compat_l; [lra|]. unfold err. lra. }
  pose proof (RS' err CD) as R1. split; [exact R1|].
  assert (err0 : 0 <= err). { unfold err. destruct Hd as [Hd|[Hd _]]; lra. }
  pose proof (sandwich_error q TVec a Fr) as SE. cbv zeta in SE. change (exactly TSpin q) with Q in SE. fold A in SE. change u53 with unit_roundoff in SE.
  pose proof (sandwich_lip rq q0 A) as SL. cbv zeta in SL. change (den TSpin rq) with Q in SL.
  assert (Nq0 : cnorm (den TSpin q0) = m) by (unfold cnorm, m; rewrite (proj1 HT); reflexivity). rewrite Nq0 in SL.
  assert (TG : ceq (den TVec (vtimes (dot ra ra) rb)) (gp (gp (den TSpin q0) A) (crev (den TSpin q0)))).
  { eapply ceq_trans; [apply ceq_sym; exact (proj2 HT)|]. unfold sandwich. eapply ceq_trans; [apply (mul_den TImsp TSpin)|].
    apply gp_ceq; [apply (mul_den TSpin TVec)|apply (reverse_den TSpin)]. }
  rewrite (cnorm_ceq _ (csub (exactly TImsp r) (gp (gp (den TSpin q0) A) (crev (den TSpin q0))))) by (intros k; unfold csub; rewrite (TG k); reflexivity).
  eapply Rle_trans; [apply (norm_sub_le _ (gp (gp Q A) (crev Q)))|].
  assert (X1 : cnorm (csub (gp (gp Q A) (crev Q)) (gp (gp (den TSpin q0) A) (crev (den TSpin q0)))) <= 5 * err / h * (M * cnorm A)).
  { eapply Rle_trans; [exact SL|]. apply Rle_trans with (2 * err / h * m * cnorm A * (201 / 100 * m)).
    - apply Rmult_le_compat; [apply Rmult_le_pos; [apply cnorm_nonneg|exact A0]|pose proof (cnorm_nonneg Q); lra|apply Rmult_le_compat_r; [exact A0|exact R1]|lra].
    - replace (2 * err / h * m * cnorm A * (201 / 100 * m)) with (402 / 100 * (err / h * (m * m * cnorm A))) by (field; lra). rewrite mm.
      replace (5 * err / h * (M * cnorm A)) with (5 * (err / h * (M * cnorm A))) by (field; lra).
      assert (0 <= err / h * (M * cnorm A)). { apply Rmult_le_pos; [apply Rmult_le_pos; [exact err0|left; apply Rinv_0_lt_compat; lra]|apply Rmult_le_pos; lra]. } lra. }
  assert (AL : bpow radix2 (-290) <= cnorm A).
  { apply (Rmult_le_reg_r (bpow radix2 240)); [apply bpow_gt_0|]. rewrite <- bpow_plus. apply Rle_trans with M; [|apply Rmult_le_compat_l; assumption].
    eapply Rle_trans; [|exact ML]. simpl. lra. }
  assert (X2 : 53 * unit_roundoff * (cnorm2 Q * cnorm A) + 27 * eta * (1 + cnorm Q) <= 60 * unit_roundoff * (M * cnorm A)).
  { assert (Y1 : cnorm2 Q * cnorm A <= 101 / 100 * M * cnorm A) by (apply Rmult_le_compat_r; [exact A0|rewrite <- cnorm_sq; exact Q2]).
    assert (Y2 : 53 * unit_roundoff * (cnorm2 Q * cnorm A) <= 53 * unit_roundoff * (101 / 100 * M * cnorm A)) by (apply Rmult_le_compat_l; lra).
    assert (Z1 : 0 <= unit_roundoff * (M * cnorm A)) by (apply Rmult_le_pos; [lra|apply Rmult_le_pos; lra]).
    assert (Y3 : eta <= unit_roundoff * / 1000000000000000000000000000000000 * cnorm A).
    { eapply Rle_trans; [exact Eeta|]. apply Rmult_le_compat; [apply Rmult_le_pos; lra|lra| |exact AL]. apply Rmult_le_compat_l; lra. }
    assert (Y4 : m <= 1 + M). { assert (0 <= (m - 1) * (m - 1)) by (apply Rle_0_sqr). lra. }
    assert (Y5 : 27 * (1 + cnorm Q) <= 1000000000000000000 * M) by lra.
    assert (Y6 : 27 * eta * (1 + cnorm Q) <= unit_roundoff * / 1000000000000000000000000000000000 * cnorm A * (1000000000000000000 * M)).
    { replace (27 * eta * (1 + cnorm Q)) with (eta * (27 * (1 + cnorm Q))) by ring. apply Rmult_le_compat; [lra|pose proof (cnorm_nonneg Q); lra|exact Y3|exact Y5]. }
    assert (Y7 : unit_roundoff * / 1000000000000000000000000000000000 * cnorm A * (1000000000000000000 * M) = / 1000000000000000 * (unit_roundoff * (M * cnorm A))) by field.
    lra. }
  replace ((5 * err / h + 60 * unit_roundoff) * (M * cnorm A)) with (5 * err / h * (M * cnorm A) + 60 * unit_roundoff * (M * cnorm A)) by ring.
  eapply Rle_trans; [apply Rplus_le_compat; [exact SE|exact X1]|]. lra.
Qed.
End Acc.

(** From [e1] to [e2]. *)
Lemma product_e2e1 : let o := f64_lit 1 0 in let z := f64_lit 0 0 in
  mul TVec TVec (Vec z o z : Vector f64) (Vec o z z) = mkSpin (Sca z) (Biv z z (f64_lit (-1) 0)).
Proof.
  cbv zeta. set (p := mul TVec TVec _ _).
  assert (E1 : sca_0 (spinSca p) = f64_lit 0 0) by (apply B2SF_inj; vm_compute; reflexivity).
  assert (E2 : biv_0 (spinBiv p) = f64_lit 0 0) by (apply B2SF_inj; vm_compute; reflexivity).
  assert (E3 : biv_1 (spinBiv p) = f64_lit 0 0) by (apply B2SF_inj; vm_compute; reflexivity).
  assert (E4 : biv_2 (spinBiv p) = f64_lit (-1) 0) by (apply B2SF_inj; vm_compute; reflexivity).
  revert E1 E2 E3 E4. generalize p. intros [[[c]] [[x y w]]] E1 E2 E3 E4. cbn in E1, E2, E3, E4. rewrite E1, E2, E3, E4. reflexivity.
Qed.
Lemma example_toward : let o := f64_lit 1 0 in let z := f64_lit 0 0 in let a := Vec o z z : Vector f64 in let b := Vec z o z : Vector f64 in
  let plane := Biv z o z : BiVector f64 in let p := mul TVec TVec b a in
  let ra := mapv (fun v : f64 => B2R v) TVec a in let rb := mapv (fun v : f64 => B2R v) TVec b in
  all_finite TVec a /\ all_finite TVec b /\ cnorm (exactly TVec a) = 1 /\ cnorm (exactly TVec b) = 1 /\ root_domain p plane /\ cnorm (exactly TSpin p) = 1 /\
  dot ra rb = 0 /\ cnorm (exactly TBiv (spinBiv p)) = 1.
Proof.
  cbv zeta. rewrite product_e2e1. set (o := f64_lit 1 0). set (z := f64_lit 0 0). set (n := f64_lit (-1) 0).
  destruct (lit_of 1 0 ltac:(lia) ltac:(lia)) as [Fo Bo]. destruct (lit_of 0 0 ltac:(lia) ltac:(lia)) as [Fz Bz]. destruct (lit_of (-1) 0 ltac:(lia) ltac:(lia)) as [Fn Bn].
  fold o in Fo, Bo. fold z in Fz, Bz. fold n in Fn, Bn. change (bpow radix2 0) with 1 in *. rewrite Rmult_1_r in *.
  assert (N1 : forall x, cnorm2 x = 1 -> cnorm x = 1) by (intros x H; unfold cnorm; rewrite H; apply sqrt_1).
  destruct example_root_domain as (_ & _ & Fp & Hp & Cp).
  assert (NS : cnorm (exactly TSpin (mkSpin (Sca z) (Biv z z n))) = 1).
  { apply N1. unfold exactly. cbv -[B2R o z n Rplus Rmult R0 IZR Ropp]. rewrite Bz, Bn. ring. }
  assert (P : forall e, (e <= 0)%Z -> bpow radix2 e <= 1) by (intros e He; change 1 with (bpow radix2 0); apply bpow_le; exact He).
  assert (P1 : forall e, (0 <= e)%Z -> 1 <= bpow radix2 e) by (intros e He; change 1 with (bpow radix2 0); apply bpow_le; exact He).
  assert (V : valid_number z) by (split; [exact Fz|left; exact Bz]).
  split; [unfold all_finite; repeat constructor; assumption|]. split; [unfold all_finite; repeat constructor; assumption|].
  split; [apply N1; unfold exactly; cbv -[B2R o z n Rplus Rmult R0 IZR Ropp]; rewrite Bz, Bo; ring|].
  split; [apply N1; unfold exactly; cbv -[B2R o z n Rplus Rmult R0 IZR Ropp]; rewrite Bz, Bo; ring|].
  split; [|split; [exact NS|split]].
  - split; [|split; [|split; [exact Fp|split; [exact Hp|exact Cp]]]].
    + split; [unfold all_finite; repeat constructor; assumption|]. rewrite NS. split; [split; [apply P|apply P1]; lia|]. split; exact V.
    + left. exact Bz.
  - unfold dot. cbv -[B2R o z n Rplus Rmult R0 IZR Ropp]. rewrite Bz, Bo. ring.
  - apply N1; unfold exactly; cbv -[B2R o z n Rplus Rmult R0 IZR Ropp]; rewrite Bz, Bn; ring.
Qed.
