(** * exp(MultiVector) on binary64: consequences. *)

Require Import Reals ZArith List Bool Lra Lia.
From Coquelicot Require Import Coquelicot.
From Flocq Require Import Core BinarySingleNaN.
Require Import Verif.Num Verif.Types Verif.Priv Verif.OpsUni Verif.OpsAdd Verif.OpsSub
  Verif.OpsMul Verif.Const Verif.Validity Verif.Func Verif.SpecCl Verif.RealInst Verif.AlgTac Verif.AlgMul Verif.AlgFacts Verif.SpecFunc
  Verif.FuncFacts Verif.SpecExp Verif.ExpFacts Verif.ExpThm Verif.SpecAnti Verif.LogThm Verif.AntiThm Verif.Rel Verif.B64 Verif.B64Facts Verif.SpecValid Verif.ValidFacts
  Verif.SpecRound Verif.ArrErr Verif.IntFacts Verif.ErrFacts Verif.SpecAcc Verif.BoundFacts Verif.AccFacts Verif.NormFacts Verif.ExpAcc Verif.LogAcc Verif.ExpMvFacts.
Import ListNotations.
Local Open Scope R_scope.

(** ** The two exponentials agree on spinors *)
(** The powers of a spinor stay in the span of 1 and its bivector part, where
    the two products agree. *)
Definition along (s : Spinor R) (a b : R) : Spinor R := mkSpin (Sca a) (Biv (b * biv_0 (spinBiv s)) (b * biv_1 (spinBiv s)) (b * biv_2 (spinBiv s))).
Lemma even_product : forall (s : Spinor R) a b, exists c d,
  ceq (gp (den TSpin s) (den TSpin (along s a b))) (den TSpin (along s c d)) /\ ceq (ap (den TSpin s) (den TSpin (along s a b))) (den TSpin (along s c d)).
Proof.
  intros [[[u]] [[p q r]]] a b. exists (u * a - b * (p * p + q * q + r * r)), (u * b + a).
  split; intro k; dblade k; dring.
Qed.
Lemma gp_ext : forall a b c d, ceq a b -> ceq c d -> ceq (gp a c) (gp b d).
Proof. intros a b c d H K. rewrite H, K. reflexivity. Qed.
Lemma ap_ext : forall a b c, ceq b c -> ceq (ap a b) (ap a c).
Proof. intros a b c H k. unfold ap, rsum, all_blades; cbn [map fold_right]; rewrite !(H _). reflexivity. Qed.
Lemma even_power : forall (s : Spinor R) n, exists a b, ceq (cpow (den TSpin s) n) (den TSpin (along s a b)) /\ ceq (apow (den TSpin s) n) (den TSpin (along s a b)).
Proof.
  intros s n. induction n as [|n (a & b & H1 & H2)].
  - exists 1, 0. split; intro k; dblade k; cbn; lra.
  - destruct (even_product s a b) as (c & d & K1 & K2). exists c, d. cbn [cpow apow]. split.
    + intros k. rewrite (gp_ext _ (den TSpin s) _ _ (fun _ => eq_refl) H1 k). apply K1.
    + intros k. rewrite (ap_ext _ _ _ H2 k). apply K2.
Qed.
Lemma even_aexp : forall (s : Spinor R) E, is_cexp (den TSpin s) E -> is_aexp (den TSpin s) E.
Proof.
  intros s E H k. apply (Rseries_ext (fun n => cpow (den TSpin s) n k / INR (fact n))); [|exact (H k)].
  intros n. destruct (even_power s n) as (a & b & H1 & H2). rewrite (H1 k), (H2 k). reflexivity.
Qed.
Lemma is_aexp_ext : forall a b E, ceq a b -> is_aexp a E -> is_aexp b E.
Proof.
  intros a b E H K k.
  assert (P : forall n, ceq (apow a n) (apow b n)).
  { induction n as [|n IH]; [intros j; reflexivity|]. intros j. cbn [apow]. unfold ap, rsum, all_blades; cbn [map fold_right]; rewrite !(IH _), !(H _). reflexivity. }
  apply (Rseries_ext (fun n => apow a n k / INR (fact n))); [|exact (K k)]. intros n. rewrite (P n k). reflexivity.
Qed.

Section Library.
Context {L : Libm f64} (eps : R) (T : trig_within eps L) (Te : exp_within eps L) (He : eps <= / 16).

Lemma exp_Mvec_spinor64 : forall (s : Spinor f64) E, all_valid TSpin s ->
  Rabs (b2r (sca_0 (spinSca s))) <= 300 -> cnorm (exactly TSpin s) <= bpow radix2 40 ->
  is_cexp (exactly TSpin s) E ->
  all_finite TMvec (exp_Mvec (mv_of_Spin s)) /\
  cnorm (csub (exactly TMvec (exp_Mvec (mv_of_Spin s))) E) <=
    exp (b2r (sca_0 (spinSca s))) * (12 * eps + 165 * unit_roundoff * (1 + cnorm (exactly TSpin s))).
Proof.
  intros s E V B BM HE.
  assert (EX : ceq (exactly TSpin s) (exactly TMvec (mv_of_Spin s))) by (dvals; intro k; dblade k; cbn; lra).
  assert (EN : cnorm (exactly TMvec (mv_of_Spin s)) = cnorm (exactly TSpin s)) by (symmetry; apply cnorm_ceq, EX).
  destruct (exp_Mvec_accurate eps T Te He (mv_of_Spin s) E) as [F A].
  - destruct s as [[[a]] [[p q r]]]. change (List.Forall valid_number [a; p; q; r]) in V.
    assert (K : forall v, In v [a; p; q; r] -> valid_number v) by (apply (proj1 (List.Forall_forall _ _) V)).
    assert (Z : valid_number (B754_zero false : f64)) by (split; [reflexivity|left; reflexivity]).
    change (List.Forall valid_number [a; B754_zero false; B754_zero false; B754_zero false; p; q; r; (B754_zero false : f64)]).
    repeat (apply List.Forall_cons || apply List.Forall_nil); first [exact Z | apply K; cbn; tauto].
  - exact B.
  - change (Rabs (b2r (B754_zero false : f64)) <= 300). cbn. rewrite Rabs_R0. lra.
  - rewrite EN. exact BM.
  - apply (is_aexp_ext _ _ _ EX). exact (even_aexp (mapv (fun v : f64 => b2r v) TSpin s) E HE).
  - split; [exact F|]. rewrite EN in A.
    change (sca_0 (mvSca (mv_of_Spin s))) with (sca_0 (spinSca s)) in A.
    change (b2r (tri_0 (mvTri (mv_of_Spin s)))) with 0 in A. rewrite Rabs_R0, Rplus_0_r in A. exact A.
Qed.

(** The two overloads give the same within their errors. *)
Lemma overloads_agree : forall s : Spinor f64, all_valid TSpin s -> exp_domain (spinBiv s) ->
  Rabs (b2r (sca_0 (spinSca s))) <= 300 -> cnorm (exactly TSpin s) <= bpow radix2 40 ->
  cnorm (csub (exactly TMvec (exp_Mvec (mv_of_Spin s))) (exactly TSpin (exp_Spin s))) <=
    exp (b2r (sca_0 (spinSca s))) * (16 * eps + 190 * unit_roundoff * (1 + cnorm (exactly TSpin s))).
Proof.
  intros s V D B BM. destruct (cexp_exists (exactly TSpin s)) as [E HE].
  destruct (exp_Mvec_spinor64 s E V B BM HE) as [_ A1].
  assert (Fs : fin (sca_0 (spinSca s)) = true).
  { destruct s as [[[a]] [[p q r]]]. change (List.Forall valid_number [a; p; q; r]) in V. exact (proj1 (List.Forall_inv V)). }
  destruct (exp_Spin_accurate eps T Te He s E D Fs ltac:(lra) HE) as [_ A2].
  set (X := exactly TMvec _) in *. set (Y := exactly TSpin (exp_Spin s)) in *.
  assert (TR : cnorm (csub X Y) <= cnorm (csub X E) + cnorm (csub Y E)).
  { assert (Q : ceq (csub X Y) (cadd (csub X E) (cscale (-1) (csub Y E)))) by (intros k; unfold csub, cadd, cscale; ring).
    rewrite (cnorm_ceq _ _ Q). eapply Rle_trans; [apply cnorm_triangle|]. rewrite cnorm_scale, Rabs_left by lra. lra. }
  assert (NB : cnorm (exactly TBiv (spinBiv s)) <= cnorm (exactly TSpin s)).
  { unfold cnorm. apply sqrt_le_1_alt. destruct s as [[[a]] [[p q r]]]. unfold exactly. cbn. pose proof (Rle_0_sqr (b2r a)). unfold Rsqr in *. lra. }
  destruct (exp_sized _ B) as [S1 S2].
  assert (ET : 3 * eta <= exp (b2r (sca_0 (spinSca s))) * u53).
  { assert (Z : sized (exp (b2r (sca_0 (spinSca s))))) by (split; [eapply Rle_trans; [|exact S1]|eapply Rle_trans; [exact S2|]]; apply bpow_le; lia).
    destruct (eta_sized _ Z) as [K _]. pose proof (sized_pos _ Z). pose proof u53_pos. pose proof eta_pos.
    assert (0 <= exp (b2r (sca_0 (spinSca s))) * u53) by (apply Rmult_le_pos; lra). lra. }
  change unit_roundoff with u53 in *. change underflow_unit with eta in *. pose proof u53_pos as PU.
  pose proof (exp_pos (b2r (sca_0 (spinSca s)))) as PA. pose proof (cnorm_nonneg (exactly TBiv (spinBiv s))) as PB.
  set (A := exp _) in *. set (N := cnorm (exactly TSpin s)) in *. set (NB' := cnorm (exactly TBiv (spinBiv s))) in *.
  assert (M1 : A * (4 * eps + 20 * u53 * (1 + NB')) <= A * (4 * eps + 20 * u53 * (1 + N))).
  { apply Rmult_le_compat_l; [lra|]. assert (u53 * NB' <= u53 * N) by (apply Rmult_le_compat_l; lra). lra. }
  assert (M2 : 0 <= A * (u53 * N)) by (apply Rmult_le_pos; [lra|apply Rmult_le_pos; lra]). 
  assert (M3 : 0 <= A * u53) by (apply Rmult_le_pos; lra). lra.
Qed.

(** ** Trivectors and vectors *)
Lemma small_budget : eps <= / 1024 -> forall N, 0 <= N <= bpow radix2 40 -> 12 * eps + 165 * u53 * (1 + N) <= / 20.
Proof.
  intros He2 N [N0 N1]. change (bpow radix2 40) with 1099511627776 in N1.
  assert (u53 * N <= u53 * 1099511627776) by (apply Rmult_le_compat_l; [left; apply u53_pos|lra]). rewrite u53_val in *. lra.
Qed.
Lemma exp_ge_5_2 : forall x, 1 <= x -> 5 / 2 <= exp x.
Proof.
  intros x H. apply Rle_trans with (exp 1).
  - replace 1 with (/2 + /2) by field. rewrite exp_plus. pose proof (exp_ineq1 (/ 2) ltac:(lra)). 
    assert (E : 8 / 5 <= exp (/ 2)).
    { replace (/ 2) with (/ 4 + / 4) at 1 by field. rewrite exp_plus.
      assert (1265 / 1000 <= exp (/ 4)).
      { replace (/ 4) with (/ 8 + / 8) at 1 by field. rewrite exp_plus. pose proof (exp_ineq1 (/ 8) ltac:(lra)). nra. }
      nra. }
    nra.
  - destruct (Rle_lt_or_eq_dec _ _ H) as [l|<-]; [left; apply exp_increasing, l|lra].
Qed.
Lemma tri64_wrong : eps <= / 1024 -> forall (t : f64) E, fin t = true -> 1 <= Rabs (b2r t) <= 300 ->
  is_cexp (exactly TTri (Tri t)) E ->
  exp (Rabs (b2r t)) / 20 <= cnorm (csub (exactly TMvec (exp_Mvec (mv_of_Tri (Tri t)))) E).
Proof.
  intros He2 t E Ft [T1 T2] HE. set (x := mv_of_Tri (Tri t)).
  set (M := mapv (fun v : f64 => b2r v) TMvec x : MultiVector R).
  pose proof (is_aexp_aexp M) as HA. set (Ea := aexp _ _ M) in HA.
  assert (EN : cnorm (exactly TMvec x) = Rabs (b2r t)).
  { unfold cnorm. rewrite <- sqrt_Rsqr_abs. f_equal. unfold exactly, Rsqr. cbn. ring. }
  destruct (exp_Mvec_accurate eps T Te He x Ea) as [_ A].
  - assert (Z : valid_number (B754_zero false : f64)) by (split; [reflexivity|left; reflexivity]).
    change (List.Forall valid_number [B754_zero false; B754_zero false; B754_zero false; B754_zero false; B754_zero false; B754_zero false; B754_zero false; t]).
    repeat (apply List.Forall_cons || apply List.Forall_nil); try exact Z. split; [exact Ft|right].
    apply Rle_trans with 1; [|exact T1]. change 1 with (bpow radix2 0). apply bpow_le; lia.
  - change (Rabs (b2r (B754_zero false : f64)) <= 300). cbn. rewrite Rabs_R0. lra.
  - exact T2.
  - rewrite EN. change (bpow radix2 40) with 1099511627776. lra.
  - exact HA.
  - rewrite EN in A. change (b2r (sca_0 (mvSca x))) with 0 in A. change (b2r (tri_0 (mvTri x))) with (b2r t) in A. rewrite Rplus_0_l in A.
    pose proof (small_budget He2 (Rabs (b2r t)) ltac:(change (bpow radix2 40) with 1099511627776; lra)) as SB.
    assert (S1 : Ea bS = (exp (b2r t) + exp (- b2r t)) / 2).
    { unfold Ea, aexp, M, x. cbv zeta. rewrite !cnorm_vec. cbn -[exp sqrt cos sinc Rdiv IZR].
      replace (0 + b2r t) with (b2r t) by ring. replace (0 - b2r t) with (- b2r t) by ring.
      replace ((0 - 0) * (0 - 0) + (0 - 0) * (0 - 0) + (0 - 0) * (0 - 0)) with 0 by ring.
      replace ((0 + 0) * (0 + 0) + (0 + 0) * (0 + 0) + (0 + 0) * (0 + 0)) with 0 by ring.
      rewrite sqrt_0, cos_0. field. }
    assert (S2 : E bS = cos (b2r t)).
    { assert (Q : is_cexp (exactly TTri (Tri t)) (cadd (cscale (cos (b2r t)) cone) (cscale (sinc (b2r t)) (exactly TTri (Tri t))))).
      { apply cexp_square. unfold exactly. intro k; dblade k; dring. }
      rewrite (is_cexp_unique _ _ _ HE Q bS). unfold cadd, cscale, exactly. cbn. ring. }
    set (X := exactly TMvec (exp_Mvec x)) in *.
    assert (TR : cnorm (csub Ea E) <= cnorm (csub X E) + cnorm (csub X Ea)).
    { assert (Q : ceq (csub Ea E) (cadd (csub X E) (cscale (-1) (csub X Ea)))) by (intros k; unfold csub, cadd, cscale; ring).
      rewrite (cnorm_ceq _ _ Q). eapply Rle_trans; [apply cnorm_triangle|]. rewrite cnorm_scale, Rabs_left by lra. lra. }
    pose proof (comp_le_norm (csub Ea E) bS) as CB. unfold csub in CB at 1. rewrite S1, S2 in CB.
    assert (CH : exp (b2r t) + exp (- b2r t) = exp (Rabs (b2r t)) + exp (- Rabs (b2r t))).
    { destruct (Rcase_abs (b2r t)) as [l|l]; [rewrite (Rabs_left _ l), Ropp_involutive; ring|rewrite (Rabs_right _ l); reflexivity]. }
    rewrite CH in CB. pose proof (exp_ge_5_2 _ T1) as E5. pose proof (exp_pos (- Rabs (b2r t))) as PM. pose proof (COS_bound (b2r t)) as CO.
    set (G := exp (Rabs (b2r t))) in *.
    assert (IG : exp (- Rabs (b2r t)) * G = 1) by (unfold G; rewrite <- exp_plus, Rplus_opp_l; apply exp_0).
    set (I' := exp (- Rabs (b2r t))) in *.
    assert (GB : G * (12 * eps + 165 * unit_roundoff * (1 + Rabs (b2r t))) <= G * / 20) by (apply Rmult_le_compat_l; [lra|exact SB]).
    pose proof (Rle_abs ((G + I') / 2 - cos (b2r t))) as RA.
    assert (KEY : 1 / 10 * G + 1 <= (G + I') / 2) by nra. lra.
Qed.
Lemma vec64_wrong : eps <= / 1024 -> forall (v : Vector f64) E, all_valid TVec v -> 1 <= cnorm (exactly TVec v) <= bpow radix2 40 ->
  is_cexp (exactly TVec v) E ->
  / 5 <= cnorm (csub (exactly TMvec (exp_Mvec (mv_of_Vec v))) E).
Proof.
  intros He2 v E V [T1 T2] HE. set (x := mv_of_Vec v).
  set (M := mapv (fun v : f64 => b2r v) TMvec x : MultiVector R).
  pose proof (is_aexp_aexp M) as HA. set (Ea := aexp _ _ M) in HA.
  set (N := cnorm (exactly TVec v)) in *.
  assert (EX : ceq (exactly TVec v) (exactly TMvec x)) by (unfold x; clear; dvals; intro k; dblade k; cbn; lra).
  assert (EN : cnorm (exactly TMvec x) = N) by (symmetry; apply cnorm_ceq, EX).
  destruct (exp_Mvec_accurate eps T Te He x Ea) as [_ A].
  - destruct v as [[a p q]]. change (List.Forall valid_number [a; p; q]) in V.
    assert (K : forall v, In v [a; p; q] -> valid_number v) by (apply (proj1 (List.Forall_forall _ _) V)).
    assert (Z : valid_number (B754_zero false : f64)) by (split; [reflexivity|left; reflexivity]).
    change (List.Forall valid_number [B754_zero false; a; p; q; B754_zero false; B754_zero false; B754_zero false; (B754_zero false : f64)]).
    repeat (apply List.Forall_cons || apply List.Forall_nil); first [exact Z | apply K; cbn; tauto].
  - change (Rabs (b2r (B754_zero false : f64)) <= 300). cbn. rewrite Rabs_R0. lra.
  - change (Rabs (b2r (B754_zero false : f64)) <= 300). cbn. rewrite Rabs_R0. lra.
  - rewrite EN. exact T2.
  - exact HA.
  - rewrite EN in A. change (b2r (sca_0 (mvSca x))) with 0 in A. change (b2r (tri_0 (mvTri x))) with 0 in A. rewrite Rabs_R0, Rplus_0_l, exp_0, Rmult_1_l in A.
    pose proof (small_budget He2 N ltac:(lra)) as SB.
    assert (S1 : Ea bS <= 1).
    { unfold Ea, aexp. cbv zeta. set (a := cnorm (den TVec (part_minus M))). set (b := cnorm (den TVec (part_plus M))).
      change (sca_0 (mvSca M)) with 0. change (tri_0 (mvTri M)) with 0. rewrite Rplus_0_l, Rminus_0_r, exp_0.
      cbn [den8 bS]. pose proof (COS_bound a). pose proof (COS_bound b). unfold bS. cbn [den8]. lra. }
    assert (S2 : E bS = (exp N + exp (- N)) / 2).
    { rewrite (is_cexp_unique _ _ _ HE (cexp_square_pos _ N ltac:(lra) (vec_sq (mapv (fun v : f64 => b2r v) TVec v))) bS).
      unfold cadd, cscale. destruct v as [[a p q]]. cbn -[exp Rdiv N]. ring. }
    set (X := exactly TMvec (exp_Mvec x)) in *.
    assert (TR : cnorm (csub E Ea) <= cnorm (csub X E) + cnorm (csub X Ea)).
    { assert (Q : ceq (csub E Ea) (cadd (cscale (-1) (csub X E)) (csub X Ea))) by (intros k; unfold csub, cadd, cscale; ring).
      rewrite (cnorm_ceq _ _ Q). eapply Rle_trans; [apply cnorm_triangle|]. rewrite cnorm_scale, Rabs_left by lra. lra. }
    pose proof (comp_le_norm (csub E Ea) bS) as CB. unfold csub in CB at 1. rewrite S2 in CB.
    pose proof (exp_ge_5_2 _ T1) as E5. pose proof (exp_pos (- N)) as PM.
    pose proof (Rle_abs ((exp N + exp (- N)) / 2 - Ea bS)) as RA. change unit_roundoff with u53 in A. lra.
Qed.
End Library.

Lemma tri64_far : forall (L : Libm f64) eps, trig_within eps L -> exp_within eps L -> eps <= / 1024 ->
  forall (t : f64) E, fin t = true -> 1 <= Rabs (b2r t) <= 300 -> is_cexp (exactly TTri (Tri t)) E ->
  exp (Rabs (b2r t)) / 20 <= cnorm (csub (exactly TMvec (exp_Mvec (mv_of_Tri (Tri t)))) E).
Proof. intros L eps T Te He. apply (tri64_wrong eps T Te ltac:(lra) He). Qed.
Lemma vec64_far : forall (L : Libm f64) eps, trig_within eps L -> exp_within eps L -> eps <= / 1024 ->
  forall (v : Vector f64) E, all_valid TVec v -> 1 <= cnorm (exactly TVec v) <= bpow radix2 40 -> is_cexp (exactly TVec v) E ->
  / 5 <= cnorm (csub (exactly TMvec (exp_Mvec (mv_of_Vec v))) E).
Proof. intros L eps T Te He. apply (vec64_wrong eps T Te ltac:(lra) He). Qed.

(** ** A case *)
Lemma lit_small : forall n : Z, (1 <= Z.abs n <= 2 ^ 53)%Z -> valid_number (f64_lit n 0) /\ b2r (f64_lit n 0) = IZR n.
Proof.
  intros n H. destruct (lit_exact n 0) as [F R].
  - unfold F2R. cbn [Fnum Fexp]. change (bpow radix2 0) with 1. rewrite Rmult_1_r. apply int_format. lia.
  - unfold F2R. cbn [Fnum Fexp]. change (bpow radix2 0) with 1. rewrite Rmult_1_r, <- abs_IZR. apply Rle_lt_trans with (bpow radix2 53); [|apply bpow_lt; lia].
    change (bpow radix2 53) with (IZR (2 ^ 53)). apply IZR_le. lia.
  - change (bpow radix2 0) with 1 in R. rewrite Rmult_1_r in R. split; [|exact R]. split; [exact F|right].
    change (B2R (f64_lit n 0)) with (b2r (f64_lit n 0)). rewrite R, <- abs_IZR.
    apply Rle_trans with 1; [change 1 with (bpow radix2 0) at 1; apply bpow_le; lia|apply IZR_le; lia].
Qed.
Definition mv_case : MultiVector f64 :=
  mkMvec (Sca (f64_lit 2 0)) (Vec (f64_lit 1 0) (f64_lit (-5) 0) (f64_lit 3 0)) (Biv (f64_lit 3 0) (f64_lit 7 0) (f64_lit (-4) 0)) (Tri (f64_lit (-1) 0)).
Definition spin_case : Spinor f64 := mkSpin (Sca (f64_lit 2 0)) (Biv (f64_lit 3 0) (f64_lit 0 0) (f64_lit (-4) 0)).
Lemma mv_case_ok :
  trig_within (bpow radix2 (-52)) rounded_lib /\ exp_within (bpow radix2 (-52)) rounded_lib /\ bpow radix2 (-52) <= / 1024 /\
  all_valid TMvec mv_case /\ Rabs (b2r (sca_0 (mvSca mv_case))) <= 300 /\ Rabs (b2r (tri_0 (mvTri mv_case))) <= 300 /\
  cnorm (exactly TMvec mv_case) <= bpow radix2 40 /\ (exists E, is_aexp (exactly TMvec mv_case) E) /\
  all_valid TSpin spin_case /\ exp_domain (spinBiv spin_case) /\ Rabs (b2r (sca_0 (spinSca spin_case))) <= 300 /\
  cnorm (exactly TSpin spin_case) <= bpow radix2 40 /\ (exists E, is_cexp (exactly TSpin spin_case) E).
Proof.
  destruct library_within as [T Te].
  destruct (lit_small 2 ltac:(lia)) as [V2 R2]. destruct (lit_small 1 ltac:(lia)) as [V1 R1]. destruct (lit_small (-5) ltac:(lia)) as [V5 R5].
  destruct (lit_small 3 ltac:(lia)) as [V3 R3]. destruct (lit_small 7 ltac:(lia)) as [V7 R7]. destruct (lit_small (-4) ltac:(lia)) as [V4 R4].
  destruct (lit_small (-1) ltac:(lia)) as [W1 S1].
  assert (V0 : valid_number (f64_lit 0 0)) by (split; [reflexivity|left; reflexivity]).
  split; [exact T|]. split; [exact Te|].
  split. { change (bpow radix2 (-52)) with (/ 4503599627370496). lra. }
  split. { repeat (apply List.Forall_cons || apply List.Forall_nil); assumption. }
  split. { change (Rabs (b2r (f64_lit 2 0)) <= 300). rewrite R2, Rabs_pos_eq; lra. }
  split. { change (Rabs (b2r (f64_lit (-1) 0)) <= 300). rewrite S1, Rabs_left; lra. }
  split.
  { eapply Rle_trans; [apply (norm_of_bound _ 7); [lra|]|change (bpow radix2 40) with 1099511627776; lra].
    intros k. dblade k; unfold exactly, mv_case; cbn [den mapv]; cbn -[f64_lit B2R IZR];
      rewrite ?R1, ?R2, ?R3, ?R4, ?R5, ?R7, ?S1; apply Rabs_le; lra. }
  split. { eexists. exact (is_aexp_aexp (mapv (fun v : f64 => b2r v) TMvec mv_case)). }
  split. { repeat (apply List.Forall_cons || apply List.Forall_nil); assumption. }
  split. { exact example_exp_domain. }
  split. { change (Rabs (b2r (f64_lit 2 0)) <= 300). rewrite R2, Rabs_pos_eq; lra. }
  split; [|apply cexp_exists].
  eapply Rle_trans; [apply (norm_of_bound _ 7); [lra|]|change (bpow radix2 40) with 1099511627776; lra].
  assert (R0 : b2r (f64_lit 0 0) = 0) by reflexivity.
  intros k. dblade k; unfold exactly, spin_case; cbn [den mapv]; cbn -[f64_lit B2R IZR];
    rewrite ?R1, ?R2, ?R3, ?R4, ?R0; apply Rabs_le; lra.
Qed.
