(** * Amplitude and the inverses through complex numbers on binary64: proofs, continued. *)

Require Import Reals ZArith List Bool Lra Lia.
From Flocq Require Import Core BinarySingleNaN.
Require Import Verif.Num Verif.Types Verif.Priv Verif.OpsUni Verif.OpsAdd Verif.OpsSub
  Verif.OpsMul Verif.Const Verif.Func Verif.SpecCl Verif.SpecFunc Verif.RealInst Verif.AlgTac Verif.AlgMul Verif.AlgFacts Verif.FuncFacts Verif.Rel
  Verif.B64 Verif.B64Facts Verif.SpecRound Verif.ArrErr Verif.IntFacts Verif.SpecAcc Verif.BoundFacts Verif.ErrFacts Verif.AccFacts Verif.NormFacts Verif.ArrFacts
  Verif.SpecScale Verif.ScaleFacts Verif.ScaleThm Verif.SpecAmp Verif.AmpFacts.
Import ListNotations.
Local Open Scope R_scope.

Section WithLib.
Context (L : Libm f64) (eps : R) (He : 0 <= eps <= bpow radix2 (-10)) (HL : complex_within eps L).

(** ** Inverse of ComPlex *)
Definition zconj (z : R * R) : R * R := (fst z, - snd z).
Lemma zconj_abs z : zabs (zconj z) = zabs z.
Proof. unfold zabs, zconj. cbn [fst snd]. f_equal. ring. Qed.
Lemma zconj_mul z : zmul z (zconj z) = (zabs z * zabs z, 0).
Proof. rewrite zabs_sq. unfold zmul, zconj. cbn [fst snd]. f_equal; ring. Qed.
Lemma std_conj_of (z : f64 * f64) : zof (std_conj z) = zconj (zof z).
Proof. unfold zof, zconj, std_conj. cbn [fst snd]. f_equal. apply B2R_Bopp. Qed.
Lemma std_conj_fin (z : f64 * f64) : zfin z -> zfin (std_conj z).
Proof. intros [A B]. split; [exact A|]. unfold std_conj. cbn [snd]. change (is_finite (Bopp (snd z)) = true). rewrite is_finite_Bopp. exact B. Qed.
Lemma zabs_real r : 0 <= r -> zabs (r, 0) = r.
Proof. intros H. apply zabs_unique; [exact H|]. cbn [fst snd]. ring. Qed.
Lemma one_zof : zof (none_ : f64, nzero) = (1, 0) /\ zfin (none_ : f64, nzero).
Proof. split; [|split; reflexivity]. unfold zof. cbn [fst snd]. f_equal. apply one_ok. Qed.

Lemma inverse_form : forall z : f64 * f64, inverse_Cplx (mkCplx (Sca (fst z)) (Tri (snd z))) =
  (if nltb (lim_min : f64) (mcabs (mcmul z (std_conj z))) then
     let y := mcmul (std_conj z) (mcdiv (none_ : f64, nzero) (mcmul z (std_conj z))) in mkCplx (Sca (fst y)) (Tri (snd y)) else null_Cplx).
Proof. intros [p q]. reflexivity. Qed.
Lemma cinv_error : forall z : f64 * f64, zfin z -> bpow radix2 (-180) <= zabs (zof z) <= bpow radix2 180 ->
  let y := inverse_Cplx (mkCplx (Sca (fst z)) (Tri (snd z))) in let w := (sca_0 (cplxSca y), tri_0 (cplxTri y)) in
  zfin w /\ zabs (zsub (zmul (zof z) (zof w)) (1, 0)) <= 4 * eps.
Proof.
  intros z Fz B. cbv zeta. set (n := zabs (zof z)) in *. pose proof (bpow_gt_0 radix2 (-180)) as P0. assert (Pn : 0 < n) by lra.
  assert (B10 : bpow radix2 (-10) = / 1024) by reflexivity. pose proof He as [He0 He1]. rewrite B10 in He1.
  assert (NN : bpow radix2 (-360) <= n * n <= bpow radix2 360).
  { split; [apply (sq_lower n (-180)); apply B|apply (sq_upper n 180); lra]. }
  set (zc := std_conj z). assert (Fc : zfin zc) by apply std_conj_fin, Fz.
  assert (Cn : zabs (zof zc) = n) by (unfold zc; rewrite std_conj_of; apply zconj_abs).
  pose proof (bpow_gt_0 radix2 (-360)) as P1.
  destruct (mul_within eps L HL z zc Fz Fc) as [Fa Ea].
  { rewrite Cn. fold n. split; [eapply Rle_trans; [|apply NN]|eapply Rle_trans; [apply NN|]]; apply bpow_le; lia. }
  rewrite Cn in Ea. fold n in Ea. unfold zc in Ea at 2. rewrite std_conj_of, zconj_mul in Ea. fold n in Ea.
  set (a := mcmul z zc) in *.
  assert (Hn2 : 0 < n * n) by (apply Rmult_lt_0_compat; exact Pn).
  assert (A1 : zabs (zof a) <= (1 + eps) * (n * n)).
  { pose proof (zabs_near (zof a) (n * n, 0)) as K. rewrite zabs_real in K by lra. lra. }
  assert (A2 : (1 - eps) * (n * n) <= zabs (zof a)).
  { pose proof (zabs_near (n * n, 0) (zof a)) as K. rewrite zabs_swap, zabs_real in K by lra. lra. }
  assert (A3 : n * n / 2 <= zabs (zof a) <= 2 * (n * n)) by nra.
  assert (A4 : bpow radix2 (-361) <= zabs (zof a) <= bpow radix2 361).
  { change (-361)%Z with (-1 + -360)%Z. change 361%Z with (1 + 360)%Z. rewrite !bpow_plus. change (bpow radix2 (-1)) with (/ 2). change (bpow radix2 1) with 2. lra. }
  destruct (abs_within eps L HL a Fa) as [Fm Em]; [split; [eapply Rle_trans; [|apply A4]|eapply Rle_trans; [apply A4|]]; apply bpow_le; lia|].
  assert (LT : nltb (lim_min : f64) (mcabs a) = true).
  { destruct min_lit as [Fl Vl]. change (nltb (lim_min : f64) (mcabs a)) with (Bltb (lim_min : f64) (mcabs a)). rewrite Bltb_correct by assumption. apply Rlt_bool_true. rewrite Vl.
    apply Rabs_le_inv in Em. apply Rlt_le_trans with (bpow radix2 (-362)); [apply bpow_lt; lia|].
    change (-362)%Z with (-1 + -361)%Z. rewrite bpow_plus. change (bpow radix2 (-1)) with (/ 2). nra. }
  destruct one_zof as [O1 O2].
  destruct (div_within eps L HL (none_ : f64, nzero) a O2 Fa) as [Fb Eb].
  { rewrite O1, zabs_real by lra. split; [change 1 with (bpow radix2 0)|change 1 with (bpow radix2 0)]; apply bpow_le; lia. }
  { split; [eapply Rle_trans; [|apply A4]|eapply Rle_trans; [apply A4|]]; apply bpow_le; lia. }
  rewrite O1, zabs_real, Rmult_1_r in Eb by lra. set (b := mcdiv (none_ : f64, nzero) a) in *.
  assert (C1 : zabs (zof b) * zabs (zof a) <= 1 + eps).
  { pose proof (zabs_near (zmul (zof b) (zof a)) (1, 0)) as K. rewrite zabs_real, zabs_mul in K by lra. lra. }
  assert (C2 : 1 - eps <= zabs (zof b) * zabs (zof a)).
  { pose proof (zabs_near (1, 0) (zmul (zof b) (zof a))) as K. rewrite zabs_swap, zabs_real, zabs_mul in K by lra. lra. }
  pose proof (zabs_pos (zof b)) as Pb.
  assert (D1 : zabs (zof b) * (n * n) <= 101 / 100).
  { assert (zabs (zof b) * ((1 - eps) * (n * n)) <= 1 + eps) by (eapply Rle_trans; [|exact C1]; apply Rmult_le_compat_l; assumption).
    assert (X0 : 0 <= zabs (zof b) * (n * n)) by (apply Rmult_le_pos; lra).
    replace (zabs (zof b) * ((1 - eps) * (n * n))) with ((1 - eps) * (zabs (zof b) * (n * n))) in H by ring. nra. }
  assert (D2 : 9 / 10 <= zabs (zof b) * (n * n)).
  { assert (1 - eps <= zabs (zof b) * ((1 + eps) * (n * n))) by (eapply Rle_trans; [exact C2|]; apply Rmult_le_compat_l; assumption).
    assert (X0 : 0 <= zabs (zof b) * (n * n)) by (apply Rmult_le_pos; lra).
    replace (zabs (zof b) * ((1 + eps) * (n * n))) with ((1 + eps) * (zabs (zof b) * (n * n))) in H by ring. nra. }
  destruct (mul_within eps L HL zc b Fc Fb) as [Fy Ey].
  { rewrite Cn. assert (Q1 : 0 <= n * zabs (zof b)) by (apply Rmult_le_pos; lra).
    assert (I1 : n * (n * zabs (zof b)) <= 101 / 100) by lra. assert (I2 : 9 / 10 <= n * (n * zabs (zof b))) by lra. clear - B P0 Pn I1 I2 Q1.
    assert (W : bpow radix2 (-180) * bpow radix2 180 = 1) by (rewrite <- bpow_plus; reflexivity).
    pose proof (bpow_gt_0 radix2 180) as P2. split.
    - apply Rle_trans with (bpow radix2 (-1) * bpow radix2 (-180)); [rewrite <- bpow_plus; apply bpow_le; lia|]. change (bpow radix2 (-1)) with (/ 2).
      assert (n * (n * zabs (zof b)) <= bpow radix2 180 * (n * zabs (zof b))) by (apply Rmult_le_compat_r; lra).
      assert (9 / 10 * bpow radix2 (-180) <= bpow radix2 (-180) * (bpow radix2 180 * (n * zabs (zof b)))) by (rewrite Rmult_comm; apply Rmult_le_compat_l; lra).
      rewrite <- Rmult_assoc, W, Rmult_1_l in H0. lra.
    - apply Rle_trans with (bpow radix2 1 * bpow radix2 180); [|rewrite <- bpow_plus; apply bpow_le; lia]. change (bpow radix2 1) with 2.
      assert (bpow radix2 (-180) * (n * zabs (zof b)) <= n * (n * zabs (zof b))) by (apply Rmult_le_compat_r; lra).
      assert (bpow radix2 180 * (bpow radix2 (-180) * (n * zabs (zof b))) <= bpow radix2 180 * (101 / 100)) by (apply Rmult_le_compat_l; lra).
      rewrite <- Rmult_assoc, (Rmult_comm (bpow radix2 180) (bpow radix2 (-180))), W, Rmult_1_l in H0. lra. }
  rewrite Cn in Ey. set (y := mcmul zc b) in *.
  rewrite inverse_form. fold zc. fold a. rewrite LT. fold b. fold y. cbv zeta.
  replace (sca_0 (cplxSca (mkCplx (Sca (fst y)) (Tri (snd y)))), tri_0 (cplxTri (mkCplx (Sca (fst y)) (Tri (snd y))))) with y by (destruct y; reflexivity).
  split; [exact Fy|]. unfold zc in Ey at 1. rewrite std_conj_of in Ey.
  assert (S : zsub (zmul (zof z) (zof y)) (1, 0) = zadd (zmul (zof z) (zsub (zof y) (zmul (zconj (zof z)) (zof b))))
     (zadd (zmul (zsub (n * n, 0) (zof a)) (zof b)) (zsub (zmul (zof b) (zof a)) (1, 0)))).
  { unfold n. rewrite zabs_sq. unfold zmul, zsub, zadd, zconj. cbn [fst snd]. f_equal; ring. }
  rewrite S. eapply Rle_trans; [apply zabs_tri|]. pose proof (zabs_tri (zmul (zsub (n * n, 0) (zof a)) (zof b)) (zsub (zmul (zof b) (zof a)) (1, 0))) as T.
  rewrite !zabs_mul in *. fold n in T. fold n. rewrite (zabs_swap (n * n, 0)) in T.
  assert (T1 : n * zabs (zsub (zof y) (zmul (zconj (zof z)) (zof b))) <= n * (eps * (n * zabs (zof b)))) by (apply Rmult_le_compat_l; lra).
  assert (T2 : zabs (zsub (zof a) (n * n, 0)) * zabs (zof b) <= eps * (n * n) * zabs (zof b)) by (apply Rmult_le_compat_r; lra).
  assert (T3 : eps * (zabs (zof b) * (n * n)) <= eps * (101 / 100)) by (apply Rmult_le_compat_l; lra). lra.
Qed.
Lemma inverse_Cplx_error : forall x : ComPlex f64, all_finite TCplx x -> bpow radix2 (-180) <= cnorm (exactly TCplx x) <= bpow radix2 180 ->
  let y := inverse_Cplx x in all_finite TCplx y /\ cnorm (csub (gp (exactly TCplx x) (exactly TCplx y)) cone) <= 4 * eps.
Proof.
  intros x F B. cbv zeta. set (z := (sca_0 (cplxSca x), tri_0 (cplxTri x))).
  assert (Ex : x = mkCplx (Sca (fst z)) (Tri (snd z))) by (unfold z; clear; dvs; reflexivity).
  assert (Fz : zfin z) by (unfold z, zfin; clear - F; dvs; unfold all_finite in F; inversion F as [|? ? F1 F2]; subst; inversion F2; subst; split; assumption).
  rewrite zcl_cplx in *. fold z in B. fold z. rewrite zcl_norm in B. destruct (cinv_error z Fz B) as [G E]. rewrite <- Ex in G, E.
  set (y := inverse_Cplx x) in *. split.
  - unfold all_finite. destruct y as [s t]. clear - G. dvs. destruct G. repeat (apply Forall_cons || apply Forall_nil); assumption.
  - rewrite (zcl_cplx y). eapply Rle_trans; [|exact E]. right. rewrite <- zcl_norm. apply cnorm_ceq. intros k.
    transitivity (csub (zcl (zmul (zof z) (zof (sca_0 (cplxSca y), tri_0 (cplxTri y))))) (zcl (1, 0)) k); [|apply zcl_sub].
    unfold csub. rewrite (zcl_gp _ _ k). f_equal. f_equal. dblade k; unfold zcl; dring.
Qed.
End WithLib.
