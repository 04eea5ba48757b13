(** * Inverse of multivectors on binary64: a library meeting the specification
    and a multivector without an inverse that is given one. *)

Require Import Reals ZArith List Bool Lra Lia.
From Flocq Require Import Core BinarySingleNaN.
Require Import Verif.Num Verif.Types Verif.Priv Verif.OpsUni Verif.OpsAdd Verif.OpsSub
  Verif.OpsMul Verif.Const Verif.Func Verif.SpecCl Verif.SpecFunc Verif.RealInst Verif.AlgTac Verif.AlgMul Verif.AlgFacts Verif.FuncFacts Verif.ExpFacts Verif.Rel
  Verif.B64 Verif.B64Facts Verif.SpecRound Verif.ArrErr Verif.IntFacts Verif.SpecAcc Verif.BoundFacts Verif.ErrFacts Verif.AccFacts Verif.NormFacts Verif.ArrFacts Verif.ExpAcc
  Verif.SpecScale Verif.ScaleFacts Verif.ScaleThm Verif.SpecAmp Verif.AmpFacts Verif.AmpThm Verif.AmpInv.
Import ListNotations.
Local Open Scope R_scope.

(** ** Correctly rounded complex functions *)
Definition near2 (z : R * R) : f64 * f64 := (near64 (fst z), near64 (snd z)).
Definition zdiv (z w : R * R) : R * R :=
  let d := fst w * fst w + snd w * snd w in
  ((fst z * fst w + snd z * snd w) / d, (snd z * fst w - fst z * snd w) / d).
Definition complex_lib : Libm f64 := {|
  mcos := @mcos _ rounded_lib; msin := @msin _ rounded_lib; mexp := @mexp _ rounded_lib; mlog := @mlog _ rounded_lib; matan2 := @matan2 _ rounded_lib;
  mcabs := fun z => near64 (zabs (zof z));
  mcmul := fun z w => near2 (zmul (zof z) (zof w));
  mcdiv := fun z w => near2 (zdiv (zof z) (zof w));
  mcsqrt := fun z => near2 (Rcsqrt (fst (zof z)) (snd (zof z))) |}.
Lemma near64_zero : is_finite (near64 0) = true /\ B2R (near64 0) = 0.
Proof.
  assert (E : F2R (Float radix2 (ZnearestE (scaled_mantissa radix2 fexp64 0)) (cexp radix2 fexp64 0)) = rnd64 0) by reflexivity.
  assert (Z : rnd64 0 = 0) by (apply round_0; apply valid_rnd_N).
  destruct (lit_exact (ZnearestE (scaled_mantissa radix2 fexp64 0)) (cexp radix2 fexp64 0)) as [A B]; rewrite ?E, ?Z.
  - apply generic_format_0.
  - rewrite Rabs_R0. apply bpow_gt_0.
  - split; [exact A|]. transitivity (rnd64 0); [exact B|exact Z].
Qed.
Lemma near2_any : forall z, zabs z <= bpow radix2 1000 -> zfin (near2 z) /\ zabs (zsub (zof (near2 z)) z) <= 17 / 12 * (u53 * zabs z + eta).
Proof.
  intros z H. pose proof u53_pos. pose proof eta_pos. pose proof (zfst_le z) as A. pose proof (zsnd_le z) as B.
  destruct (near64_ok (fst z)) as [F1 E1]; [lra|]. destruct (near64_ok (snd z)) as [F2 E2]; [lra|]. split; [split; assumption|].
  assert (u53 * Rabs (fst z) <= u53 * zabs z) by (apply Rmult_le_compat_l; lra). assert (u53 * Rabs (snd z) <= u53 * zabs z) by (apply Rmult_le_compat_l; lra).
  pose proof (zabs_pos z). assert (0 <= u53 * zabs z) by (apply Rmult_le_pos; lra).
  apply zabs_le; [lra| |]; unfold zsub, zof, near2; cbn [fst snd]; lra.
Qed.
Lemma near2_ok : forall z, bpow radix2 (-1000) <= zabs z <= bpow radix2 1000 -> zfin (near2 z) /\ zabs (zsub (zof (near2 z)) z) <= bpow radix2 (-52) * zabs z.
Proof.
  intros z [H1 H2]. destruct (near2_any z H2) as [F E]. split; [exact F|]. pose proof u53_pos. pose proof (eta_rel _ H1). pose proof (bpow_gt_0 radix2 (-1000)).
  assert (U : bpow radix2 (-52) = 2 * u53) by (rewrite u53_val; cbn; lra). rewrite U. assert (0 <= u53 * zabs z) by (apply Rmult_le_pos; lra). lra.
Qed.
Lemma zdiv_mul : forall z w, 0 < zabs w -> zmul (zdiv z w) w = z.
Proof.
  intros z w H. pose proof (zabs_sq w) as Q. assert (fst w * fst w + snd w * snd w <> 0) by (rewrite <- Q; apply Rgt_not_eq, Rmult_lt_0_compat; exact H).
  unfold zmul, zdiv. cbn [fst snd]. destruct z, w. cbn [fst snd] in *. f_equal; field; assumption.
Qed.
Lemma complex_lib_within : complex_within (bpow radix2 (-52)) complex_lib.
Proof.
  pose proof u53_pos as U0. assert (U : bpow radix2 (-52) = 2 * u53) by (rewrite u53_val; cbn; lra).
  split; cbn [mcabs mcmul mcdiv mcsqrt complex_lib].
  - intros z Fz [H1 H2]. destruct (near64_ok (zabs (zof z))) as [F E].
    + rewrite Rabs_pos_eq by apply zabs_pos. eapply Rle_trans; [exact H2|apply bpow_le; lia].
    + split; [exact F|]. rewrite (Rabs_pos_eq (zabs (zof z))) in E by apply zabs_pos. pose proof (eta_rel (zabs (zof z)) ltac:(eapply Rle_trans; [|exact H1]; apply bpow_le; lia)).
      pose proof (bpow_gt_0 radix2 (-500)). assert (0 <= u53 * zabs (zof z)) by (apply Rmult_le_pos; lra). rewrite U. eapply Rle_trans; [exact E|]. lra.
  - intros z w Fz Fw H. rewrite <- zabs_mul in *. apply near2_ok. split; [eapply Rle_trans; [|apply H]|eapply Rle_trans; [apply H|]]; apply bpow_le; lia.
  - intros z w Fz Fw [H1 H2] [H3 H4]. pose proof (bpow_gt_0 radix2 (-400)) as P4. assert (Pw : 0 < zabs (zof w)) by lra. pose proof (zdiv_mul (zof z) (zof w) Pw) as D.
    assert (Dn : zabs (zdiv (zof z) (zof w)) * zabs (zof w) = zabs (zof z)) by (rewrite <- zabs_mul, D; reflexivity).
    assert (M4 : bpow radix2 (-400) * bpow radix2 400 = 1) by (rewrite <- bpow_plus; reflexivity). pose proof (zabs_pos (zdiv (zof z) (zof w))) as Pd.
    destruct (near2_ok (zdiv (zof z) (zof w))) as [F E].
    { split.
      - apply Rle_trans with (bpow radix2 (-800)); [apply bpow_le; lia|]. change (-800)%Z with (-400 + -400)%Z. rewrite bpow_plus.
        assert (bpow radix2 (-400) <= zabs (zdiv (zof z) (zof w)) * bpow radix2 400) by (apply Rle_trans with (1 := H1); rewrite <- Dn; apply Rmult_le_compat_l; assumption).
        apply Rle_trans with (bpow radix2 (-400) * (zabs (zdiv (zof z) (zof w)) * bpow radix2 400)); [apply Rmult_le_compat_l; lra|].
        replace (bpow radix2 (-400) * (zabs (zdiv (zof z) (zof w)) * bpow radix2 400)) with (zabs (zdiv (zof z) (zof w)) * (bpow radix2 (-400) * bpow radix2 400)) by ring. rewrite M4. lra.
      - apply Rle_trans with (bpow radix2 800); [|apply bpow_le; lia]. change 800%Z with (400 + 400)%Z. rewrite bpow_plus.
        assert (zabs (zdiv (zof z) (zof w)) * bpow radix2 (-400) <= bpow radix2 400) by (apply Rle_trans with (2 := H2); rewrite <- Dn; apply Rmult_le_compat_l; assumption).
        apply Rle_trans with (bpow radix2 400 * (zabs (zdiv (zof z) (zof w)) * bpow radix2 (-400))); [|apply Rmult_le_compat_l; [apply bpow_ge_0|assumption]].
        replace (bpow radix2 400 * (zabs (zdiv (zof z) (zof w)) * bpow radix2 (-400))) with (zabs (zdiv (zof z) (zof w)) * (bpow radix2 (-400) * bpow radix2 400)) by ring. rewrite M4. lra. }
    split; [exact F|]. rewrite <- D at 2.
    replace (zsub (zmul (zof (near2 (zdiv (zof z) (zof w)))) (zof w)) (zmul (zdiv (zof z) (zof w)) (zof w))) with (zmul (zsub (zof (near2 (zdiv (zof z) (zof w)))) (zdiv (zof z) (zof w))) (zof w)).
    + rewrite zabs_mul, <- Dn, <- Rmult_assoc. apply Rmult_le_compat_r; lra.
    + unfold zmul, zsub. cbn [fst snd]. f_equal; ring.
  - intros z Fz H. pose proof (Rcsqrt_sq (fst (zof z)) (snd (zof z))) as (S1 & S2 & S3). set (s := Rcsqrt (fst (zof z)) (snd (zof z))) in *.
    assert (SS : zmul s s = zof z) by (unfold zmul; rewrite (surjective_pairing (zof z)); f_equal; [exact S1|lra]).
    assert (Sn : zabs s * zabs s = zabs (zof z)) by (rewrite <- zabs_mul, SS; reflexivity). pose proof (zabs_pos s) as Ps.
    assert (Sb : zabs s <= bpow radix2 450). { apply Rsqr_incr_0_var; [|apply bpow_ge_0]. unfold Rsqr. rewrite Sn, <- bpow_plus. exact H. }
    destruct (near2_any s) as [F E]; [eapply Rle_trans; [exact Sb|apply bpow_le; lia]|]. split; [exact F|]. exists s. split; [exact SS|]. split; [destruct S3; lra|].
    eapply Rle_trans; [exact E|]. rewrite U. assert (0 <= u53 * zabs s) by (apply Rmult_le_pos; lra).
    assert (eta <= u53 / 1000 * bpow radix2 (-500)) by (apply eta_rel, bpow_le; lia). rewrite u53_val in *. pose proof (bpow_gt_0 radix2 (-500)). lra.
  - destruct near64_zero as [F0 V0]. split.
    + intros z w _ _ H. rewrite H. unfold zmul. cbn [fst snd]. rewrite !Rmult_0_l, Rminus_0_r, Rplus_0_r. split; [split; assumption|]. unfold zof, near2. cbn [fst snd]. f_equal; exact V0.
    + intros z _ H. rewrite H, zabs_real by lra. split; assumption.
Qed.

(** ** A multivector without an inverse *)
Definition sing : MultiVector f64 :=
  mkMvec (Sca (f64_lit 268435475 0)) (Vec (f64_lit 161061285 0) (f64_lit 214748380 0) (f64_lit 0 0)) (Biv (f64_lit 0 0) (f64_lit 0 0) (f64_lit 0 0)) (Tri (f64_lit 0 0)).
Lemma int_lit : forall m, (Z.abs m <= 2 ^ 40)%Z -> is_finite (f64_lit m 0) = true /\ B2R (f64_lit m 0) = IZR m.
Proof.
  intros m Hm. assert (E : F2R (Float radix2 m 0) = IZR m) by (unfold F2R; cbn; ring).
  destruct (lit_exact m 0) as [A B]; [rewrite E; apply int_format; lia|rewrite E; apply int_lt; lia|]. split; [exact A|]. etransitivity; [exact B|]. cbn. ring.
Qed.
Lemma sing_exact : ceq (exactly TMvec sing) (den TMvec (mkMvec (Sca 268435475) (Vec 161061285 214748380 0) (Biv 0 0 0) (Tri 0))).
Proof.
  assert (Q : forall m, (Z.abs m <= 2 ^ 40)%Z -> B2R (f64_lit m 0) = IZR m) by (intros m Hm; apply int_lit, Hm).
  intros k. unfold exactly, sing. dblade k; cbv -[B2R f64_lit Ropp IZR]; rewrite Q by lia; reflexivity.
Qed.
Lemma sing_finite : all_finite TMvec sing.
Proof. unfold all_finite. repeat (apply Forall_cons || apply Forall_nil); apply int_lit; lia. Qed.
Lemma sing_amp : ampSq_Mvec sing = mkCplx (Sca (f64_lit 16 0)) (Tri (B754_zero false)).
Proof. rewrite (amps_f64 TMvec ampSq_Mvec sing eq_refl). f_equal; f_equal; apply B2SF_inj; vm_compute; reflexivity. Qed.
Lemma sing_amplitude : ampz (exactly TMvec sing) = (0, 0).
Proof.
  assert (E : ceq (gp (exactly TMvec sing) (cdir (exactly TMvec sing))) czero).
  { rewrite sing_exact. intros k. dblade k; cbv -[Rplus Rmult Ropp IZR R0 R1]; ring. }
  unfold ampz. rewrite (E bS), (E bT). reflexivity.
Qed.
Lemma sing_inverse : forall eps L, 0 <= eps <= bpow radix2 (-10) -> complex_within eps L -> all_finite TMvec (@inverse_Mvec f64 Arith_B L sing).
Proof.
  intros eps L He HL. destruct (int_lit 16 ltac:(lia)) as [F16 V16].
  destruct (cinv_error L eps He HL (f64_lit 16 0, B754_zero false : f64)) as [Fw Ew].
  - split; [exact F16|reflexivity].
  - unfold zof. cbn [fst snd B2R]. rewrite V16, zabs_real by lra. change 16 with (bpow radix2 4). split; apply bpow_le; lia.
  - assert (Ei : mkCplx (Sca (fst (f64_lit 16 0, B754_zero false : f64))) (Tri (snd (f64_lit 16 0, B754_zero false : f64))) = ampSq_Mvec sing) by exact (eq_sym sing_amp).
    rewrite Ei in Fw, Ew.
    change (@inverse_Mvec f64 Arith_B L sing) with (@invf f64 Ring0_B (@inverse_Cplx f64 Arith_B L (ampSq_Mvec sing)) sing).
    set (y := inverse_Cplx (ampSq_Mvec sing)) in *. set (w := (sca_0 (cplxSca y), tri_0 (cplxTri y))) in *.
    assert (Fy : all_finite TCplx y). { unfold all_finite. destruct y as [[[s]] [[t]]]. destruct Fw. repeat (apply Forall_cons || apply Forall_nil); assumption. }
    apply (invf_within 0 40); [lia|lia| |].
    + apply norm_within; [exact Fy|]. rewrite zcl_cplx, zcl_norm. fold w.
      pose proof (zabs_near (zmul (zof (f64_lit 16 0, B754_zero false : f64)) (zof w)) (1, 0)) as Q. rewrite zabs_mul, zabs_real in Q by lra.
      assert (Z16 : zabs (zof (f64_lit 16 0, B754_zero false : f64)) = 16) by (unfold zof; cbn [fst snd B2R]; rewrite V16; apply zabs_real; lra). rewrite Z16 in Q.
      change (bpow radix2 (-10)) with (/ 1024) in He. change (bpow radix2 0) with 1. lra.
    + apply norm_within; [exact sing_finite|]. eapply Rle_trans; [apply (norm_of_bound _ (bpow radix2 30)); [apply bpow_ge_0|]|].
      * intros k. rewrite (sing_exact k). change (bpow radix2 30) with 1073741824. dblade k; cbv -[Rabs Rle IZR Ropp R0]; rewrite ?Rabs_Ropp; rewrite Rabs_pos_eq; lra.
      * change (bpow radix2 30) with 1073741824. change (bpow radix2 40) with 1099511627776. lra.
Qed.
Lemma singular_refuted : exists x : MultiVector f64, all_finite TMvec x /\ (~ exists Y, ceq (gp (exactly TMvec x) Y) cone) /\
  forall eps L, 0 <= eps <= bpow radix2 (-10) -> complex_within eps L ->
    all_finite TMvec (@inverse_Mvec f64 Arith_B L x).
Proof. exists sing. split; [exact sing_finite|]. split; [apply no_inverse, sing_amplitude|exact sing_inverse]. Qed.

(** ** A multivector with an inverse *)
Definition invertible : MultiVector f64 :=
  mkMvec (Sca (f64_lit 1 0)) (Vec (f64_lit 2 0) (f64_lit (-3) 0) (f64_lit 5 0)) (Biv (f64_lit 4 0) (f64_lit 0 0) (f64_lit (-1) 0)) (Tri (f64_lit 2 0)).
Lemma invertible_exact : ceq (exactly TMvec invertible) (den TMvec (mkMvec (Sca 1) (Vec 2 (-3) 5) (Biv 4 0 (-1)) (Tri 2))).
Proof.
  assert (Q : forall m, (Z.abs m <= 2 ^ 40)%Z -> B2R (f64_lit m 0) = IZR m) by (intros m Hm; apply int_lit, Hm).
  intros k. unfold exactly, invertible. dblade k; cbv -[B2R f64_lit Ropp IZR]; rewrite Q by lia; reflexivity.
Qed.
Lemma invertible_small : small_integers TMvec invertible.
Proof.
  assert (K : forall m, (Z.abs m <= 2 ^ 24)%Z -> is_finite (f64_lit m 0) = true /\ exists n : Z, (Z.abs n <= 2 ^ 24)%Z /\ B2R (f64_lit m 0) = IZR n).
  { intros m Hm. destruct (int_lit m ltac:(lia)) as [A B]. split; [exact A|]. exists m. split; [exact Hm|exact B]. }
  unfold small_integers. repeat (apply Forall_cons || apply Forall_nil); apply K; lia.
Qed.
(** Squared norm 60; squared amplitude -24 - 2 i. *)
Lemma invertible_norm : cnorm2 (exactly TMvec invertible) = 60.
Proof. unfold cnorm2. cbn [map all_blades rsum fold_right]. rewrite !(invertible_exact _). cbv -[Rplus Rmult Ropp IZR R0 R1]. ring. Qed.
Lemma invertible_amp : ampz (exactly TMvec invertible) = (-24, -2).
Proof.
  assert (E : ceq (gp (exactly TMvec invertible) (cdir (exactly TMvec invertible))) (den TCplx (mkCplx (Sca (-24)) (Tri (-2))))).
  { rewrite invertible_exact. intros k. dblade k; cbv -[Rplus Rmult Ropp IZR R0 R1]; ring. }
  unfold ampz. rewrite (E bS), (E bT). reflexivity.
Qed.
Lemma invertible_meets : all_finite TMvec invertible /\
  (let X := exactly TMvec invertible in let c := cnorm (gp X (cdir X)) in
   cnorm X <= bpow radix2 50 /\ bpow radix2 (-100) <= c /\ cnorm2 X <= bpow radix2 46 * c) /\
  (exists Y, ceq (gp (exactly TMvec invertible) Y) cone).
Proof.
  assert (C : 20 <= cnorm (gp (exactly TMvec invertible) (cdir (exactly TMvec invertible)))).
  { rewrite (cnorm_ceq _ _ (ampz_cl _)), zcl_norm, invertible_amp. pose proof (zfst_le (-24, -2)) as Q. cbn [fst] in Q. rewrite Rabs_left in Q by lra. lra. }
  split; [|split].
  - eapply Forall_impl; [|exact invertible_small]. intros v [A _]. exact A.
  - cbv zeta. rewrite invertible_norm. split; [|split].
    + apply Rsqr_incr_0_var; [|apply bpow_ge_0]. unfold Rsqr. rewrite cnorm_sq', invertible_norm, <- bpow_plus. apply Rle_trans with (bpow radix2 6); [change (bpow radix2 6) with 64; lra|apply bpow_le; lia].
    + apply Rle_trans with (bpow radix2 4); [apply bpow_le; lia|]. change (bpow radix2 4) with 16. lra.
    + change (bpow radix2 46) with 70368744177664. lra.
  - apply has_inverse. rewrite invertible_amp. cbn [fst snd]. left. lra.
Qed.
