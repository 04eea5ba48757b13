(** * Every rotation is an exponential (proofs only). *)

Require Import Reals ZArith Lra Lia List Bool.
Require Import Verif.Num Verif.Types Verif.Priv Verif.OpsUni Verif.OpsAdd Verif.OpsSub Verif.OpsMul Verif.Const
  Verif.Func Verif.SpecCl Verif.SpecExp Verif.SpecFunc Verif.RealInst Verif.AlgTac Verif.AlgMul
  Verif.AlgFacts Verif.AlgSpec Verif.AlgThm Verif.FuncFacts Verif.FuncThm Verif.ExpFacts Verif.ExpThm Verif.LogThm Verif.SpecCover Verif.CoverFacts.
Local Open Scope R_scope.

Lemma half_plane : forall s : Spinor R, magSq TSpin s = 1 -> 0 <= sca_0 (spinSca s) ->
  exists B : BiVector R, cnorm (den TBiv B) <= PI / 2 /\ is_cexp (den TBiv B) (den TSpin s).
Proof.
  intros s Hs P. set (c := sca_0 (spinSca s)) in *. set (b := spinBiv s). set (n := cnorm (den TBiv b)).
  assert (N : c * c + n * n = 1).
  { unfold n. rewrite cnorm_sq. rewrite <- Hs. unfold b, c. clear. destruct s as [[[a]] [[x y z]]]. cbv -[Rplus Rminus Rmult Ropp R R0 R1 IZR]. ring. }
  assert (N0 : 0 <= n) by apply cnorm_nonneg. assert (C1 : c <= 1) by nra.
  set (th := acos c). assert (T : 0 <= th <= PI / 2).
  { pose proof (acos_bound c) as A. split; [apply A|]. destruct (Rle_lt_dec th (PI / 2)) as [K|K]; [exact K|]. exfalso.
    assert (X : cos th < 0) by (apply cos_lt_0; [exact K|pose proof PI_RGT_0; unfold th in *; lra]). unfold th in X. rewrite cos_acos in X by lra. lra. }
  assert (Ct : cos th = c) by (apply cos_acos; lra).
  assert (St : sin th = n).
  { pose proof (sin2_cos2 th) as Q. unfold Rsqr in Q. rewrite Ct in Q. pose proof PI_RGT_0. assert (0 <= sin th) by (apply sin_ge_0; lra). nra. }
  destruct (Req_dec n 0) as [Z|Z].
  - exists (zero TBiv). split.
    + replace (cnorm (den TBiv (zero TBiv))) with 0; [pose proof PI_RGT_0; lra|]. unfold cnorm. replace (cnorm2 (den TBiv (zero TBiv))) with 0 by (cbv -[Rplus Rmult R R0 R1 IZR]; ring). symmetry. apply sqrt_0.
    + assert (c = 1) by nra. assert (Eb : b = zero TBiv).
      { apply (magSq_zero_iff TBiv). rewrite magSq_den, <- cnorm_sq. fold n. rewrite Z. ring. }
      eapply is_cexp_ceq; [| |apply (cexp_scalar 0)]; [intros k; dblade k; cbv -[Rplus Rmult R R0 R1 IZR]; ring|].
      rewrite exp_0. intros k. fold c in H. unfold c, b in *. clear - H Eb. destruct s as [[[a]] [[x y z]]]. cbn [spinBiv] in Eb. injection Eb as -> -> ->. cbv -[Rplus Rmult Ropp R R0 R1 IZR] in H. subst a. dblade k; cbv -[Rplus Rmult Ropp R R0 R1 IZR]; ring.
  - exists (scale TBiv (th / n) b). assert (M : cnorm (den TBiv (scale TBiv (th / n) b)) = th).
    { rewrite (cnorm_ceq _ _ (scale_den TBiv (th / n) b)), cnorm_scale. fold n. rewrite Rabs_pos_eq; [field; exact Z|]. apply Rmult_le_pos; [lra|]. apply Rlt_le, Rinv_0_lt_compat. lra. }
    split; [rewrite M; lra|]. eapply is_cexp_ceq; [apply ceq_refl| |apply cexp_square, biv_sq]. rewrite M, Ct.
    assert (T0 : th <> 0) by (intros Y; rewrite Y, sin_0 in St; lra).
    intros k. unfold cadd, cscale. rewrite (scale_den TBiv (th / n) b k). unfold cscale. replace (sinc th * (th / n * den TBiv b k)) with (th * sinc th / n * den TBiv b k) by (field; exact Z).
    rewrite sinc_mul, St. replace (n / n) with 1 by (field; exact Z). unfold c, b. clear. destruct s as [[[a]] [[x y z]]]. dblade k; cbv -[Rplus Rmult Ropp R R0 R1 IZR]; ring.
Qed.
Lemma rotation_exponential : forall f, rotation f -> exists (B : BiVector R) s, cnorm (den TBiv B) <= PI /\ magSq TSpin s = 1 /\ (forall v, f v = rotate s v) /\
  is_cexp (den TBiv (scale TBiv (1 / 2) B)) (den TSpin s) /\ (nontiny (scale TBiv (1 / 2) B) -> exp_Biv (exact TBiv (scale TBiv (1 / 2) B)) = exact TSpin s).
Proof.
  intros f Hf. destruct (rotation_spinor f Hf) as (s0 & H0 & E0).
  assert (X : exists s, magSq TSpin s = 1 /\ 0 <= sca_0 (spinSca s) /\ forall v, f v = rotate s v).
  { destruct (Rle_lt_dec 0 (sca_0 (spinSca s0))) as [K|K]; [exists s0; auto|]. exists (neg TSpin s0).
    assert (U : magSq TSpin (neg TSpin s0) = 1) by (rewrite <- H0; clear; destruct s0 as [[[a]] [[x y z]]]; flat; ring).
    split; [exact U|]. split; [revert K; clear; destruct s0 as [[[a]] [[x y z]]]; flat; intros; lra|].
    intros v. rewrite E0. symmetry. apply (proj2 (two_spinors s0 _ H0 U)). right. reflexivity. }
  destruct X as (s & Hs & P & E). destruct (half_plane s Hs P) as (b & Nb & Cb). exists (scale TBiv 2 b), s.
  assert (Hb : scale TBiv (1 / 2) (scale TBiv 2 b) = b) by (clear; destruct b as [[x y z]]; flat; apply (f_equal (fun a => mkBiv a)); f_equal; field).
  rewrite Hb. split; [rewrite (cnorm_ceq _ _ (scale_den TBiv 2 b)), cnorm_scale, Rabs_pos_eq by lra; lra|]. split; [exact Hs|]. split; [exact E|]. split; [exact Cb|].
  intros T. destruct (exp_Biv_nontiny b T) as (r & Hr & Er). rewrite Hr. f_equal. apply den_inj. exact (is_cexp_unique _ _ _ Er Cb).
Qed.
(** The axes exchanged in a cycle; a mirror with a shift. *)
Definition cycle (v : Vector R) : Vector R := Vec (vec_1 v) (vec_2 v) (vec_0 v).
Definition mirror_shift (v : Vector R) : Vector R := Vec (1 - vec_0 v) (vec_1 v) (vec_2 v).
Lemma cover_example : rotation cycle /\ isometry mirror_shift /\ magSq TSpin (mkSpin (Sca (1 / 2)) (Biv (1 / 2) (1 / 2) (1 / 2))) = 1 /\
  forall v, rotate (mkSpin (Sca (1 / 2)) (Biv (1 / 2) (1 / 2) (1 / 2))) v = cycle v.
Proof.
  split; [split; intros; unfold dot, det3, cycle; flat; ring|]. split; [intros u v; unfold dot, difference, mirror_shift; flat; ring|]. split; [flat; field|].
  intros [[x y z]]. flat. apply (f_equal (fun a => mkVec a)). f_equal; field.
Qed.
