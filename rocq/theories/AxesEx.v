(** * The same values in another frame: what fails, and examples (proofs only). *)

Require Import Reals ZArith Lra Lia List Bool.
From Flocq Require Import Core.
Require Import Verif.Num Verif.Types Verif.Priv Verif.OpsUni Verif.OpsAdd Verif.OpsSub Verif.OpsMul Verif.Const
  Verif.Validity Verif.Compare Verif.Func Verif.SpecCl Verif.SpecExp Verif.SpecFunc Verif.RealInst Verif.AlgTac Verif.AlgMul
  Verif.AlgFacts Verif.AlgSpec Verif.AlgThm Verif.FuncFacts Verif.FuncThm Verif.ExpFacts Verif.ExpThm Verif.LogThm Verif.SpecProg Verif.SpecAxes Verif.AxesFacts Verif.AxesThm.
Local Open Scope R_scope.

(** A turn in the plane of e1 and e2. *)
Definition turn35 : Spinor R := mkSpin (Sca (3 / 5)) (Biv 0 0 (4 / 5)).
Lemma turn35_unit : magSq TSpin turn35 = 1.
Proof. cbv -[Rplus Rminus Rmult Ropp Rinv Rdiv R R0 R1 IZR]. lra. Qed.
Lemma minus_one_seen : forall s, magSq TSpin s = 1 -> seen s TSpin (mkSpin (Sca (-1)) (zero TBiv)) (mkSpin (Sca (-1)) (zero TBiv)).
Proof. intros s Hs. apply (spin_parts s Hs). split; [reflexivity|]. apply zero_biv_seen, Hs. Qed.
Lemma log_minus_one : logG2 (exact TSpin (mkSpin (Sca (-1)) (zero TBiv))) (exact TBiv c_e23) = exact TSpin (mkSpin (Sca 0) (Biv pi53 0 0)).
Proof.
  rewrite log_form. pose proof deps_pos as Hd0. pose proof deps_val as Hdv.
  assert (N : cnorm (den TSpin (mkSpin (Sca (-1)) (zero TBiv))) = 1).
  { unfold cnorm. match goal with |- sqrt ?a = _ => replace a with 1 by (cbv -[Rplus Rminus Rmult Ropp R R0 R1 IZR]; ring) end. apply sqrt_1. }
  rewrite N. rewrite (Rltb_true deps 1) by lra. change (sca_0 (spinSca (mkSpin (Sca (-1)) (zero TBiv)))) with (-1).
  rewrite (Rltb_false (1 - deps) _) by lra. rewrite (Rltb_true _ (- (1 - deps))) by lra. rewrite ln_1, turnHalf_exact.
  assert (D : direction TBiv (exact TBiv c_e23) = exact TBiv c_e23).
  { unfold direction. rewrite pairMagDir_exact. cbn [snd].
    assert (C : cnorm (den TBiv (c_e23 : BiVector R)) = 1) by (unfold cnorm; replace (cnorm2 (den TBiv c_e23)) with 1 by dring; apply sqrt_1).
    rewrite C. rewrite Rltb_true by (pose proof tiny_small; lra). f_equal. apply den_inj. intros k. dblade k; cbv -[Rplus Rminus Rmult Ropp Rinv Rdiv R R0 R1 IZR]; field. }
  rewrite D. change (mul_Dub_Biv (Some pi53 : xreal) (exact TBiv c_e23)) with (scale TBiv (Some pi53 : xreal) (exact TBiv (c_e23 : BiVector R))). rewrite scale_exact.
  cbv -[Rplus Rminus Rmult Ropp R R0 R1 IZR pi53]. repeat f_equal; ring.
Qed.
Lemma default_plane : exists (s V V' : Spinor R), magSq TSpin s = 1 /\ seen s TSpin V V' /\
  ~ seen_result s TSpin (logG2 (exact TSpin V) (exact TBiv c_e23)) (logG2 (exact TSpin V') (exact TBiv c_e23)).
Proof.
  exists turn35, (mkSpin (Sca (-1)) (zero TBiv)), (mkSpin (Sca (-1)) (zero TBiv)). split; [apply turn35_unit|]. split; [apply minus_one_seen, turn35_unit|].
  rewrite log_minus_one. intros [(v & v' & E & E' & H)|[_ H]]; [|exact (H _ eq_refl)]. apply exact_inj in E. apply exact_inj in E'. subst v v'.
  apply (spin_parts _ turn35_unit) in H. destruct H as [_ H]. apply (seen_is _ turn35_unit) in H.
  apply (f_equal (fun b : BiVector R => biv_0 b)) in H. revert H. cbv -[Rplus Rminus Rmult Ropp Rinv Rdiv R R0 R1 IZR pi53]. unfold pi53. lra.
Qed.
Lemma near_zero_absolute : forall x y z tol, 0 < tol ->
  nearlyEquals TVec (exact TVec (Vec x y z)) (exact TVec (zero TVec)) (Some tol) = true <-> Rabs x < tol /\ Rabs y < tol /\ Rabs z < tol.
Proof.
  intros x y z tol Ht. change (nearlyEquals TVec (exact TVec (Vec x y z)) (exact TVec (zero TVec)) (Some tol)) with
    (nearlyEquals_arr (Some x :: Some y :: Some z :: nil : list xreal) (Some 0 :: Some 0 :: Some 0 :: nil : list xreal) (Some tol)).
  unfold nearlyEquals_arr.
  assert (Vv : forall p q r : R, isValid_arr (Some p :: Some q :: Some r :: nil : list xreal) = true) by (intros p q r; unfold isValid_arr; cbn [fold_left]; rewrite !isValid_x; reflexivity).
  rewrite !Vv. cbn [andb]. cbv zeta. unfold lim_min. rewrite lit1. fold dmin.
  assert (Ic : inner_product (Some 0 :: Some 0 :: Some 0 :: nil : list xreal) (Some 0 :: Some 0 :: Some 0 :: nil : list xreal) (nzero : xreal) = Some 0) by (cbv -[Rplus Rmult R R0 R1 IZR]; f_equal; ring).
  match goal with |- context [inner_product ?a ?b ?i] => change (inner_product a b i) with (inner_product (Some 0 :: Some 0 :: Some 0 :: nil : list xreal) (Some 0 :: Some 0 :: Some 0 :: nil : list xreal) (nzero : xreal)) end.
  rewrite Ic. rewrite sqrt_exact by lra. rewrite sqrt_0. assert (T : nltb (Some 0 : xreal) (Some dmin) = true) by (apply Rltb_true, dmin_pos). rewrite T.
  assert (S : forall a : R, isSmallAbsDiff (Some a : xreal) (Some 0 : xreal) (Some tol : xreal) = Rltb (Rabs a) tol).
  { intros a. change (isSmallAbsDiff (Some a : xreal) (Some 0 : xreal) (Some tol : xreal)) with (Rltb (Rabs (a - 0)) tol). rewrite Rminus_0_r. reflexivity. }
  cbn [allSmallDiff]. unfold nearlyEqualsAbs, bothAreValid. rewrite !isValid_x. cbn [andb]. rewrite !S. rewrite <- !Rltb_spec.
  destruct (Rltb (Rabs x) tol), (Rltb (Rabs y) tol), (Rltb (Rabs z) tol); intuition congruence.
Qed.
Lemma near_zero : forall tol, 0 < tol -> exists (s : Spinor R) (g g' r r' : Vector R), magSq TSpin s = 1 /\ seen s TVec g g' /\ seen s TVec r r' /\
  nearlyEquals TVec (exact TVec g) (exact TVec r) (Some tol) = true /\ nearlyEquals TVec (exact TVec g') (exact TVec r') (Some tol) = false.
Proof.
  intros tol Ht. exists turn35, (Vec (9 / 10 * tol) (9 / 10 * tol) 0), (turn turn35 TVec (Vec (9 / 10 * tol) (9 / 10 * tol) 0)), (zero TVec), (zero TVec).
  split; [apply turn35_unit|]. split; [apply seen_turn, turn35_unit|]. split.
  { pose proof (seen_turn _ turn35_unit TVec (zero TVec)) as Z. assert (E : turn turn35 TVec (zero TVec) = zero TVec) by (apply (zero_seen _ turn35_unit TVec _ _ Z), magSq_zero_iff; reflexivity).
    rewrite E in Z. exact Z. }
  split.
  - apply near_zero_absolute; [exact Ht|]. rewrite Rabs_R0, !Rabs_pos_eq by lra. lra.
  - apply not_true_is_false. intros N.
    assert (E : turn turn35 TVec (Vec (9 / 10 * tol) (9 / 10 * tol) 0) = Vec (17 / 25 * (9 / 10 * tol)) (- (31 / 25) * (9 / 10 * tol)) 0).
    { cbv -[Rplus Rminus Rmult Ropp Rinv Rdiv R R0 R1 IZR]. f_equal. f_equal; field. }
    rewrite E in N. apply near_zero_absolute in N; [|exact Ht]. destruct N as (_ & N & _). apply Rabs_def2 in N. lra.
Qed.

(** e1 and e2 in the frame turned by [turn35], and an expression in both. *)
Lemma e1_seen : seen turn35 TVec c_e1 (Vec (-7 / 25) (-24 / 25) 0).
Proof.
  intros k. dblade k; cbv -[Rplus Rminus Rmult Ropp Rinv Rdiv R R0 R1 IZR]; field.
Qed.
Lemma frame_example : magSq TSpin turn35 = 1 /\ seen turn35 TVec c_e1 (Vec (-7 / 25) (-24 / 25) 0) /\ (c_e1 : Vector R) <> Vec (-7 / 25) (-24 / 25) 0 /\
  long_parts TVec (c_e1 : Vector R) /\
  alike (seen turn35) (PMul (PLeaf TVec (c_e1 : Vector R)) (PUni URev (PLeaf TVec (c_e1 : Vector R))))
    (PMul (PLeaf TVec (Vec (-7 / 25) (-24 / 25) 0)) (PUni URev (PLeaf TVec (Vec (-7 / 25) (-24 / 25) 0)))).
Proof.
  split; [apply turn35_unit|]. split; [apply e1_seen|]. split.
  - intros E. apply (f_equal (fun v : Vector R => vec_1 v)) in E. revert E. cbv -[Rplus Rminus Rmult Ropp Rinv Rdiv R R0 R1 IZR]. lra.
  - split; [|repeat constructor; exact e1_seen]. cbn [long_parts]. unfold cnorm. replace (cnorm2 (den TVec (c_e1 : Vector R))) with 1 by dring. rewrite sqrt_1. pose proof dmin_small. lra.
Qed.
