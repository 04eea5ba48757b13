(** * Turns by a given angle: Euler's identity accepted and rejected. *)

Require Import Reals ZArith List Bool Lra Lia.
From Flocq Require Import Core BinarySingleNaN.
Require Import Verif.Num Verif.Types Verif.Priv Verif.OpsUni Verif.OpsAdd Verif.OpsSub Verif.OpsMul Verif.Const Verif.Validity
  Verif.Func Verif.Compare Verif.SpecCl Verif.AlgTac Verif.AlgFacts Verif.SpecFunc Verif.FuncFacts Verif.Rel Verif.B64 Verif.B64Facts Verif.SpecRound Verif.SpecValid
  Verif.ValidFacts Verif.IntFacts Verif.ErrFacts Verif.SpecAcc Verif.BoundFacts Verif.AccFacts Verif.AccThm Verif.NormFacts Verif.SpecCompare Verif.AcceptFacts Verif.CompareFacts
  Verif.SpecExp Verif.ExpFacts Verif.LogThm Verif.ExpAcc Verif.SpecConst Verif.PiFacts Verif.NearPi Verif.LogAcc Verif.RootAcc Verif.ExtentFacts Verif.ChainFacts Verif.SpecTurn Verif.TurnFacts Verif.TurnThm.
Import ListNotations.
Local Open Scope R_scope.

Lemma exactly_sca : forall (v : f64) r k, b2r v = r -> exactly TSpin (mkSpin (Sca v) zero_Biv) k = cscale r cone k.
Proof.
  intros v r k <-. unfold exactly, cscale, cone. dblade k; first [exact (eq_sym (Rmult_1_r _))|exact (eq_sym (Rmult_0_r _))|rewrite Rmult_0_r; cbn; ring].
Qed.
Lemma exactly_biv : forall (d : BiVector f64) k, exactly TSpin (mkSpin zero_Sca d) k = exactly TBiv d k.
Proof. intros [[x y z]] k. unfold exactly. dblade k; reflexivity. Qed.

Section Lib.
Context {L : Libm f64}.
Lemma turns_accept : trig_within (bpow radix2 (-50)) L -> forall (b : BiVector f64) (tol : f64), turn_plane b ->
  is_finite tol = true -> bpow radix2 (-43) < B2R tol ->
  let turned (a : f64) := exp_Biv (mul TDub TBiv a (direction TBiv b)) in
  (all_valid TSpin (turned c_turnHalf) -> nearlyEquals TSpin (turned c_turnHalf) (mkSpin (Sca (f64_lit (-1) 0)) zero_Biv) tol = true) /\
  (all_valid TSpin (turned c_turnQtr) -> all_valid TBiv (direction TBiv b) ->
     nearlyEquals TSpin (turned c_turnQtr) (mkSpin zero_Sca (direction TBiv b)) tol = true) /\
  (all_valid TSpin (turned c_turnFull) -> nearlyEquals TSpin (turned c_turnFull) (one TSpin) tol = true).
Proof.
  intros T b tol D Ft Ht turned. destruct (pow_lit (-43) ltac:(lia)) as [_ Et].
  assert (He : bpow radix2 (-50) <= / 16) by (change (/ 16) with (bpow radix2 (-4)); apply bpow_le; lia).
  destruct (named_turns _ T He b D) as ((_ & Kh) & (_ & Kq) & (_ & Kf)). fold (turned c_turnHalf) in Kh. fold (turned c_turnQtr) in Kq. fold (turned c_turnFull) in Kf.
  change unit_roundoff with u53 in *.
  assert (E50 : bpow radix2 (-50) = 8 * u53) by (change u53 with (bpow radix2 (-3 + -50)); rewrite bpow_plus; change (bpow radix2 (-3)) with (/ 8); field).
  assert (E43 : bpow radix2 (-43) = 1024 * u53) by (change (-43)%Z with (7 + -50)%Z; rewrite bpow_plus, E50; change (bpow radix2 7) with 128; ring).
  rewrite E50 in *. pose proof u53_pos.
  assert (H60 : bpow radix2 (-60) <= b2r (f64_lit 1 (-43)) <= 1) by (rewrite Et; split; [apply bpow_le; lia|change 1 with (bpow radix2 0); apply bpow_le; lia]).
  assert (Z0 : forall s, valid_number (B754_zero s : f64)) by (intros; split; [reflexivity|left; reflexivity]).
  assert (One : b2r (none_ : f64) = 1) by apply (proj2 one_ok).
  destruct (small_int (-1)%Z ltac:(lia)) as [F1 B1].
  assert (Nd : Rabs (cnorm (exactly TBiv (direction TBiv b)) - 1) <= 15 * u53) by (apply direction_unit; apply D).
  assert (Dn : cnorm (csub (exactly TBiv (direction TBiv b)) (cscale (/ cnorm (exactly TBiv b)) (exactly TBiv b))) <= 15 * u53).
  { destruct D as (F & H' & _). pose proof (direction_norm TBiv b F H').
    assert (E1 : eta <= u53 / 1000 * 1) by (apply eta_rel; change 1 with (bpow radix2 0); apply bpow_le; lia). lra. }
  split; [|split].
  - intros V. refine (spin_accept _ _ _ tol (f64_lit 1 (-43)) V _ Ft _ _ H60 _ _ _).
    + unfold all_valid. cbn [elems]. repeat apply Forall_cons; try apply Forall_nil; try apply Z0.
      change (valid_number (f64_lit (-1) 0)). split; [exact F1|right]. rewrite B1. replace (IZR (-1)) with (-1) by reflexivity. rewrite Rabs_left by lra.
      replace (- -1) with (bpow radix2 0) by (cbn; ring). apply bpow_le; lia.
    + rewrite (cnorm_ceq _ (csub (exactly TSpin (turned c_turnHalf)) (cscale (-1) cone))); [exact Kh|]. intros k. unfold csub. f_equal.
      apply exactly_sca. exact B1.
    + rewrite Et, E43. lra.
    + rewrite Et. exact Ht.
    + right. cbn -[b2r f64_lit]. rewrite B1. lra.
    + left. cbn. auto.
  - intros V Vd. revert V Kq. generalize (turned c_turnQtr). intros e V Kq. revert Vd Nd Dn. generalize (direction TBiv b). intros d Vd Nd Dn.
    refine (spin_accept e (mkSpin zero_Sca d) (2 * (8 * u53) + 72 * u53 + 15 * u53) tol (f64_lit 1 (-43)) V _ Ft _ _ H60 _ _ _).
    + unfold all_valid in *. change (elems TSpin (mkSpin zero_Sca d)) with ((B754_zero false : f64) :: elems TBiv d).
      apply Forall_cons; [apply Z0|exact Vd].
    + set (X := cscale (/ cnorm (exactly TBiv b)) (exactly TBiv b)) in *.
      rewrite (cnorm_ceq _ (cadd (csub (exactly TSpin e) X) (cscale (-1) (csub (exactly TBiv d) X)))).
      2:{ intros k. unfold csub, cadd, cscale. rewrite exactly_biv. ring. }
      eapply Rle_trans; [apply cnorm_triangle|]. rewrite cnorm_scale, (Rabs_left (-1)) by lra. lra.
    + rewrite Et, E43. lra.
    + rewrite Et. exact Ht.
    + left. reflexivity.
    + right. cbn [spinBiv]. rewrite <- (sqrt_sqrt (cnorm2 (exactly TBiv d))) by apply cnorm2_nonneg.
      change (sqrt (cnorm2 (exactly TBiv d))) with (cnorm (exactly TBiv d)). apply Rabs_le_inv in Nd. rewrite u53_val in Nd.
      assert (/ 2 <= cnorm (exactly TBiv d) <= 2) by lra. nra.
  - intros V. refine (spin_accept _ _ _ tol (f64_lit 1 (-43)) V _ Ft _ _ H60 _ _ _).
    + apply AcceptFacts.one_valid. right; reflexivity.
    + rewrite (cnorm_ceq _ (csub (exactly TSpin (turned c_turnFull)) cone)); [exact Kf|]. intros k. unfold csub. f_equal.
      rewrite (exactly_sca (none_ : f64) 1 k One : exactly TSpin (one TSpin) k = _). unfold cscale. ring.
    + rewrite Et, E43. lra.
    + rewrite Et. exact Ht.
    + right. change (sca_0 (spinSca (one TSpin))) with (none_ : f64). rewrite One. lra.
    + left. cbn. auto.
Qed.
End Lib.

(** ** Rejected at the default tolerance *)
Lemma zero_ref_first : forall (g1 g2 g3 tol : f64), fin tol = true -> nearlyEquals_Biv (Biv g1 g2 g3) zero_Biv tol = true -> Rabs (b2r g1) < b2r tol.
Proof.
  intros g1 g2 g3 tol Ht E. unfold nearlyEquals_Biv, nearlyEquals_arr in E.
  destruct (isValid_arr _ && isValid_arr _); [|discriminate].
  match type of E with context [nltb ?x ?y] => assert (Q : nltb x y = true) by (vm_compute; reflexivity) end. rewrite Q in E. clear Q.
  cbn [bivData arr3_list Biv zero_Biv] in E. unfold allSmallDiff in E. cbn [at30 at31 at32] in E.
  destruct (nearlyEqualsAbs g1 _ tol) eqn:A; [|discriminate]. clear E.
  apply abs_unfold in A. destruct A as (_ & _ & A). apply diff_sound in A; [|exact Ht]. destruct A as (_ & _ & A).
  change (b2r (nzero : f64)) with 0 in A. rewrite Rminus_0_r in A. exact A.
Qed.
Lemma exp_shape : forall (L : Libm f64) (x : BiVector f64) m d1 d2 d3, isValid_Biv x = true -> pairMagDirFrom TBiv x = (m, Biv d1 d2 d3) ->
  isValid_Biv (Biv d1 d2 d3) = true ->
  exp_Biv x = mkSpin (Sca (mcos m)) (Biv (Bmult mode_NE (msin m) d1) (Bmult mode_NE (msin m) d2) (Bmult mode_NE (msin m) d3)).
Proof. intros L x m d1 d2 d3 V P W. unfold exp_Biv. rewrite V, P. cbv zeta. cbn [fst snd]. rewrite W. reflexivity. Qed.
Lemma biv_ext : forall a1 a2 a3 b1 b2 b3 : f64, B2SF a1 = B2SF b1 -> B2SF a2 = B2SF b2 -> B2SF a3 = B2SF b3 -> Biv a1 a2 a3 = Biv b1 b2 b3.
Proof. intros. f_equal; apply B2SF_inj; assumption. Qed.

Definition half211 : BiVector f64 := Biv (f64_lit 5776090937201065 (-51)) (f64_lit 5776090937201065 (-52)) (f64_lit 5776090937201065 (-52)).
Lemma pair_ext : forall t (x : BiVector f64) (m d1 d2 d3 : f64), t = pairMagDirFrom TBiv x -> B2SF (fst t) = B2SF m ->
  map (@B2SF 53 1024) (elems TBiv (snd t)) = map (@B2SF 53 1024) [d1; d2; d3] -> t = (m, Biv d1 d2 d3).
Proof.
  intros [m' [[e1 e2 e3]]] x m d1 d2 d3 _ Hm Hd. cbn in Hd. injection Hd as H1 H2 H3. cbn in Hm. apply B2SF_inj in Hm. subst m'.
  f_equal. apply biv_ext; assumption.
Qed.
Lemma half211_eq : mul TDub TBiv (c_turnHalf : f64) (direction TBiv plane211) = half211.
Proof.
  assert (E : forall t : BiVector f64, map (@B2SF 53 1024) (elems TBiv t) = map (@B2SF 53 1024) (elems TBiv half211) -> t = half211).
  { intros [[e1 e2 e3]] Hd. unfold half211 in *. cbn -[f64_lit] in Hd. injection Hd as H1 H2 H3. apply biv_ext; assumption. }
  apply E. vm_compute. reflexivity.
Qed.
Lemma half211_pair : pairMagDirFrom TBiv half211 = (f64_lit 7074237752028442 (-51), Biv (f64_lit 7354347395230781 (-53)) (f64_lit 7354347395230781 (-54)) (f64_lit 7354347395230781 (-54))).
Proof. apply (pair_ext _ half211); [reflexivity|vm_compute; reflexivity|vm_compute; reflexivity]. Qed.
Lemma plane_ok : forall x y z, (-8 <= x <= 8)%Z -> (-8 <= y <= 8)%Z -> (-8 <= z <= 8)%Z -> (1 <= Z.abs x)%Z ->
  turn_plane (Biv (f64_lit x 0) (f64_lit y 0) (f64_lit z 0)).
Proof.
  intros x y z Hx Hy Hz H1. destruct (small_int x Hx) as [Fx Bx]. destruct (small_int y Hy) as [Fy By]. destruct (small_int z Hz) as [Fz Bz].
  assert (N : cnorm2 (exactly TBiv (Biv (f64_lit x 0) (f64_lit y 0) (f64_lit z 0))) = IZR x * IZR x + IZR y * IZR y + IZR z * IZR z).
  { unfold exactly. cbv -[b2r f64_lit Rplus Rmult R0 IZR Ropp]. rewrite Bx, By, Bz. ring. }
  assert (Nx : 1 <= Rabs (IZR x)) by (rewrite <- abs_IZR; apply IZR_le; lia).
  assert (Sx : 1 <= IZR x * IZR x <= 64) by (rewrite <- mult_IZR; split; [apply (IZR_le 1)|apply (IZR_le _ 64)]; nia).
  assert (Sy : 0 <= IZR y * IZR y <= 64) by (rewrite <- mult_IZR; split; [apply (IZR_le 0)|apply (IZR_le _ 64)]; nia).
  assert (Sz : 0 <= IZR z * IZR z <= 64) by (rewrite <- mult_IZR; split; [apply (IZR_le 0)|apply (IZR_le _ 64)]; nia).
  assert (C : 1 <= cnorm (exactly TBiv (Biv (f64_lit x 0) (f64_lit y 0) (f64_lit z 0))) <= 16).
  { unfold cnorm. rewrite N. split; [rewrite <- sqrt_1 at 1; apply sqrt_le_1_alt; lra|].
    replace 16 with (sqrt (16 * 16)) by (apply sqrt_square; lra). apply sqrt_le_1_alt. lra. }
  split; [unfold all_finite; cbn [elems]; repeat constructor; assumption|]. split; [split|].
  - apply Rle_trans with (bpow radix2 0); [apply bpow_le; lia|apply C].
  - apply Rle_trans with (bpow radix2 4); [apply C|apply bpow_le; lia].
  - right. change (biv_0 (Biv (f64_lit x 0) (f64_lit y 0) (f64_lit z 0))) with (f64_lit x 0). rewrite Bx.
    apply Rle_trans with (bpow radix2 (-4) * 16); [apply Rmult_le_compat; [apply bpow_ge_0|lra|apply bpow_le; lia|apply C]|].
    change (bpow radix2 (-4)) with (/ 16). lra.
Qed.

Lemma sin_near : forall x, 0 <= x <= / 1000 -> 999 / 1000 * x <= sin x <= x.
Proof.
  intros x Hx. destruct (sin_taylor x ltac:(lra)) as [A B]. cbn [pow] in *. rewrite !Rmult_1_r in *.
  assert (C : 0 <= x * x <= / 1000000) by nra.
  assert (D : 0 <= x * (x * x) <= / 1000000 * x) by nra.
  assert (E : 0 <= x * (x * (x * (x * x))) <= / 1000000 * (x * (x * x))) by nra.
  assert (G : 0 <= x * (x * (x * (x * (x * (x * x))))) <= / 1000000 * x) by nra.
  lra.
Qed.
Lemma euler_refuted : forall L : Libm f64, trig_within (bpow radix2 (-52)) L ->
  turn_plane plane211 /\
  nearlyEquals TSpin (exp_Biv (mul TDub TBiv c_turnHalf (direction TBiv plane211))) (mkSpin (Sca (f64_lit (-1) 0)) zero_Biv) lim_epsilon = false.
Proof.
  intros L T. split; [apply plane_ok; cbn; lia|].
  pose proof (eq_trans (f_equal exp_Biv half211_eq) (exp_shape L half211 _ _ _ _ ltac:(vm_compute; reflexivity) half211_pair ltac:(vm_compute; reflexivity))) as Ee.
  refine (eq_trans (f_equal (fun q => nearlyEquals TSpin q _ _) Ee) _). clear Ee.
  destruct (lit_of 7074237752028442 (-51) ltac:(lia) ltac:(lia)) as [Fm Bm]. destruct (lit_of 7354347395230781 (-53) ltac:(lia) ltac:(lia)) as [Fd Bd].
  destruct (sin_within _ _ T _ Fm) as [Fs Es]. set (s := msin (f64_lit 7074237752028442 (-51))) in *.
  assert (Bm' : b2r (f64_lit 7074237752028442 (-51)) = 7074237752028442 / 2251799813685248) by (rewrite Bm; cbn; field).
  rewrite Bm' in Es. pose proof pi_double as PD. cbn [pow] in PD.
  set (m := 7074237752028442 / 2251799813685248) in *. assert (Sm : sin m = - sin (m - PI)).
  { replace m with ((m - PI) + PI) at 1 by ring. apply neg_sin. }
  destruct (sin_near (m - PI)) as [S1 S2]; [unfold m; lra|].
  assert (Bs : b2r s <= - (/ 2000000000000000)).
  { apply Rabs_le_inv in Es. rewrite Sm in Es. change (bpow radix2 (-52)) with (/ 4503599627370496) in Es. unfold m in *. lra. }
  assert (Bl : - 1 <= b2r s).
  { apply Rabs_le_inv in Es. rewrite Sm in Es. change (bpow radix2 (-52)) with (/ 4503599627370496) in Es. unfold m in *. lra. }
  assert (Bd' : b2r (f64_lit 7354347395230781 (-53)) = 7354347395230781 / 9007199254740992) by (rewrite Bd; cbn; field).
  destruct (nearlyEquals TSpin _ _ _) eqn:Q; [|reflexivity]. exfalso.
  change (nearlyEquals TSpin) with (@nearlyEquals_Spin f64 _ _) in Q || idtac.
  apply andb_prop in Q. destruct Q as [_ Q]. apply zero_ref_first in Q.
  2:{ vm_compute. reflexivity. }
  destruct (bmult_ok s (f64_lit 7354347395230781 (-53)) Fs Fd) as [_ Rp].
  { apply (rnd_lt _ 4); [lia|]. rewrite Rabs_mult, Bd'. change (bpow radix2 4) with 16. rewrite (Rabs_left (b2r s)), Rabs_pos_eq by lra. lra. }
  rewrite Rp, Bd' in Q.
  assert (P : 4 / 10000000000000000 <= - (b2r s * (7354347395230781 / 9007199254740992))) by lra.
  assert (K : (1 - u53) * - (b2r s * (7354347395230781 / 9007199254740992)) <= rnd64 (- (b2r s * (7354347395230781 / 9007199254740992)))).
  { apply rel_normal. apply Rle_trans with (bpow radix2 (-52)); [apply bpow_le; lia|]. change (bpow radix2 (-52)) with (/ 4503599627370496). lra. }
  rewrite rnd_opp in K. rewrite <- Rabs_Ropp in Q. pose proof (Rle_abs (- rnd64 (b2r s * (7354347395230781 / 9007199254740992)))) as Ra.
  assert (Be : b2r (lim_epsilon : f64) = / 4503599627370496).
  { change (b2r (f64_lit 1 (-52)) = / 4503599627370496). rewrite (proj2 (pow_lit (-52) ltac:(lia))). reflexivity. }
  rewrite Be in Q. rewrite u53_val in K. lra.
Qed.

(** ** The manual's example, accepted *)
Definition half101 : BiVector f64 := Biv (f64_lit 5002241486185188 (-51)) (B754_zero false) (f64_lit 5002241486185188 (-51)).
Lemma half101_eq : mul TDub TBiv (c_turnHalf : f64) (direction TBiv plane101) = half101.
Proof.
  assert (E : forall t : BiVector f64, map (@B2SF 53 1024) (elems TBiv t) = map (@B2SF 53 1024) (elems TBiv half101) -> t = half101).
  { intros [[e1 e2 e3]] Hd. unfold half101 in *. cbn -[f64_lit B2SF] in Hd. injection Hd as H1 H2 H3. apply biv_ext; assumption. }
  apply E. vm_compute. reflexivity.
Qed.
Lemma half101_pair : pairMagDirFrom TBiv half101 = (f64_lit 7074237752028440 (-51), Biv (f64_lit 6369051672525773 (-53)) (B754_zero false) (f64_lit 6369051672525773 (-53))).
Proof. apply (pair_ext _ half101); [reflexivity|vm_compute; reflexivity|vm_compute; reflexivity]. Qed.
Lemma manual_accept : forall L : Libm f64, trig_within (bpow radix2 (-53)) L ->
  nearlyEquals TSpin (exp_Biv (mul TDub TBiv c_turnHalf (direction TBiv plane101))) (mkSpin (Sca (f64_lit (-1) 0)) zero_Biv) lim_epsilon = true.
Proof.
  intros L T.
  pose proof (eq_trans (f_equal exp_Biv half101_eq) (exp_shape L half101 _ _ _ _ ltac:(vm_compute; reflexivity) half101_pair ltac:(vm_compute; reflexivity))) as Ee.
  refine (eq_trans (f_equal (fun q => nearlyEquals TSpin q _ _) Ee) _). clear Ee.
  destruct (lit_of 7074237752028440 (-51) ltac:(lia) ltac:(lia)) as [Fm Bm]. destruct (lit_of 6369051672525773 (-53) ltac:(lia) ltac:(lia)) as [Fd Bd].
  destruct (sin_within _ _ T _ Fm) as [Fs Es]. destruct (cos_within _ _ T _ Fm) as [Fc Ec].
  set (s := msin (f64_lit 7074237752028440 (-51))) in *. set (c := mcos (f64_lit 7074237752028440 (-51))) in *.
  assert (Bm' : b2r (f64_lit 7074237752028440 (-51)) = 7074237752028440 / 2251799813685248) by (rewrite Bm; cbn; field).
  rewrite Bm' in Es, Ec. pose proof pi_double as PD. cbn [pow] in PD.
  set (m := 7074237752028440 / 2251799813685248) in *.
  assert (Sm : sin m = sin (PI - m)) by (symmetry; apply sin_PI_x).
  assert (Cm : cos m = - cos (PI - m)) by (replace m with (- (PI - m) + PI) at 1 by ring; rewrite neg_cos, cos_neg; reflexivity).
  destruct (sin_near (PI - m)) as [S1 S2]; [lra|].
  assert (C1 : 1 - / 10000000000000000000000000 <= cos (PI - m) <= 1).
  { split; [|apply COS_bound]. pose proof (cos_quadratic (PI - m)) as CQ. assert ((PI - m) * (PI - m) <= 123 / 10 ^ 18 * (123 / 10 ^ 18)) by (apply Rmult_le_compat; cbn [pow]; lra). cbn [pow] in *. lra. }
  change (bpow radix2 (-53)) with (/ 9007199254740992) in *. apply Rabs_le_inv in Es. apply Rabs_le_inv in Ec.
  assert (Bs : / 100000000000000000 <= b2r s <= 2341 / 10000000000000000000) by lra.
  assert (Bc : Rabs (b2r c + 1) <= 112 / 1000000000000000000) by (apply Rabs_le; lra).
  assert (Bd' : b2r (f64_lit 6369051672525773 (-53)) = 6369051672525773 / 9007199254740992) by (rewrite Bd; cbn; field).
  destruct (bmult_ok s (f64_lit 6369051672525773 (-53)) Fs Fd) as [Fp Rp].
  { apply (rnd_lt _ 4); [lia|]. rewrite Rabs_mult, Bd'. change (bpow radix2 4) with 16. rewrite !Rabs_pos_eq by lra. lra. }
  destruct (bmult_ok s (B754_zero false : f64) Fs eq_refl) as [Fz Rz].
  { apply (rnd_lt _ 4); [lia|]. cbn. rewrite Rmult_0_r, Rabs_R0. lra. }
  change (b2r (B754_zero false : f64)) with 0 in Rz. rewrite Rmult_0_r in Rz. rewrite (round_0 radix2 fexp64) in Rz by apply valid_rnd_N.
  rewrite Bd' in Rp. set (p := b2r s * (6369051672525773 / 9007199254740992)) in *.
  assert (Pp : 7 / 1000000000000000000 <= p <= 1656 / 10000000000000000000) by (unfold p; lra).
  assert (N1000 : bpow radix2 (-1000) <= p) by (apply Rle_trans with (bpow radix2 (-58)); [apply bpow_le; lia|change (bpow radix2 (-58)) with (/ 288230376151711744); lra]).
  pose proof (rel_normal p N1000) as K1.
  destruct (lit_of 7 (-55) ltac:(lia) ltac:(lia)) as [Ft Bt]. assert (Bt' : b2r (f64_lit 7 (-55)) = 7 / 36028797018963968) by (rewrite Bt; cbn; field).
  assert (K2 : rnd64 p <= b2r (f64_lit 7 (-55))) by (rewrite <- (rnd_id (f64_lit 7 (-55))); apply rnd_mono; rewrite Bt'; lra).
  destruct (small_int (-1)%Z ltac:(lia)) as [F1 B1].
  assert (N1022 : bpow radix2 (-1022) <= bpow radix2 (-58)) by (apply bpow_le; lia). change (bpow radix2 (-58)) with (/ 288230376151711744) in N1022.
  assert (Vp : valid_number (Bmult mode_NE s (f64_lit 6369051672525773 (-53)) : f64)).
  { split; [exact Fp|right]. rewrite Rp. eapply Rle_trans; [|apply Rle_abs]. rewrite u53_val in K1. lra. }
  assert (Vz : valid_number (Bmult mode_NE s (B754_zero false) : f64)) by (split; [exact Fz|left; exact Rz]).
  assert (Be : b2r (lim_epsilon : f64) = / 4503599627370496).
  { change (b2r (f64_lit 1 (-52)) = / 4503599627370496). rewrite (proj2 (pow_lit (-52) ltac:(lia))). reflexivity. }
  assert (Z0 : forall s, valid_number (B754_zero s : f64)) by (intros; split; [reflexivity|left; reflexivity]).
  apply (object_accept TSpin _ _ lim_epsilon (f64_lit 7 (-55))).
  - discriminate.
  - vm_compute. reflexivity.
  - unfold all_valid. cbn [elems]. repeat (apply Forall_cons || apply Forall_nil); try exact Vp; try exact Vz.
    change (valid_number c). split; [exact Fc|right]. apply Rabs_le_inv in Bc. rewrite Rabs_left; lra.
  - unfold all_valid. cbn [elems]. repeat (apply Forall_cons || apply Forall_nil); try apply Z0.
    change (valid_number (f64_lit (-1) 0)). split; [exact F1|right]. rewrite B1. replace (IZR (-1)) with (-1) by reflexivity. rewrite Rabs_left by lra. lra.
  - rewrite Bt'. split; [|lra]. apply Rle_trans with (bpow radix2 (-54)); [apply bpow_le; lia|]. change (bpow radix2 (-54)) with (/ 18014398509481984). lra.
  - rewrite Bt'. refine (eq_ind_r (fun v => _ < v) _ Be). lra.
  - rewrite Bt' in *. unfold slices. apply Forall_cons; [right|apply Forall_cons; [left|apply Forall_nil]].
    + change (bpow radix2 (-900) <= b2r (f64_lit (-1) 0) * b2r (f64_lit (-1) 0) + 0 <= bpow radix2 1000 /\
        (b2r c - b2r (f64_lit (-1) 0)) * (b2r c - b2r (f64_lit (-1) 0)) + 0 <= (1 - bpow radix2 (-47)) * (7 / 36028797018963968 * (7 / 36028797018963968)) * (b2r (f64_lit (-1) 0) * b2r (f64_lit (-1) 0) + 0)).
      rewrite B1. replace (IZR (-1) * IZR (-1) + 0) with 1 by ring. split; [split; change 1 with (bpow radix2 0); apply bpow_le; lia|].
      replace (b2r c - IZR (-1)) with (b2r c + 1) by ring. change (bpow radix2 (-47)) with (/ 140737488355328).
      apply Rle_trans with (112 / 1000000000000000000 * (112 / 1000000000000000000)); [|lra].
      rewrite Rplus_0_r. replace ((b2r c + 1) * (b2r c + 1)) with (Rabs (b2r c + 1) * Rabs (b2r c + 1)) by (symmetry; apply (Rsqr_abs (b2r c + 1))).
      pose proof (Rabs_pos (b2r c + 1)). apply Rmult_le_compat; assumption.
    + split.
      * repeat (apply Forall_cons || apply Forall_nil); reflexivity.
      * assert (Rb : Rabs (rnd64 p) <= 7 / 36028797018963968) by (rewrite Rabs_pos_eq; [exact K2|rewrite u53_val in K1; lra]).
        apply Forall_cons; [|apply Forall_cons; [|apply Forall_cons; [|apply Forall_nil]]].
        -- refine (eq_ind_r (fun v => Rabs v <= _) Rb Rp).
        -- refine (eq_ind_r (fun v => Rabs v <= _) _ Rz). rewrite Rabs_R0. lra.
        -- refine (eq_ind_r (fun v => Rabs v <= _) Rb Rp).
Qed.

Lemma fine_library : trig_within (bpow radix2 (-53)) rounded_lib.
Proof.
  assert (T : forall r, -1 <= r <= 1 -> fin (near64 r) = true /\ Rabs (b2r (near64 r) - r) <= bpow radix2 (-53)).
  { intros r Hr. assert (A : Rabs r <= 1) by (apply Rabs_le; exact Hr).
    assert (A' : Rabs r <= bpow radix2 1000) by (eapply Rle_trans; [exact A|]; change 1 with (bpow radix2 0); apply bpow_le; lia).
    destruct (near64_ok r A') as [F _]. split; [exact F|].
    assert (B : b2r (near64 r) = rnd64 r).
    { unfold near64. apply lit_exact.
      - apply generic_format_round; [apply (fexp_correct 53 1024); reflexivity|apply valid_rnd_N].
      - exact (rnd_lt _ 1000 ltac:(lia) A'). }
    rewrite B. pose proof (error_le_half_ulp radix2 fexp64 (fun x => negb (Z.even x)) r) as H.
    assert (U : ulp radix2 fexp64 r <= ulp radix2 fexp64 1) by (apply ulp_le; [apply (fexp_correct 53 1024); reflexivity|apply FLT_exp_monotone|rewrite (Rabs_pos_eq 1) by lra; exact A]).
    change 1 with (bpow radix2 0) in U. rewrite ulp_bpow in U. change (fexp64 (0 + 1)) with (-52)%Z in U.
    eapply Rle_trans; [exact H|]. change (-53)%Z with (-1 + -52)%Z. rewrite bpow_plus. change (bpow radix2 (-1)) with (/ 2). lra. }
  split; intros x _; apply T; [apply COS_bound|apply SIN_bound].
Qed.
Lemma turn_case : trig_within (bpow radix2 (-53)) rounded_lib /\ trig_within (bpow radix2 (-52)) rounded_lib /\ trig_within (bpow radix2 (-50)) rounded_lib /\
  bpow radix2 (-53) <= / 16 /\ turn_plane plane101 /\ turn_plane plane211 /\
  is_finite (f64_lit 5 (-1)) = true /\ bpow radix2 (-90) <= Rabs (B2R (f64_lit 5 (-1))) <= bpow radix2 90.
Proof.
  split; [exact fine_library|]. split; [apply library_within|]. split; [apply library_all|].
  split; [change (/ 16) with (bpow radix2 (-4)); apply bpow_le; lia|].
  split; [apply plane_ok; cbn; lia|]. split; [apply plane_ok; cbn; lia|].
  destruct (lit_of 5 (-1) ltac:(lia) ltac:(lia)) as [F B]. split; [exact F|]. rewrite B. change (bpow radix2 (-1)) with (/ 2). rewrite Rabs_pos_eq by lra.
  split; [apply Rle_trans with (bpow radix2 0); [apply bpow_le; lia|change (bpow radix2 0) with 1; lra]|].
  apply Rle_trans with (bpow radix2 3); [change (bpow radix2 3) with 8; lra|apply bpow_le; lia].
Qed.
(** The validity asked for by the acceptance theorem, for the manual's plane. *)
Lemma turn_case_valid : all_valid TSpin (@exp_Biv f64 _ rounded_lib (mul TDub TBiv c_turnHalf (direction TBiv plane101))) /\
  all_valid TBiv (direction TBiv plane101).
Proof.
  split; [exact (proj1 (nearly_valid TSpin _ _ _ (manual_accept rounded_lib fine_library)))|].
  assert (B : forallb isValid_Dub (elems TBiv (direction TBiv plane101)) = true) by (vm_compute; reflexivity).
  apply Forall_forall. intros v Hv. apply isValid_number. rewrite forallb_forall in B. exact (B v Hv).
Qed.
