(** * Accuracy of the exponentials on binary64: proofs. *)

Require Import Reals ZArith List Bool Lra Lia.
From Flocq Require Import Core BinarySingleNaN.
Require Import Verif.Num Verif.Types Verif.Priv Verif.OpsUni Verif.OpsAdd Verif.OpsSub
  Verif.OpsMul Verif.Const Verif.Validity Verif.Func Verif.SpecCl Verif.RealInst Verif.AlgTac Verif.AlgMul Verif.AlgFacts Verif.SpecFunc
  Verif.FuncFacts Verif.SpecExp Verif.ExpFacts Verif.ExpThm Verif.Rel Verif.B64 Verif.B64Facts Verif.SpecValid Verif.ValidFacts
  Verif.SpecRound Verif.ArrErr Verif.IntFacts Verif.ErrFacts Verif.SpecAcc Verif.BoundFacts Verif.AccFacts Verif.NormFacts.
Import ListNotations.
Local Open Scope R_scope.

(** ** Scaling by a double *)
Definition timess (c : R) (t : ty) (x : val f64 t) : val (R * R) t := mapv (fun v : f64 => (b2r v * c, Rabs (b2r v) * Rabs c)) t x.
Lemma den_timess : forall c t (x : val f64 t) k, den t (mapv fst t (timess c t x)) k = exactly t x k * c.
Proof.
  intros c t x k. unfold timess, exactly. rewrite mapv_mapv. cbn [fst]. destruct t; dvs; dblade k;
    cbv -[B2R Ropp Rmult R0 IZR]; ring.
Qed.
Lemma denp_timess : forall c t (x : val f64 t) k, denp t (mapv snd t (timess c t x)) k = Rabs (exactly t x k) * Rabs c.
Proof.
  intros c t x k. rewrite den_abs. unfold timess, absv. rewrite mapv_mapv. cbn [snd]. destruct t; dvs; dblade k;
    cbv -[B2R Rabs Rmult R0 IZR]; ring.
Qed.
Lemma scale_error : forall t (r : f64) (x : val f64 t), fin r = true -> all_finite t x ->
  Rabs (b2r r) * cnorm (exactly t x) <= bpow radix2 1000 ->
  all_finite t (scale t r x) /\
  cnorm (csub (exactly t (scale t r x)) (cscale (b2r r) (exactly t x))) <= u53 * (Rabs (b2r r) * cnorm (exactly t x)) + 3 * eta.
Proof.
  intros t r x Fr Fx H. pose proof u53_pos. pose proof eta_pos.
  assert (L : Forall2 (fun (v : f64) (p : R * R) => fin v = true /\ close u53 eta v p) (elems t (scale t r x)) (elems t (timess (b2r r) t x))).
  { unfold timess. rewrite elems_scale, elems_mapv. unfold all_finite in Fx. pose proof (elems_comp t x) as C. revert Fx C. generalize (elems t x).
    induction l as [|v l IH]; intros F C; cbn [map]; constructor; inversion F as [|v0 l0 Fv Fl]; inversion C as [|v1 l1 Cv Cl]; subst; auto.
    assert (Hv : Rabs (b2r r * b2r v) <= bpow radix2 1000).
    { rewrite Rabs_mult. eapply Rle_trans; [|exact H]. apply Rmult_le_compat_l; [apply Rabs_pos|].
      destruct Cv as (k & ->). apply comp_le_norm. }
    destruct (bmult_ok r v Fr Fv (rnd_lt _ 1000 ltac:(lia) Hv)) as [G E]. split; [exact G|].
    unfold close; cbn [fst snd]. rewrite E. pose proof (err_any (b2r r * b2r v)) as A. rewrite Rabs_mult in A.
    replace (b2r v * b2r r) with (b2r r * b2r v) by ring. replace (Rabs (b2r v) * Rabs (b2r r)) with (Rabs (b2r r) * Rabs (b2r v)) by ring. exact A. }
  split.
  - unfold all_finite. induction L as [|v p l m [Hv _] L IH]; constructor; auto.
  - assert (V : relv (close u53 eta) t (scale t r x) (timess (b2r r) t x)).
    { unfold relv. clear - L. induction L as [|v p l m [_ Hv] L IH]; constructor; auto. }
    rewrite <- Rmult_assoc. apply norm_of_rel; [apply Rmult_le_pos; [lra|apply Rabs_pos] | lra|].
    intros k. pose proof (den_close _ _ t _ _ (Rlt_le _ _ H0) (Rlt_le _ _ H1) V k) as E.
    rewrite den_timess, denp_timess in E. unfold csub, cscale. rewrite (Rmult_comm (b2r r)).
    eapply Rle_trans; [exact E|]. right. ring.
Qed.

(** ** Lipschitz *)
Lemma cos_lip : forall a b, Rabs (cos a - cos b) <= Rabs (a - b).
Proof.
  intros a b. rewrite form2. rewrite !Rabs_mult. rewrite (Rabs_left (-2)) by lra.
  pose proof (sin_le_abs ((a - b) / 2)) as H. unfold Rdiv in H at 2. rewrite Rabs_mult, (Rabs_pos_eq (/ 2)) in H by lra.
  assert (Rabs (sin ((a + b) / 2)) <= 1) by (apply Rabs_le; pose proof (SIN_bound ((a + b) / 2)); lra).
  pose proof (Rabs_pos (sin ((a - b) / 2))). pose proof (Rabs_pos (sin ((a + b) / 2))). nra.
Qed.
Lemma sin_lip : forall a b, Rabs (sin a - sin b) <= Rabs (a - b).
Proof.
  intros a b. rewrite form4. rewrite !Rabs_mult. rewrite (Rabs_pos_eq 2) by lra.
  pose proof (sin_le_abs ((a - b) / 2)) as H. unfold Rdiv in H at 2. rewrite Rabs_mult, (Rabs_pos_eq (/ 2)) in H by lra.
  assert (Rabs (cos ((a + b) / 2)) <= 1) by (apply Rabs_le; pose proof (COS_bound ((a + b) / 2)); lra).
  pose proof (Rabs_pos (sin ((a - b) / 2))). pose proof (Rabs_pos (cos ((a + b) / 2))). nra.
Qed.

(** ** exp(BiVector) *)
Lemma eta_small : 100 * eta <= u53 / 10000.
Proof.
  apply Rle_trans with (bpow radix2 (-70)); [|rewrite u53_val; change (bpow radix2 (-70)) with (/ 1180591620717411303424); lra].
  unfold eta. apply Rle_trans with (bpow radix2 7 * bpow radix2 (-1075)).
  - apply Rmult_le_compat_r; [apply bpow_ge_0|]. change (bpow radix2 7) with 128; lra.
  - rewrite <- bpow_plus. apply bpow_le. lia.
Qed.
Lemma biv_comp : forall b : BiVector f64, exactly TBiv b bE23 = b2r (biv_0 b).
Proof. intros b. destruct b as [[x y z]]. reflexivity. Qed.
Lemma magnitude_facts : forall t (x : val f64 t), all_finite t x ->
  bpow radix2 (-480) <= cnorm (exactly t x) <= bpow radix2 480 ->
  fin (magnitude t x) = true /\ Rabs (b2r (magnitude t x) - cnorm (exactly t x)) <= 8 * u53 * cnorm (exactly t x).
Proof.
  intros t x F [H1 H2]. destruct (magSq_within 480 t x) as [Fm _]; [lia | apply norm_within; assumption|].
  exact (magnitude_error t x Fm H1).
Qed.
Lemma direction_norm : forall t (x : val f64 t), all_finite t x ->
  bpow radix2 (-480) <= cnorm (exactly t x) <= bpow radix2 480 ->
  cnorm (csub (exactly t (direction t x)) (cscale (/ cnorm (exactly t x)) (exactly t x))) <= 14 * u53 + 3 * eta.
Proof.
  intros t x F H. destruct (direction_accurate t x F H) as [_ E]. pose proof u53_pos. pose proof eta_pos.
  set (X := exactly t x) in *. set (N := cnorm X) in *. set (D := exactly t (direction t x)) in *.
  assert (HN : 0 < N) by (eapply Rlt_le_trans; [apply bpow_gt_0|apply H]).
  assert (Y : cnorm (cscale (/ N) X) = 1).
  { rewrite cnorm_scale, Rabs_pos_eq by (left; apply Rinv_0_lt_compat; exact HN). fold N. field. lra. }
  replace (14 * u53) with (14 * u53 * 1) by ring. rewrite <- Y. apply norm_of_rel; [lra|lra|]. intros k. unfold csub, cscale. specialize (E k).
  rewrite Rabs_mult, (Rabs_pos_eq (/ N)) by (left; apply Rinv_0_lt_compat; exact HN).
  replace (/ N * X k) with (X k / N) by (unfold Rdiv; ring). replace (/ N * Rabs (X k)) with (Rabs (X k) / N) by (unfold Rdiv; ring). exact E.
Qed.
Lemma first_valid : forall b : BiVector f64, exp_domain b ->
  isValid_Biv b = true /\ isValid_Biv (direction TBiv b) = true.
Proof.
  intros b (F & H & Z). destruct (direction_accurate TBiv b F H) as [FD E]. specialize (E bE23). rewrite !biv_comp in E.
  unfold isValid_Biv. rewrite !isValid_number. unfold valid_number.
  set (N := cnorm (exactly TBiv b)) in *.
  assert (HN : 0 < N) by (eapply Rlt_le_trans; [apply bpow_gt_0|apply H]).
  assert (F0 : fin (biv_0 b) = true) by (destruct b as [[x y z]]; inversion F; assumption).
  assert (D0 : fin (biv_0 (direction TBiv b)) = true) by (destruct (direction TBiv b) as [[x y z]]; inversion FD; assumption).
  split; split; auto.
  - destruct Z as [Z|[Z _]]; auto.
  - destruct Z as [Z|[_ Z]].
    + left. rewrite Z in E. rewrite Rabs_R0 in E. unfold Rdiv in E. rewrite !Rmult_0_l, Rmult_0_r, Rplus_0_l, Rminus_0_r in E.
      set (d := biv_0 (direction TBiv b)) in *. clearbody d.
      destruct d as [s|s| |s m e B]; try reflexivity. exfalso.
      assert (P : bpow radix2 (-1074) <= Rabs (b2r (B754_finite s m e B : f64))).
      { cbn [B2R]. rewrite <- F2R_Zabs. unfold F2R; cbn [Fnum Fexp].
        apply Rle_trans with (1 * bpow radix2 (-1074)); [lra|]. apply Rmult_le_compat; try lra; [apply bpow_ge_0| |].
        - apply IZR_le. destruct s; cbn; lia.
        - apply bpow_le. destruct (andb_prop _ _ B) as [B1 _]. unfold SpecFloat.canonical_mantissa in B1. apply Zeq_bool_eq in B1.
          unfold SpecFloat.fexp, SpecFloat.emin in B1. lia. }
      assert (bpow radix2 (-1075) < bpow radix2 (-1074)) by (apply bpow_lt; lia). unfold eta in E. lra.
    + right. set (w := Rabs (b2r (biv_0 b)) / N) in *.
      assert (W : bpow radix2 (-1000) <= w).
      { unfold w. apply Rmult_le_reg_r with N; [exact HN|]. unfold Rdiv. rewrite Rmult_assoc, Rinv_l, Rmult_1_r by lra. exact Z. }
      assert (A : Rabs (b2r (biv_0 b) / N) = w).
      { unfold w, Rdiv. rewrite Rabs_mult, (Rabs_pos_eq (/ N)); [reflexivity|]. left; apply Rinv_0_lt_compat, HN. }
      pose proof (Rabs_triang_inv (b2r (biv_0 b) / N) (b2r (biv_0 b) / N - b2r (biv_0 (direction TBiv b)))) as T.
      replace (b2r (biv_0 b) / N - (b2r (biv_0 b) / N - b2r (biv_0 (direction TBiv b)))) with (b2r (biv_0 (direction TBiv b))) in T by ring.
      rewrite A, Rabs_minus_sym in T. pose proof (eta_rel w W) as K. apply Rle_trans with (w / 2).
      * apply Rle_trans with (bpow radix2 (-1000) / 2); [|lra]. apply Rle_trans with (bpow radix2 (-1001)); [apply bpow_le; lia|].
        right. replace (-1001)%Z with (-1000 + -1)%Z by reflexivity. rewrite bpow_plus. reflexivity.
      * rewrite u53_val in *. pose proof (bpow_gt_0 radix2 (-1000)). lra.
Qed.
Section Library.
Context {L : Libm f64}.
Lemma exp_Biv_shape : forall b : BiVector f64, exp_domain b ->
  exp_Biv b = mkSpin (Sca (mcos (magnitude TBiv b))) (scale TBiv (msin (magnitude TBiv b)) (direction TBiv b)).
Proof.
  intros b H. destruct (first_valid b H) as [V1 V2]. unfold exp_Biv. rewrite V1. cbv zeta.
  change (snd (pairMagDirFrom TBiv b)) with (direction TBiv b). rewrite V2. reflexivity.
Qed.
Lemma spin_split : forall (c : f64) (b : BiVector f64),
  ceq (exactly TSpin (mkSpin (Sca c) b)) (cadd (cscale (b2r c) cone) (exactly TBiv b)).
Proof. intros c [[x y z]] k. unfold exactly, cadd, cscale, cone. dblade k; cbv -[B2R Rplus Rmult Ropp R0 IZR]; ring. Qed.
Lemma spin_finite : forall (c : f64) (b : BiVector f64), fin c = true -> all_finite TBiv b -> all_finite TSpin (mkSpin (Sca c) b).
Proof. intros c [[x y z]] F H. unfold all_finite in *. constructor; assumption. Qed.
Lemma cone_norm : cnorm cone = 1.
Proof. unfold cnorm. replace (cnorm2 cone) with 1; [apply sqrt_1|]. unfold cnorm2, cone. cbv -[Rplus Rmult R0 IZR]. ring. Qed.
Lemma exp_Biv_accurate : forall eps, trig_within eps L -> eps <= / 16 -> forall (b : BiVector f64) E, exp_domain b ->
  is_cexp (exactly TBiv b) E ->
  all_finite TSpin (exp_Biv b) /\ cnorm (exactly TSpin (exp_Biv b)) <= 9 / 4 /\
  cnorm (csub (exactly TSpin (exp_Biv b)) E) <= 2 * eps + 16 * unit_roundoff * (1 + cnorm (exactly TBiv b)).
Proof.
  intros eps T He b E D HE. rewrite (exp_Biv_shape b D). destruct D as (F & H & _).
  destruct (magnitude_facts TBiv b F H) as [Fm Em]. pose proof (direction_accurate TBiv b F H) as [Fd _].
  pose proof (direction_norm TBiv b F H) as Ed. pose proof (direction_unit TBiv b F H) as Ud.
  destruct (cos_within _ _ T _ Fm) as [Fc Ec]. destruct (sin_within _ _ T _ Fm) as [Fs Es].
  set (m := magnitude TBiv b) in *. set (X := exactly TBiv b) in *. set (N := cnorm X) in *. set (d := direction TBiv b) in *.
  pose proof u53_pos. pose proof eta_small. pose proof eta_pos.
  assert (HN : 0 < N) by (eapply Rlt_le_trans; [apply bpow_gt_0|apply H]).
  pose proof (cos_lip (b2r m) N) as Lc. pose proof (sin_lip (b2r m) N) as Ls.
  assert (Ec' : Rabs (b2r (mcos m) - cos N) <= eps + 8 * u53 * N).
  { replace (b2r (mcos m) - cos N) with ((b2r (mcos m) - cos (b2r m)) + (cos (b2r m) - cos N)) by ring.
    eapply Rle_trans; [apply Rabs_triang|]. lra. }
  assert (Es' : Rabs (b2r (msin m) - sin N) <= eps + 8 * u53 * N).
  { replace (b2r (msin m) - sin N) with ((b2r (msin m) - sin (b2r m)) + (sin (b2r m) - sin N)) by ring.
    eapply Rle_trans; [apply Rabs_triang|]. lra. }
  assert (Hs : Rabs (b2r (msin m)) <= 17 / 16).
  { pose proof (SIN_bound (b2r m)). apply Rabs_le_inv in Es. apply Rabs_le. lra. }
  assert (Hc : Rabs (b2r (mcos m)) <= 17 / 16).
  { pose proof (COS_bound (b2r m)). apply Rabs_le_inv in Ec. apply Rabs_le. lra. }
  assert (Hd : cnorm (exactly TBiv d) <= 1 + 15 * u53) by (apply Rabs_le_inv in Ud; lra).
  pose proof (cnorm_nonneg (exactly TBiv d)) as Pd. pose proof (Rabs_pos (b2r (msin m))) as Ps.
  assert (U1 : 15 * u53 <= / 1000) by (rewrite u53_val; lra).
  assert (SD : Rabs (b2r (msin m)) * cnorm (exactly TBiv d) <= 17 / 16 * (1 + 15 * u53)) by (apply Rmult_le_compat; lra).
  destruct (scale_error TBiv (msin m) d Fs Fd) as [Fsd Esd].
  { apply Rle_trans with (bpow radix2 1); [change (bpow radix2 1) with 2; lra|apply bpow_le; lia]. }
  split; [apply spin_finite; assumption|]. split.
  - rewrite (cnorm_ceq _ _ (spin_split _ _)). eapply Rle_trans; [apply cnorm_triangle|].
    rewrite cnorm_scale, cone_norm. pose proof (norm_le_sub (exactly TBiv (scale TBiv (msin m) d)) (cscale (b2r (msin m)) (exactly TBiv d))) as Q.
    rewrite cnorm_scale in Q.
    assert (u53 * (Rabs (b2r (msin m)) * cnorm (exactly TBiv d)) <= u53 * 2) by (apply Rmult_le_compat_l; lra). lra.
  - pose proof (cexp_square X N) as Q.
    assert (EX : ceq E (cadd (cscale (cos N) cone) (cscale (sinc N) X))).
    { apply (is_cexp_unique X); [exact HE|]. apply cexp_square. apply (biv_sq (mapv (fun v : f64 => b2r v) TBiv b)). }
    set (xh := cscale (/ N) X).
    assert (Sx : ceq (cscale (sinc N) X) (cscale (sin N) xh)).
    { intros k. unfold xh, cscale, sinc. destruct (Req_EM_T N 0); [lra|]. unfold Rdiv. ring. }
    assert (Nx : cnorm xh = 1).
    { unfold xh. rewrite cnorm_scale, Rabs_pos_eq by (left; apply Rinv_0_lt_compat; exact HN). fold N. field. lra. }
    set (Y := exactly TBiv (scale TBiv (msin m) d)) in *.
    set (s := b2r (msin m)) in *. set (c := b2r (mcos m)) in *. set (Dd := exactly TBiv d) in *.
    assert (SP : ceq (csub (exactly TSpin (mkSpin (Sca (mcos m)) (scale TBiv (msin m) d))) E)
       (cadd (cscale (c - cos N) cone) (cadd (csub Y (cscale s Dd)) (cadd (cscale s (csub Dd xh)) (cscale (s - sin N) xh))))).
    { intros k. unfold csub at 1. rewrite (spin_split _ _ k), (EX k). fold Y. unfold cadd. rewrite (Sx k). fold c. unfold csub, cscale. ring. }
    rewrite (cnorm_ceq _ _ SP). eapply Rle_trans; [apply cnorm_triangle|].
    rewrite cnorm_scale, cone_norm.
    assert (T1 : cnorm (cadd (csub Y (cscale s Dd)) (cadd (cscale s (csub Dd xh)) (cscale (s - sin N) xh))) <=
      cnorm (csub Y (cscale s Dd)) + (Rabs s * cnorm (csub Dd xh) + Rabs (s - sin N) * 1)).
    { eapply Rle_trans; [apply cnorm_triangle|]. apply Rplus_le_compat_l. eapply Rle_trans; [apply cnorm_triangle|].
      rewrite !cnorm_scale, Nx. lra. }
    assert (T2 : Rabs s * cnorm (csub Dd xh) <= 17 / 16 * (14 * u53 + 3 * eta)).
    { apply Rmult_le_compat; [exact Ps|apply cnorm_nonneg|exact Hs|exact Ed]. }
    assert (T3 : u53 * (Rabs s * cnorm Dd) <= u53 * (17 / 16 * (1 + 15 * u53))) by (apply Rmult_le_compat_l; lra).
    assert (T4 : u53 * (15 * u53) <= u53 * / 1000) by (apply Rmult_le_compat_l; lra).
    change unit_roundoff with u53. lra.
Qed.

(** ** exp(Spinor) *)
Lemma exp_bound : forall x, Rabs x <= 600 -> exp x <= bpow radix2 960.
Proof.
  intros x H. apply Rabs_le_inv in H.
  assert (E : exp 600 <= bpow radix2 960).
  { assert (P : forall n, exp (INR (5 * n)) <= bpow radix2 8 ^ n).
    { induction n as [|n IH]; [cbn; rewrite exp_0; lra|].
      replace (5 * S n)%nat with (5 + 5 * n)%nat by lia. rewrite plus_INR, exp_plus. cbn [pow].
      apply Rmult_le_compat; try (left; apply exp_pos); [|exact IH].
      replace (INR 5) with (1 + 1 + 1 + 1 + 1) by (cbn; ring). rewrite !exp_plus. pose proof exp_le_3. pose proof (exp_pos 1).
      set (e := exp 1) in *. change (bpow radix2 8) with 256.
      assert (e * e <= 9) by nra. assert (e * e * e <= 27) by nra. assert (e * e * e * e <= 81) by nra. nra. }
    specialize (P 120%nat). replace (INR (5 * 120)) with 600 in P by (rewrite INR_IZR_INZ; reflexivity).
    eapply Rle_trans; [exact P|]. right. rewrite <- (bpow_powerRZ radix2 8) at 1 || idtac.
    assert (Q : forall n, bpow radix2 8 ^ n = bpow radix2 (8 * Z.of_nat n)).
    { induction n as [|n IH]; [reflexivity|]. cbn [pow]. rewrite IH, <- bpow_plus. f_equal. lia. }
    rewrite Q. reflexivity. }
  destruct (Req_dec x 600) as [->|h]; [exact E|]. apply Rle_trans with (exp 600); [|exact E]. left; apply exp_increasing. lra.
Qed.
Lemma spin_parts : forall s : Spinor f64, s = mkSpin (Sca (sca_0 (spinSca s))) (spinBiv s).
Proof. intros [[[c]] b]. reflexivity. Qed.
Lemma exp_Spin_accurate : forall eps, trig_within eps L -> exp_within eps L -> eps <= / 16 -> forall (s : Spinor f64) E,
  exp_domain (spinBiv s) -> fin (sca_0 (spinSca s)) = true -> Rabs (b2r (sca_0 (spinSca s))) <= 600 ->
  is_cexp (exactly TSpin s) E ->
  all_finite TSpin (exp_Spin s) /\
  cnorm (csub (exactly TSpin (exp_Spin s)) E) <=
    exp (b2r (sca_0 (spinSca s))) * (4 * eps + 20 * unit_roundoff * (1 + cnorm (exactly TBiv (spinBiv s)))) + 3 * underflow_unit.
Proof.
  intros eps T Te He s E D Fs Hs HE. set (c := sca_0 (spinSca s)) in *. set (b := spinBiv s) in *.
  assert (S : exp_Spin s = scale TSpin (mexp c) (exp_Biv b)) by reflexivity. rewrite S.
  destruct (cexp_exists (exactly TBiv b)) as [Eb HEb].
  destruct (exp_Biv_accurate eps T He b Eb D HEb) as (F & Nr & A).
  destruct (Te c Fs Hs) as [Fe Ee]. set (R := exactly TSpin (exp_Biv b)) in *.
  pose proof (exp_pos (b2r c)) as Pe. pose proof (exp_bound _ Hs) as Be. set (x := exp (b2r c)) in *. set (e := b2r (mexp c)) in *.
  pose proof u53_pos. pose proof eta_pos.
  assert (Eps : 0 <= eps).
  { destruct (Rle_or_lt 0 eps) as [h|h]; [exact h|]. exfalso. pose proof (Rabs_pos (e - x)). nra. }
  assert (Ae : Rabs e <= 17 / 16 * x).
  { replace e with ((e - x) + x) by ring. eapply Rle_trans; [apply Rabs_triang|]. rewrite (Rabs_pos_eq x) by lra. nra. }
  pose proof (cnorm_nonneg R) as PR. pose proof (Rabs_pos e) as PE.
  assert (ER : Rabs e * cnorm R <= 17 / 16 * x * (9 / 4)) by (apply Rmult_le_compat; lra).
  destruct (scale_error TSpin (mexp c) (exp_Biv b) Fe F) as [G K].
  { fold e R. apply Rle_trans with (bpow radix2 2 * bpow radix2 960); [change (bpow radix2 2) with 4; lra|]. rewrite <- bpow_plus. apply bpow_le; lia. }
  split; [exact G|].
  assert (EX : ceq E (cscale x Eb)).
  { apply (is_cexp_unique (exactly TSpin s)); [exact HE|].
    apply (is_cexp_ceq (cadd (cscale (b2r c) cone) (exactly TBiv b)) _ (gp (cscale x cone) Eb)).
    - intros k. symmetry. rewrite (spin_parts s). apply spin_split.
    - apply gp_scalar_l.
    - apply cexp_add; [|apply cexp_scalar | exact HEb].
      rewrite gp_scalar_l, gp_scale_r, gp_one_r. reflexivity. }
  assert (NE : cnorm Eb = 1).
  { set (X := exactly TBiv b) in *.
    assert (Q : ceq Eb (cadd (cscale (cos (cnorm X)) cone) (cscale (sinc (cnorm X)) X))).
    { apply (is_cexp_unique X); [exact HEb|]. apply cexp_square. apply (biv_sq (mapv (fun v : f64 => b2r v) TBiv b)). }
    rewrite (cnorm_ceq _ _ Q). unfold cnorm at 1.
    pose proof (cnorm2_rotor (cos (cnorm X)) (sinc (cnorm X)) (mapv (fun v : f64 => b2r v) TBiv b)) as C.
    change (den TBiv (mapv (fun v : f64 => b2r v) TBiv b)) with X in C. rewrite C, <- cnorm_sq.
    replace (sinc (cnorm X) * sinc (cnorm X) * (cnorm X * cnorm X)) with ((cnorm X * sinc (cnorm X)) * (cnorm X * sinc (cnorm X))) by ring.
    rewrite sinc_mul. pose proof (sin2_cos2 (cnorm X)) as h. unfold Rsqr in h.
    replace (cos (cnorm X) * cos (cnorm X) + sin (cnorm X) * sin (cnorm X)) with 1 by lra. apply sqrt_1. }
  set (Y := exactly TSpin (scale TSpin (mexp c) (exp_Biv b))) in *. fold e R in K.
  assert (SP : ceq (csub Y E) (cadd (csub Y (cscale e R)) (cadd (cscale e (csub R Eb)) (cscale (e - x) Eb)))).
  { intros k. unfold csub at 1. rewrite (EX k). unfold cadd, csub, cscale. ring. }
  rewrite (cnorm_ceq _ _ SP).
  assert (T1 : cnorm (cadd (csub Y (cscale e R)) (cadd (cscale e (csub R Eb)) (cscale (e - x) Eb))) <=
     cnorm (csub Y (cscale e R)) + (Rabs e * cnorm (csub R Eb) + Rabs (e - x) * 1)).
  { eapply Rle_trans; [apply cnorm_triangle|]. apply Rplus_le_compat_l. eapply Rle_trans; [apply cnorm_triangle|]. rewrite !cnorm_scale, NE. lra. }
  change unit_roundoff with u53 in *. change underflow_unit with eta in *.
  set (N := cnorm (exactly TBiv b)) in *. assert (PN : 0 <= N) by apply cnorm_nonneg.
  assert (T2 : Rabs e * cnorm (csub R Eb) <= 17 / 16 * x * (2 * eps + 16 * u53 * (1 + N))).
  { apply Rmult_le_compat; [exact PE|apply cnorm_nonneg|exact Ae|exact A]. }
  assert (T3 : u53 * (Rabs e * cnorm R) <= u53 * (17 / 16 * x * (9 / 4))) by (apply Rmult_le_compat_l; lra).
  assert (P1 : 0 <= x * eps) by (apply Rmult_le_pos; lra).
  assert (P2 : 0 <= u53 * x) by (apply Rmult_le_pos; lra).
  assert (P3 : 0 <= u53 * x * N) by (apply Rmult_le_pos; lra).
  nra.
Qed.
End Library.

(** ** Where the exponential goes wrong *)
Lemma exp_Biv_ignored : forall L : Libm f64,
  exp_Biv (Biv (f64_lit 1 (-1022)) (f64_lit 2 0) (f64_lit 0 0)) = one TSpin.
Proof.
  intros L. set (b := Biv _ _ _). unfold exp_Biv. cbv zeta. change (snd (pairMagDirFrom TBiv b)) with (direction TBiv b).
  assert (A : isValid_Biv b = true) by (vm_compute; reflexivity).
  assert (B : isValid_Biv (direction TBiv b) = false) by (vm_compute; reflexivity).
  rewrite A, B. reflexivity.
Qed.
Lemma exp_Biv_subnormal : forall L : Libm f64,
  exp_Biv (Biv (f64_lit 1 (-1060)) (f64_lit 2 0) (f64_lit 0 0)) = null TSpin.
Proof.
  intros L. set (b := Biv _ _ _). unfold exp_Biv.
  assert (A : isValid_Biv b = false) by (vm_compute; reflexivity). rewrite A. reflexivity.
Qed.
Lemma one_exactly : ceq (exactly TSpin (one TSpin)) cone.
Proof.
  destruct one_ok as [_ E1]. intros k. dblade k;
    first [exact E1 | change (0 = 0); reflexivity | change (- 0 = 0); ring].
Qed.
Lemma exp_Biv_wrong : forall L : Libm f64, exists b : BiVector f64, all_valid TBiv b /\ exp_Biv b = one TSpin /\
  2 <= cnorm (exactly TBiv b) <= 3 /\
  forall E, is_cexp (exactly TBiv b) E -> 1 <= cnorm (csub (exactly TSpin (exp_Biv b)) E).
Proof.
  intros L. set (b := Biv (f64_lit 1 (-1022)) (f64_lit 2 0) (f64_lit 0 0)). exists b.
  assert (V : all_valid TBiv b).
  { assert (V3 : Forall (fun v : f64 => isValid_Dub v = true) (elems TBiv b)) by (repeat constructor; vm_compute; reflexivity).
    unfold all_valid. eapply Forall_impl; [|exact V3]. intros v Hv. apply isValid_number, Hv. }
  split; [exact V|]. split; [apply exp_Biv_ignored|].
  assert (A : b2r (f64_lit 1 (-1022)) = bpow radix2 (-1022)).
  { destruct (lit_exact 1 (-1022)) as [_ B].
    - unfold F2R; cbn [Fnum Fexp]. rewrite Rmult_1_l. apply fmt_bpow; lia.
    - unfold F2R; cbn [Fnum Fexp]. rewrite Rmult_1_l, Rabs_pos_eq by apply bpow_ge_0. apply bpow_lt; lia.
    - rewrite B. unfold F2R; cbn [Fnum Fexp]. apply Rmult_1_l. }
  assert (B : forall n, (0 <= n <= 8)%Z -> b2r (f64_lit n 0) = IZR n).
  { intros n Hn. assert (E : F2R (Float radix2 n 0) = IZR n) by (unfold F2R; cbn; ring).
    destruct (lit_exact n 0) as [_ B]; rewrite ?E; [apply int_format; lia|apply int_lt; lia|]. rewrite B. exact E. }
  assert (N2 : cnorm2 (exactly TBiv b) = bpow radix2 (-1022) * bpow radix2 (-1022) + 4).
  { pose proof (B 2%Z ltac:(lia)) as B2. pose proof (B 0%Z ltac:(lia)) as B0.
    unfold exactly, b. remember (bpow radix2 (-1022)) as p eqn:Ep. clear Ep.
    cbv -[b2r f64_lit Rplus Rmult R0 IZR Ropp]. rewrite A, B2, B0. ring. }
  assert (P : 0 <= bpow radix2 (-1022) * bpow radix2 (-1022) <= 1).
  { split; [apply Rmult_le_pos; apply bpow_ge_0|]. rewrite <- bpow_plus. change 1 with (bpow radix2 0). apply bpow_le; lia. }
  assert (N : 2 <= cnorm (exactly TBiv b) <= 3).
  { unfold cnorm. rewrite N2. split.
    - rewrite <- (sqrt_square 2) at 1 by lra. apply sqrt_le_1_alt. lra.
    - rewrite <- (sqrt_square 3) by lra. apply sqrt_le_1_alt. lra. }
  split; [exact N|]. intros E HE. rewrite exp_Biv_ignored.
  set (X := exactly TBiv b) in *.
  assert (Q : ceq E (cadd (cscale (cos (cnorm X)) cone) (cscale (sinc (cnorm X)) X))).
  { apply (is_cexp_unique X); [exact HE|]. apply cexp_square. apply (biv_sq (mapv (fun v : f64 => b2r v) TBiv b)). }
  eapply Rle_trans; [|apply (comp_le_norm _ bS)]. unfold csub. rewrite (one_exactly bS), (Q bS).
  unfold cadd, cscale. replace (X bS) with 0 by reflexivity. replace (cone bS) with 1 by reflexivity.
  assert (cos (cnorm X) <= 0). { apply cos_le_0; pose proof PI_4; pose proof PI2_3_2; lra. }
  rewrite Rmult_0_r, Rplus_0_r, Rmult_1_r. rewrite Rabs_pos_eq; lra.
Qed.

(** ** A correctly rounded library *)
Definition near64 (r : R) : f64 := f64_lit (ZnearestE (scaled_mantissa radix2 fexp64 r)) (cexp radix2 fexp64 r).
Lemma near64_ok : forall r, Rabs r <= bpow radix2 1000 -> fin (near64 r) = true /\ Rabs (b2r (near64 r) - r) <= u53 * Rabs r + eta.
Proof.
  intros r H. unfold near64.
  assert (E : F2R (Float radix2 (ZnearestE (scaled_mantissa radix2 fexp64 r)) (cexp radix2 fexp64 r)) = rnd64 r) by reflexivity.
  destruct (lit_exact (ZnearestE (scaled_mantissa radix2 fexp64 r)) (cexp radix2 fexp64 r)) as [A B]; rewrite ?E.
  - apply generic_format_round; [apply (fexp_correct 53 1024); reflexivity|apply valid_rnd_N].
  - apply (rnd_lt _ 1000); [lia|exact H].
  - split; [exact A|]. rewrite B. exact (err_any r).
Qed.
Definition rounded_lib : Libm f64 := {|
  mcos := fun x => near64 (cos (b2r x)); msin := fun x => near64 (sin (b2r x)); mexp := fun x => near64 (exp (b2r x));
  mlog := fun x => near64 (ln (b2r x)); matan2 := fun y x => near64 (Ratan2 (b2r y) (b2r x));
  mcabs := fun z => near64 (sqrt (b2r (fst z) * b2r (fst z) + b2r (snd z) * b2r (snd z)));
  mcmul := fun z w => z; mcdiv := fun z w => z; mcsqrt := fun z => z |}.
Lemma library_within : trig_within (bpow radix2 (-52)) rounded_lib /\ exp_within (bpow radix2 (-52)) rounded_lib.
Proof.
  pose proof eta_small. pose proof u53_pos.
  assert (U : bpow radix2 (-52) = 2 * u53) by (rewrite u53_val; cbn; lra).
  assert (T : forall r, -1 <= r <= 1 -> fin (near64 r) = true /\ Rabs (b2r (near64 r) - r) <= bpow radix2 (-52)).
  { intros r Hr. assert (A : Rabs r <= 1) by (apply Rabs_le; exact Hr).
    destruct (near64_ok r) as [F E].
    - eapply Rle_trans; [exact A|]. change 1 with (bpow radix2 0). apply bpow_le; lia.
    - split; [exact F|]. eapply Rle_trans; [exact E|]. rewrite U.
      assert (u53 * Rabs r <= u53 * 1) by (apply Rmult_le_compat_l; lra). lra. }
  split; [split|].
  - intros x _. apply T, COS_bound.
  - intros x _. apply T, SIN_bound.
  - intros x _ Hx. pose proof (exp_pos (b2r x)) as P. destruct (near64_ok (exp (b2r x))) as [F E].
    + rewrite Rabs_pos_eq by lra. eapply Rle_trans; [apply exp_bound, Hx|apply bpow_le; lia].
    + split; [exact F|]. eapply Rle_trans; [exact E|]. rewrite Rabs_pos_eq, U by lra.
      assert (L : bpow radix2 (-960) <= exp (b2r x)).
      { assert (Hx' : Rabs (- b2r x) <= 600) by (rewrite Rabs_Ropp; exact Hx). apply exp_bound in Hx'. rewrite exp_Ropp in Hx'.
        rewrite <- (Rinv_inv (exp (b2r x))). change (-960)%Z with (- (960))%Z. rewrite bpow_opp.
        apply Rinv_le_contravar; [apply Rinv_0_lt_compat, P|exact Hx']. }
      assert (K : eta <= u53 / 1000 * exp (b2r x)).
      { apply eta_rel. eapply Rle_trans; [|exact L]. apply bpow_le; lia. }
      nra.
Qed.

Lemma example_exp_domain : exp_domain (Biv (f64_lit 3 0) (f64_lit 0 0) (f64_lit (-4) 0)).
Proof.
  assert (B : forall n, (-8 <= n <= 8)%Z -> fin (f64_lit n 0) = true /\ b2r (f64_lit n 0) = IZR n).
  { intros n Hn. assert (E : F2R (Float radix2 n 0) = IZR n) by (unfold F2R; cbn; ring).
    destruct (lit_exact n 0) as [A B]; rewrite ?E; [apply int_format; lia|apply int_lt; lia|]. rewrite B. auto. }
  set (b := Biv _ _ _).
  pose proof (B 3%Z ltac:(lia)) as [F3 B3]. pose proof (B 0%Z ltac:(lia)) as [F0 B0]. pose proof (B (-4)%Z ltac:(lia)) as [F4 B4].
  assert (N2 : cnorm2 (exactly TBiv b) = 25).
  { unfold exactly, b. cbv -[b2r f64_lit Rplus Rmult R0 IZR Ropp]. rewrite B3, B0, B4. ring. }
  assert (N : cnorm (exactly TBiv b) = 5).
  { unfold cnorm. rewrite N2. replace 25 with (5 * 5) by ring. apply sqrt_square; lra. }
  assert (P : forall e, (e <= 0)%Z -> bpow radix2 e <= 1) by (intros e He; change 1 with (bpow radix2 0); apply bpow_le; exact He).
  unfold exp_domain. rewrite N. change (biv_0 b) with (f64_lit 3 0 : f64). rewrite B3, (Rabs_pos_eq 3) by lra.
  split; [|split; [split|right; split]].
  - unfold all_finite. cbn [elems]. repeat constructor; assumption.
  - pose proof (P (-480)%Z ltac:(lia)). lra.
  - apply Rle_trans with (bpow radix2 3); [cbn; lra|apply bpow_le; lia].
  - pose proof (P (-1022)%Z ltac:(lia)). lra.
  - apply Rle_trans with (bpow radix2 (-2) * 5); [|cbn; lra].
    apply Rmult_le_compat_r; [lra|]. apply bpow_le; lia.
Qed.
