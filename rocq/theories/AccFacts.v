(** * Accuracy of magnitude, direction and inverse on binary64: proofs. *)

Require Import Reals ZArith List Bool Lra Lia.
From Flocq Require Import Core BinarySingleNaN.
Require Import Verif.Num Verif.Types Verif.Priv Verif.OpsUni Verif.OpsAdd Verif.OpsSub
  Verif.OpsMul Verif.Const Verif.Func Verif.SpecCl Verif.RealInst Verif.AlgTac Verif.AlgMul Verif.AlgFacts Verif.SpecFunc
  Verif.Rel Verif.B64 Verif.B64Facts Verif.SpecRound Verif.ArrErr Verif.IntFacts Verif.ErrFacts Verif.SpecAcc Verif.BoundFacts.
Import ListNotations.
Local Open Scope R_scope.

(** ** Squared magnitude *)
Lemma magSq_cnt : forall t, cnt_le 8 8 (@magSq cnt Ring0_cnt t (@constv cnt (Some (0%nat, 0%nat)) t)) = true.
Proof. intros t; destruct t; vm_compute; reflexivity. Qed.
Lemma magSq_abs : forall t (x : val f64 t), @magSq R Ring0_abs t (absv t x) = @magSq R Ring0_R t (exactv t x).
Proof.
  assert (E : forall v, Rabs v * Rabs v = v * v) by (intros v; rewrite <- Rabs_mult; apply Rabs_pos_eq, Rle_0_sqr).
  intros t x; unfold absv, exactv; destruct t; dvs; cbv -[B2R Rabs Rplus Rmult R0 IZR]; rewrite ?E; reflexivity.
Qed.
Lemma magSq_error : forall t (x : val f64 t), fin (magSq t x) = true ->
  Rabs (b2r (magSq t x) - cnorm2 (exactly t x)) <= 9 * u53 * cnorm2 (exactly t x) + 9 * eta.
Proof.
  intros t x F. pose proof u53_pos. pose proof eta_pos.
  pose proof (@magSq_rel f64 trk Ring0_B Ring0_trk _ errs_rel t _ _ (track_errs t x)) as E.
  pose proof (@magSq_rel trk cnt Ring0_trk Ring0_cnt _ tc_rel t _ _ (track_tc t x)) as C.
  pose proof (@magSq_rel trk R Ring0_trk Ring0_R _ tv_rel t _ _ (track_tv t x)) as V.
  pose proof (@magSq_rel trk R Ring0_trk Ring0_abs _ tm_rel t _ _ (track_tm t x)) as M.
  cbv beta in C, V, M. pose proof (magSq_cnt t) as K. rewrite <- C in K.
  rewrite magSq_abs in M. unfold exactv in V, M. rewrite (magSq_den t) in V, M.
  change (den t (mapv (fun v : f64 => b2r v) t x)) with (exactly t x) in V, M.
  destruct E as [_ E]. destruct (tc (magSq t (track t x))) as [[n k]|]; [|discriminate K].
  specialize (E F). rewrite V, M in E. cbn [cnt_le] in K. apply andb_true_iff in K. destruct K as [K1 K2].
  apply Nat.leb_le in K1, K2. pose proof (cnorm2_nonneg (exactly t x)) as P.
  eapply Rle_trans; [exact E|]. eapply Rle_trans; [apply (ebound_mono n 8 k 8); auto|].
  unfold ebound. destruct bound8 as [B8 C8]. apply Rplus_le_compat; apply Rmult_le_compat_r; lra.
Qed.

(** ** Never negative *)
Definition notneg (v : f64) : Prop := Bltb v (B754_zero false) = false.
Lemma notneg_sign : forall v : f64, notneg v <-> match v with B754_infinity s => s = false | B754_finite s _ _ _ => s = false | _ => True end.
Proof.
  unfold notneg; intros [s|s| |s m e H]; cbn; try tauto; destruct s; cbn; split; congruence.
Qed.
Lemma notneg_square : forall x : f64, notneg (Bmult mode_NE x x).
Proof.
  intros x. apply notneg_sign.
  pose proof (Bmult_correct 53 1024 _ _ mode_NE x x) as C. destruct (Rlt_bool _ _).
  - destruct C as (_ & _ & C). destruct (Bmult mode_NE x x); cbn in *; auto; specialize (C eq_refl); rewrite C, xorb_nilpotent; reflexivity.
  - rewrite xorb_nilpotent in C. destruct (Bmult mode_NE x x); cbn in *; auto; congruence.
Qed.
Lemma notneg_plus : forall x y : f64, notneg x -> notneg y -> notneg (Bplus mode_NE x y).
Proof.
  intros x y Hx Hy. apply notneg_sign in Hx, Hy. apply notneg_sign.
  destruct (fin x) eqn:Fx, (fin y) eqn:Fy.
  - pose proof (Bplus_correct 53 1024 _ _ mode_NE x y Fx Fy) as C. destruct (Rlt_bool _ _).
    + destruct C as (C & F & S).
      assert (P : forall v : f64, fin v = true -> match v with B754_infinity s => s = false | B754_finite s _ _ _ => s = false | _ => True end -> 0 <= b2r v).
      { intros [s|s| |s m e H] Fv Hv; cbn; try lra. subst s; apply F2R_ge_0; cbn; lia. }
      assert (0 <= b2r (Bplus mode_NE x y)).
      { rewrite C. apply rnd_pos, Rplus_le_le_0_compat; auto. }
      destruct (Bplus mode_NE x y) as [s|s| |s m e B]; auto; [discriminate F|].
      destruct s; [|reflexivity]. exfalso.
      assert (b2r (B754_finite true m e B : f64) < 0); [|lra]. cbn; apply F2R_lt_0; cbn; lia.
    + destruct C as [C S].
      assert (Sx : Bsign x = false).
      { destruct (Bsign x) eqn:E; [exfalso|reflexivity]. symmetry in S.
        destruct x as [s|s| |s m e H], y as [s'|s'| |s' m' e' H']; try discriminate Fx; try discriminate Fy;
          cbn [Bsign] in *; subst; try discriminate. }
      rewrite Sx in C. destruct (Bplus mode_NE x y); cbn in C; auto; congruence.
  - destruct x as [s|s| |s m e H], y as [s'|s'| |s' m' e' H']; try discriminate Fx; try discriminate Fy; cbn; auto.
  - destruct x as [s|s| |s m e H], y as [s'|s'| |s' m' e' H']; try discriminate Fx; try discriminate Fy; cbn; auto.
  - destruct x as [s|s| |s m e H], y as [s'|s'| |s' m' e' H']; try discriminate Fx; try discriminate Fy; cbn; auto; subst; cbn; auto.
Qed.
Lemma magSq_notneg : forall t (x : val f64 t), notneg (magSq t x).
Proof.
  intros t x. assert (Z : notneg (B754_zero false)) by reflexivity.
  destruct t; dvs; cbv -[Bplus Bmult notneg nzero nadd nmul Ring0_B];
    repeat first [exact Z | apply notneg_plus | apply notneg_square].
Qed.
Lemma notneg_pos : forall v : f64, notneg v -> 0 <= b2r v.
Proof.
  intros v H; apply notneg_sign in H. destruct v as [s|s| |s m e B]; cbn; try lra. subst s; apply F2R_ge_0; cbn; lia.
Qed.

(** ** Magnitude *)
Lemma bsqrt_ok : forall v : f64, fin v = true -> notneg v ->
  fin (Bsqrt mode_NE v) = true /\ b2r (Bsqrt mode_NE v) = rnd64 (sqrt (b2r v)).
Proof.
  intros v F H. destruct (Bsqrt_correct 53 1024 _ _ mode_NE v) as (E & G & _). split; [|exact E].
  rewrite G. apply notneg_sign in H. destruct v as [s|s| |s m e B]; try discriminate F; [reflexivity|]. subst s; reflexivity.
Qed.
Lemma u53_val : u53 = / 9007199254740992.
Proof. reflexivity. Qed.
Lemma eta_rel : forall D, bpow radix2 (-1000) <= D -> eta <= u53 / 1000 * D.
Proof.
  intros D H. assert (E : eta = u53 * bpow radix2 (-22) * bpow radix2 (-1000)).
  { unfold eta, u53. rewrite <- !bpow_plus. reflexivity. }
  assert (bpow radix2 (-22) <= / 1000).
  { cbn. apply Rinv_le_contravar; lra. }
  rewrite E. pose proof u53_pos. pose proof (bpow_gt_0 radix2 (-1000)).
  replace (u53 / 1000 * D) with (u53 * (/ 1000 * D)) by (unfold Rdiv; ring). rewrite Rmult_assoc. apply Rmult_le_compat_l; [lra|].
  apply Rmult_le_compat; try lra. apply bpow_ge_0.
Qed.
Lemma sqrt_step : forall s N, 0 <= s -> 0 < N -> Rabs (s - N * N) <= 10 * u53 * (N * N) -> Rabs (sqrt s - N) <= 6 * u53 * N.
Proof.
  intros s N Hs HN H. rewrite u53_val in *. apply Rabs_le_inv in H.
  pose proof (sqrt_pos s) as P. pose proof (sqrt_sqrt s Hs) as Q. set (r := sqrt s) in *.
  set (M := N * N) in *. assert (HM : 0 < M) by (unfold M; apply Rmult_lt_0_compat; auto).
  apply Rabs_le. split.
  - apply Rnot_lt_le; intros L. set (c := 1 - 6 * / 9007199254740992) in *.
    assert (L' : r < c * N) by (unfold c; lra).
    assert (r * r <= c * N * (c * N)) by (apply Rmult_le_compat; lra).
    assert (E : c * N * (c * N) = c * c * M) by (unfold M; ring). rewrite E in *.
    assert (c * c * M < (1 - 10 * / 9007199254740992) * M); [|lra].
    apply Rmult_lt_compat_r; [exact HM|]. unfold c. lra.
  - apply Rnot_lt_le; intros L. set (c := 1 + 6 * / 9007199254740992) in *.
    assert (L' : c * N < r) by (unfold c; lra).
    assert (0 <= c * N) by (unfold c; apply Rmult_le_pos; lra).
    assert (c * N * (c * N) <= r * r) by (apply Rmult_le_compat; lra).
    assert (E : c * N * (c * N) = c * c * M) by (unfold M; ring). rewrite E in *.
    assert ((1 + 10 * / 9007199254740992) * M < c * c * M); [|lra].
    apply Rmult_lt_compat_r; [exact HM|]. unfold c. lra.
Qed.
Lemma cnorm_sq' a : cnorm a * cnorm a = cnorm2 a.
Proof. apply sqrt_sqrt, cnorm2_nonneg. Qed.
Lemma comp_le_norm : forall a k, Rabs (a k) <= cnorm a.
Proof.
  intros a k. unfold cnorm. rewrite <- sqrt_Rsqr_abs. apply sqrt_le_1_alt. unfold Rsqr, cnorm2, rsum, all_blades. cbn [map fold_right].
  pose proof (Rle_0_sqr (a bS)); pose proof (Rle_0_sqr (a bE1)); pose proof (Rle_0_sqr (a bE2));
  pose proof (Rle_0_sqr (a bE3)); pose proof (Rle_0_sqr (a bE12)); pose proof (Rle_0_sqr (a bE13));
  pose proof (Rle_0_sqr (a bE23)); pose proof (Rle_0_sqr (a bE123)). unfold Rsqr in *.
  destruct k as [[|] [|] [|]]; unfold bS, bE1, bE2, bE3, bE12, bE13, bE23, bE123 in *; lra.
Qed.
Lemma sq_lower : forall N a, bpow radix2 a <= N -> bpow radix2 (a + a) <= N * N.
Proof. intros N a H. pose proof (bpow_ge_0 radix2 a). rewrite bpow_plus. apply Rmult_le_compat; lra. Qed.
Lemma sq_upper : forall N a, 0 <= N <= bpow radix2 a -> N * N <= bpow radix2 (a + a).
Proof. intros N a H. rewrite bpow_plus. apply Rmult_le_compat; lra. Qed.
Lemma magSq_rel_error : forall t (x : val f64 t), fin (magSq t x) = true -> bpow radix2 (-480) <= cnorm (exactly t x) ->
  Rabs (b2r (magSq t x) - cnorm2 (exactly t x)) <= 10 * u53 * cnorm2 (exactly t x).
Proof.
  intros t x F H. pose proof (magSq_error t x F) as E. apply sq_lower in H. rewrite cnorm_sq' in H.
  set (N2 := cnorm2 _) in *. assert (K : eta <= u53 / 1000 * N2).
  { apply eta_rel. eapply Rle_trans; [|exact H]. apply bpow_le; lia. }
  rewrite u53_val in *. assert (0 <= N2) by apply cnorm2_nonneg. lra.
Qed.
Lemma magnitude_error : forall t (x : val f64 t), fin (magSq t x) = true -> bpow radix2 (-480) <= cnorm (exactly t x) ->
  fin (magnitude t x) = true /\ Rabs (b2r (magnitude t x) - cnorm (exactly t x)) <= 8 * u53 * cnorm (exactly t x).
Proof.
  intros t x F H. pose proof (magSq_rel_error t x F H) as E. rewrite <- cnorm_sq' in E. set (N := cnorm _) in *.
  destruct (bsqrt_ok _ F (magSq_notneg t x)) as [G R].
  change (magnitude t x) with (Bsqrt mode_NE (magSq t x)). split; [exact G|]. rewrite R.
  assert (HN : 0 < N) by (eapply Rlt_le_trans; [apply bpow_gt_0|exact H]).
  pose proof (sqrt_step _ _ (notneg_pos _ (magSq_notneg t x)) HN E) as S.
  pose proof (err_any (sqrt (b2r (magSq t x)))) as A. rewrite (Rabs_pos_eq (sqrt _)) in A by apply sqrt_pos.
  assert (K : eta <= u53 / 1000 * N) by (apply eta_rel; eapply Rle_trans; [|exact H]; apply bpow_le; lia).
  set (r := sqrt _) in *. rewrite u53_val in *. apply Rabs_le_inv in S, A. apply Rabs_le. lra.
Qed.

(** ** Multiplying by a reciprocal *)
Lemma bdiv_ok : forall x y : f64, fin x = true -> b2r y <> 0 -> Rabs (rnd64 (b2r x / b2r y)) < bpow radix2 1024 ->
  fin (Bdiv mode_NE x y) = true /\ b2r (Bdiv mode_NE x y) = rnd64 (b2r x / b2r y).
Proof.
  intros x y Fx Hy H. pose proof (Bdiv_correct 53 1024 _ _ mode_NE x y Hy) as C.
  rewrite Rlt_bool_true in C by exact H. destruct C as (C1 & C2 & _). rewrite C2; auto.
Qed.
Lemma rnd_lt : forall x e, (-1074 <= e < 1024)%Z -> Rabs x <= bpow radix2 e -> Rabs (rnd64 x) < bpow radix2 1024.
Proof.
  intros x e He Hx. apply Rle_lt_trans with (bpow radix2 e); [apply rnd_le_format; [apply fmt_bpow; lia | exact Hx]|]. apply bpow_lt; lia.
Qed.
Lemma recip : forall (m : f64) D, bpow radix2 (-962) <= D <= bpow radix2 962 -> Rabs (b2r m - D) <= 10 * u53 * D ->
  let i := Bdiv mode_NE (none_ : f64) m in fin i = true /\ Rabs (b2r i - / D) <= 12 * u53 * / D.
Proof.
  intros m D [D1 D2] H. pose proof (bpow_gt_0 radix2 (-962)) as P. assert (HD : 0 < D) by lra.
  destruct one_ok as [F1 R1]. set (mm := b2r m) in *.
  assert (Hm : 0 < mm) by (rewrite u53_val in H; apply Rabs_le_inv in H; lra).
  assert (HiD : 0 < / D) by (apply Rinv_0_lt_compat, HD).
  assert (E : Rabs (1 / mm - / D) <= 101 / 10 * u53 * / D).
  { replace (1 / mm - / D) with ((D - mm) * / mm * / D) by (field; lra).
    rewrite 2!Rabs_mult, (Rabs_pos_eq (/ D)) by lra. apply Rmult_le_compat_r; [lra|].
    rewrite (Rabs_pos_eq (/ mm)) by (left; apply Rinv_0_lt_compat, Hm).
    rewrite Rabs_minus_sym. apply Rmult_le_reg_r with mm; [exact Hm|]. rewrite Rmult_assoc, Rinv_l, Rmult_1_r by lra.
    eapply Rle_trans; [exact H|]. rewrite u53_val in *. apply Rabs_le_inv in H. lra. }
  assert (B1 : / D <= bpow radix2 962).
  { rewrite <- (Rinv_inv (bpow radix2 962)), <- bpow_opp. apply Rinv_le_contravar; [apply bpow_gt_0|exact D1]. }
  assert (B2 : bpow radix2 (-962) <= / D).
  { rewrite <- (Rinv_inv (bpow radix2 (-962))), <- bpow_opp. apply Rinv_le_contravar; [exact HD|exact D2]. }
  assert (K : eta <= u53 / 1000 * / D) by (apply eta_rel; eapply Rle_trans; [|exact B2]; apply bpow_le; lia).
  assert (Hq : Rabs (1 / mm) <= bpow radix2 963).
  { rewrite u53_val in E. apply Rabs_le_inv in E. apply Rabs_le.
    replace 963%Z with (962 + 1)%Z by reflexivity. rewrite bpow_plus. change (bpow radix2 1) with 2. lra. }
  pose proof (bdiv_ok (none_ : f64) m F1 ltac:(fold mm; lra)) as C. rewrite R1 in C. fold mm in C.
  destruct (C (rnd_lt _ 963 ltac:(lia) Hq)) as [Fi Ri]. cbv zeta. split; [exact Fi|]. rewrite Ri.
  pose proof (err_any (1 / mm)) as A.
  assert (Q : 0 < 1 / mm) by (unfold Rdiv; rewrite Rmult_1_l; apply Rinv_0_lt_compat, Hm).
  rewrite (Rabs_pos_eq (1 / mm)) in A by lra.
  rewrite u53_val in *. apply Rabs_le_inv in A, E. apply Rabs_le. lra.
Qed.
Lemma recip_mult : forall (i x : f64) D, 0 < D -> fin i = true -> fin x = true -> Rabs (b2r i - / D) <= 12 * u53 * / D ->
  Rabs (b2r x) / D <= bpow radix2 1000 ->
  fin (Bmult mode_NE i x) = true /\ Rabs (b2r (Bmult mode_NE i x) - b2r x / D) <= 14 * u53 * (Rabs (b2r x) / D) + eta.
Proof.
  intros i x D HD Fi Fx H B. set (v := b2r x) in *. set (j := b2r i) in *.
  assert (HiD : 0 < / D) by (apply Rinv_0_lt_compat, HD).
  assert (Pv : 0 <= Rabs v) by apply Rabs_pos. set (w := Rabs v / D) in *.
  assert (Pw : 0 <= w) by (unfold w, Rdiv; apply Rmult_le_pos; lra).
  assert (E : Rabs (j * v - v / D) <= 12 * u53 * w).
  { replace (j * v - v / D) with ((j - / D) * v) by (unfold Rdiv; ring). rewrite Rabs_mult. unfold w, Rdiv.
    replace (12 * u53 * (Rabs v * / D)) with (12 * u53 * / D * Rabs v) by ring. apply Rmult_le_compat_r; auto. }
  assert (Evd : Rabs (v / D) = w) by (unfold w, Rdiv; rewrite Rabs_mult, (Rabs_pos_eq (/ D)); lra).
  assert (Ej : Rabs (j * v) <= (1 + 12 * u53) * w).
  { replace (j * v) with ((j * v - v / D) + v / D) by ring. eapply Rle_trans; [apply Rabs_triang|]. rewrite Evd. lra. }
  assert (Hq : Rabs (j * v) <= bpow radix2 1001).
  { replace 1001%Z with (1000 + 1)%Z by reflexivity. rewrite bpow_plus. change (bpow radix2 1) with 2. rewrite u53_val in Ej. lra. }
  pose proof (bmult_ok i x Fi Fx) as C. fold v j in C. destruct (C (rnd_lt _ 1001 ltac:(lia) Hq)) as [Fm Rm].
  split; [exact Fm|]. rewrite Rm. pose proof (err_any (j * v)) as A.
  replace (rnd64 (j * v) - v / D) with ((rnd64 (j * v) - j * v) + (j * v - v / D)) by ring.
  eapply Rle_trans; [apply Rabs_triang|]. rewrite u53_val in *. lra.
Qed.

(** ** Scaling *)
Lemma elems_scale : forall t (r : f64) (x : val f64 t), elems t (scale t r x) = map (fun v => Bmult mode_NE r v) (elems t x).
Proof. intros t r x; destruct t; dvs; reflexivity. Qed.
Definition timesv (c : R) (t : ty) (x : val f64 t) : val (R * R) t := mapv (fun v : f64 => (b2r v * c, Rabs (b2r v) * c)) t x.
Lemma den_times : forall c t (x : val f64 t) k, den t (mapv fst t (timesv c t x)) k = exactly t x k * c.
Proof.
  intros c t x k. unfold timesv, exactly. rewrite mapv_mapv. cbn [fst]. destruct t; dvs; dblade k;
    cbv -[B2R Ropp Rmult R0 IZR]; ring.
Qed.
Lemma denp_times : forall c t (x : val f64 t) k, denp t (mapv snd t (timesv c t x)) k = Rabs (exactly t x k) * c.
Proof.
  intros c t x k. rewrite den_abs. unfold timesv, absv. rewrite mapv_mapv. cbn [snd]. destruct t; dvs; dblade k;
    cbv -[B2R Rabs Rmult R0 IZR]; ring.
Qed.
Lemma elems_comp : forall t (x : val f64 t), Forall (fun v : f64 => exists k, Rabs (b2r v) = Rabs (exactly t x k)) (elems t x).
Proof.
  intros t x. unfold exactly. destruct t; dvs; cbn [elems]; repeat constructor;
    first [exists bS; cbv -[B2R Rabs Ropp R0 IZR]; rewrite ?Rabs_Ropp; reflexivity
          |exists bE1; cbv -[B2R Rabs Ropp R0 IZR]; rewrite ?Rabs_Ropp; reflexivity
          |exists bE2; cbv -[B2R Rabs Ropp R0 IZR]; rewrite ?Rabs_Ropp; reflexivity
          |exists bE3; cbv -[B2R Rabs Ropp R0 IZR]; rewrite ?Rabs_Ropp; reflexivity
          |exists bE12; cbv -[B2R Rabs Ropp R0 IZR]; rewrite ?Rabs_Ropp; reflexivity
          |exists bE13; cbv -[B2R Rabs Ropp R0 IZR]; rewrite ?Rabs_Ropp; reflexivity
          |exists bE23; cbv -[B2R Rabs Ropp R0 IZR]; rewrite ?Rabs_Ropp; reflexivity
          |exists bE123; cbv -[B2R Rabs Ropp R0 IZR]; rewrite ?Rabs_Ropp; reflexivity].
Qed.
Lemma norm_within : forall t (x : val f64 t) e, all_finite t x -> cnorm (exactly t x) <= bpow radix2 e -> within e t x.
Proof.
  intros t x e F H. unfold within. pose proof (elems_comp t x) as C. unfold all_finite in F.
  revert F C. generalize (elems t x). induction l as [|v l IH]; intros F C; constructor; inversion F; inversion C; subst.
  - split; [assumption|]. destruct H6 as (k & ->). eapply Rle_trans; [apply comp_le_norm|exact H].
  - apply IH; assumption.
Qed.
Lemma scale_recip : forall t (x : val f64 t) (i : f64) D, 0 < D -> fin i = true -> all_finite t x ->
  Rabs (b2r i - / D) <= 12 * u53 * / D -> Forall (fun v : f64 => Rabs (b2r v) / D <= bpow radix2 1000) (elems t x) ->
  all_finite t (scale t i x) /\
  forall k, Rabs (exactly t (scale t i x) k - exactly t x k / D) <= 14 * u53 * (Rabs (exactly t x k) / D) + eta.
Proof.
  intros t x i D HD Fi Fx H B.
  assert (L : Forall2 (fun (v : f64) (p : R * R) => fin v = true /\ close (14 * u53) eta v p) (elems t (scale t i x)) (elems t (timesv (/ D) t x))).
  { unfold timesv. rewrite elems_scale, elems_mapv. unfold all_finite in Fx. revert Fx B. generalize (elems t x).
    induction l as [|v l IH]; intros F B; cbn [map]; constructor; inversion F; inversion B; subst; auto.
    destruct (recip_mult i v D HD Fi) as [G E]; auto. }
  split.
  - unfold all_finite. induction L as [|v p l m [Hv _] L IH]; constructor; auto.
  - intros k. pose proof u53_pos. pose proof eta_pos.
    assert (V : relv (close (14 * u53) eta) t (scale t i x) (timesv (/ D) t x)).
    { unfold relv. clear - L. induction L as [|v p l m [_ Hv] L IH]; constructor; auto. }
    assert (U : 0 <= 14 * u53) by lra.
    pose proof (den_close _ _ t _ _ U (Rlt_le _ _ H1) V k) as E.
    rewrite den_times, denp_times in E. exact E.
Qed.
Lemma tiny_lt : forall m : f64, fin m = true -> bpow radix2 (-1074) < b2r m -> Bltb (f64_lit 1 (-1074)) m = true.
Proof.
  intros m F H.
  assert (G : generic_format radix2 fexp64 (F2R (Float radix2 1 (-1074)))).
  { unfold F2R; cbn [Fnum Fexp]. rewrite Rmult_1_l. apply fmt_bpow; lia. }
  destruct (lit_exact 1 (-1074) G) as [A B].
  { unfold F2R; cbn [Fnum Fexp]. rewrite Rmult_1_l, Rabs_pos_eq by apply bpow_ge_0. apply bpow_lt; lia. }
  rewrite Bltb_correct by assumption. apply Rlt_bool_true. rewrite B. unfold F2R; cbn [Fnum Fexp]. rewrite Rmult_1_l. exact H.
Qed.
Lemma direction_accurate : forall t (x : val f64 t), all_finite t x ->
  bpow radix2 (-480) <= cnorm (exactly t x) <= bpow radix2 480 ->
  all_finite t (direction t x) /\
  forall k, Rabs (exactly t (direction t x) k - exactly t x k / cnorm (exactly t x))
    <= 14 * u53 * (Rabs (exactly t x k) / cnorm (exactly t x)) + eta.
Proof.
  intros t x F [H1 H2]. set (N := cnorm (exactly t x)) in *.
  assert (HN : 0 < N) by (eapply Rlt_le_trans; [apply bpow_gt_0|exact H1]).
  destruct (magSq_within 480 t x) as [Fm _]; [lia | apply norm_within; assumption|].
  destruct (magnitude_error t x Fm H1) as [Fg Eg]. fold N in Eg.
  assert (Eg' : Rabs (b2r (magnitude t x) - N) <= 10 * u53 * N).
  { eapply Rle_trans; [exact Eg|]. pose proof u53_pos. apply Rmult_le_compat_r; lra. }
  destruct (recip (magnitude t x) N) as [Fi Ei]; [|exact Eg'|].
  { split; [eapply Rle_trans; [|exact H1] | eapply Rle_trans; [exact H2|]]; apply bpow_le; lia. }
  assert (S : direction t x = scale t (Bdiv mode_NE (none_ : f64) (magnitude t x)) x).
  { unfold direction, pairMagDirFrom. cbn [snd].
    change (nltb lim_denorm_min (magnitude t x)) with (Bltb (f64_lit 1 (-1074)) (magnitude t x)).
    rewrite tiny_lt; [reflexivity | exact Fg|]. rewrite u53_val in Eg. apply Rabs_le_inv in Eg.
    apply Rlt_le_trans with (bpow radix2 (-481)); [apply bpow_lt; lia|].
    replace (-481)%Z with (-480 + -1)%Z by reflexivity. rewrite bpow_plus. change (bpow radix2 (-1)) with (/ 2). lra. }
  rewrite S. apply scale_recip; auto.
  pose proof (elems_comp t x) as C. induction C as [|v l [k Hk] C IH]; constructor; auto.
  rewrite Hk. apply Rle_trans with 1.
  - apply Rmult_le_reg_r with N; [exact HN|]. unfold Rdiv. rewrite Rmult_assoc, Rinv_l, Rmult_1_r, Rmult_1_l by lra. apply comp_le_norm.
  - change 1 with (bpow radix2 0). apply bpow_le; lia.
Qed.
Lemma reverse_exactly : forall t (x : val f64 t) k, exactly t (reverse t x) k = crev (exactly t x) k.
Proof.
  intros t x k. unfold exactly. destruct t; dvs; dblade k; cbv -[B2R Bopp Ropp R0 IZR]; rewrite ?B2R_Bopp; try ring; reflexivity.
Qed.
Lemma reverse_finite : forall t (x : val f64 t), all_finite t x -> all_finite t (reverse t x).
Proof.
  intros t x H. unfold all_finite in *. destruct t; dvs; cbv -[Bopp is_finite] in *; 
    repeat match goal with H : Forall _ (_ :: _) |- _ => inversion H; clear H; subst end;
    repeat constructor; rewrite ?is_finite_Bopp; auto.
Qed.
Lemma crev_abs : forall a k, Rabs (crev a k) = Rabs (a k).
Proof. intros a k. unfold crev. destruct (grade k) as [|[|n]]; rewrite ?Rabs_Ropp; reflexivity. Qed.
Lemma inverse_scale : forall t (x : val f64 t), all_finite t x ->
  bpow radix2 (-480) <= cnorm (exactly t x) <= bpow radix2 480 ->
  let y := scale t (ndiv 1%num (magSq t x)) (reverse t x) in all_finite t y /\
  forall k, Rabs (exactly t y k - crev (exactly t x) k / cnorm2 (exactly t x))
    <= 14 * u53 * (Rabs (exactly t x k) / cnorm2 (exactly t x)) + eta.
Proof.
  intros t x F [H1 H2]. pose proof (cnorm_sq' (exactly t x)) as Q. set (N := cnorm (exactly t x)) in *. set (D := cnorm2 (exactly t x)) in *.
  assert (HN : 0 < N) by (eapply Rlt_le_trans; [apply bpow_gt_0|exact H1]).
  destruct (magSq_within 480 t x) as [Fm _]; [lia | apply norm_within; assumption|].
  pose proof (magSq_rel_error t x Fm H1) as Eg. fold D in Eg.
  assert (HD : bpow radix2 (-960) <= D <= bpow radix2 960).
  { rewrite <- Q. split; [apply (sq_lower N (-480) H1) | apply (sq_upper N 480); lra]. }
  assert (PD : 0 < D) by (rewrite <- Q; apply Rmult_lt_0_compat; auto).
  destruct (recip (magSq t x) D) as [Fi Ei]; [|exact Eg|].
  { split; [eapply Rle_trans; [|apply HD] | eapply Rle_trans; [apply HD|]]; apply bpow_le; lia. }
  cbv zeta. destruct (scale_recip t (reverse t x) _ D PD Fi (reverse_finite t x F) Ei) as [G E].
  - pose proof (elems_comp t (reverse t x)) as C. induction C as [|v l [k Hk] C IH]; constructor; auto.
    rewrite Hk, reverse_exactly, crev_abs. apply Rle_trans with (/ N).
    + apply Rmult_le_reg_r with D; [exact PD|]. unfold Rdiv. rewrite Rmult_assoc, Rinv_l, Rmult_1_r, <- Q by lra.
      replace (/ N * (N * N)) with N by (field; lra). apply comp_le_norm.
    + apply Rle_trans with (bpow radix2 480); [|apply bpow_le; lia].
      rewrite <- (Rinv_inv (bpow radix2 480)), <- bpow_opp. apply Rinv_le_contravar; [apply bpow_gt_0|exact H1].
  - split; [exact G|]. intros k. specialize (E k). rewrite reverse_exactly, crev_abs in E. exact E.
Qed.
