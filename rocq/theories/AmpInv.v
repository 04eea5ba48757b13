(** * Inverse of multivectors on binary64: proofs. *)

Require Import Reals ZArith List Bool Lra Lia.
From Flocq Require Import Core BinarySingleNaN.
Require Import Verif.Num Verif.Types Verif.Priv Verif.OpsUni Verif.OpsAdd Verif.OpsSub
  Verif.OpsMul Verif.Const Verif.Func Verif.SpecCl Verif.SpecFunc Verif.RealInst Verif.AlgTac Verif.AlgMul Verif.AlgFacts Verif.FuncFacts Verif.ExpFacts Verif.Rel
  Verif.B64 Verif.B64Facts Verif.SpecRound Verif.ArrErr Verif.IntFacts Verif.SpecAcc Verif.BoundFacts Verif.ErrFacts Verif.AccFacts Verif.NormFacts Verif.ArrFacts
  Verif.SpecScale Verif.ScaleFacts Verif.ScaleThm Verif.SpecAmp Verif.AmpFacts Verif.AmpThm.
Import ListNotations.
Local Open Scope R_scope.

Definition invf {F : Type} {RF : Ring0 F} (z : ComPlex F) (m : MultiVector F) : MultiVector F :=
  add_Mvec_Mvec (mul_Sca_Mvec (cplxSca z) (dirverse_Mvec m)) (mul_Tri_Mvec (cplxTri z) (dirverse_Mvec m)).
Section InvRel.
Context {F G : Type} {RF : Ring0 F} {RG : Ring0 G} {R : F -> G -> Prop} (HR : ring_rel RF RG R).
Lemma invf_rel : forall z m z' m', relv R TCplx z z' -> relv R TMvec m m' -> relv R TMvec (invf z m) (invf z' m').
Proof.
  intros z m z' m' H1 H2; unfold relv in *; dvs; cbv -[nzero none_ nadd nsub nmul nopp] in *; inv2; repeat (apply Forall2_cons || apply Forall2_nil);
  repeat first [ assumption | exact (rr_zero _ _ _ HR) | exact (rr_one _ _ _ HR) | apply (rr_add _ _ _ HR)
  | apply (rr_sub _ _ _ HR) | apply (rr_mul _ _ _ HR) | apply (rr_opp _ _ _ HR)].
Qed.
End InvRel.
Lemma invf_denp : forall (z : ComPlex R) (m : MultiVector R), ceq (denp TMvec (@invf R Ring0_abs z m)) (gpp (denp TCplx z) (denp TMvec m)).
Proof. intros z m. dvals; intro k; dblade k; dring. Qed.
Lemma invf_cnt : forallb (cnt_le 2 2) (elems TMvec (@invf cnt Ring0_cnt (@constv cnt (Some (0%nat, 0%nat)) TCplx) (@constv cnt (Some (0%nat, 0%nat)) TMvec))) = true.
Proof. vm_compute. reflexivity. Qed.
Lemma invf_error : forall (z : ComPlex f64) (m : MultiVector f64), all_finite TMvec (@invf f64 Ring0_B z m) ->
  forall k, Rabs (exactly TMvec (@invf f64 Ring0_B z m) k - gp (exactly TCplx z) (cdir (exactly TMvec m)) k)
    <= 3 * u53 * (cnorm (exactly TCplx z) * cnorm (exactly TMvec m)) + 3 * eta.
Proof.
  intros z m F k. pose proof u53_pos. pose proof eta_pos.
  set (P := @invf trk Ring0_trk (track TCplx z) (track TMvec m)).
  pose proof (invf_rel errs_rel z m _ _ (track_errs TCplx z) (track_errs TMvec m)) as E. fold P in E.
  pose proof (invf_rel tc_rel _ _ _ _ (track_tc TCplx z) (track_tc TMvec m)) as C. fold P in C.
  pose proof (relv_mapv _ _ tv _ _ _ (invf_rel tv_rel _ _ _ _ (track_tv TCplx z) (track_tv TMvec m))) as V. fold P in V.
  pose proof (relv_mapv _ _ tm _ _ _ (invf_rel tm_rel _ _ _ _ (track_tm TCplx z) (track_tm TMvec m))) as M. fold P in M.
  pose proof (close_list 2 2 _ _ _ E C invf_cnt F) as L.
  set (A := (1 + u53) ^ 2 - 1) in *. set (B := INR 2 * (1 + u53) ^ 2 * eta) in *.
  assert (HA : 0 <= A <= 3 * u53) by (unfold A; rewrite u53_val; cbn [pow]; lra).
  assert (HB : 0 <= B <= 3 * eta).
  { unfold B. assert (Q : 0 <= INR 2 * (1 + u53) ^ 2 <= 3) by (rewrite u53_val; cbn [pow INR]; lra). split; [apply Rmult_le_pos; lra|apply Rmult_le_compat_r; lra]. }
  assert (V' : mapv (@fst R R) TMvec (mapv (fun p : trk => fst p) TMvec P) = mapv tv TMvec P) by apply mapv_mapv.
  assert (M' : mapv (@snd R R) TMvec (mapv (fun p : trk => fst p) TMvec P) = mapv tm TMvec P) by apply mapv_mapv.
  assert (D : Rabs (exactly TMvec (@invf f64 Ring0_B z m) k - den TMvec (mapv tv TMvec P) k) <= A * denp TMvec (mapv tm TMvec P) k + B).
  { rewrite <- V', <- M'. apply den_close; [lra|lra|]. unfold relv. rewrite elems_mapv. exact L. }
  rewrite V, M in D. pose proof (inv_mv_den (exactv TCplx z) (exactv TMvec m) k) as K. change (inv_mv (exactv TCplx z) (exactv TMvec m)) with (@invf R Ring0_R (exactv TCplx z) (exactv TMvec m)) in K.
  rewrite K, (invf_denp _ _ k) in D.
  assert (G : gpp (denp TCplx (absv TCplx z)) (denp TMvec (absv TMvec m)) k = gp_abs (exactly TCplx z) (exactly TMvec m) k).
  { unfold gpp, gp_abs. f_equal. apply map_ext. intros i. rewrite !den_abs. reflexivity. }
  rewrite G in D. change (den TCplx (exactv TCplx z)) with (exactly TCplx z) in D. change (den TMvec (exactv TMvec m)) with (exactly TMvec m) in D.
  eapply Rle_trans; [exact D|]. apply Rplus_le_compat; [|apply HB].
  pose proof (gp_abs_norm (exactly TCplx z) (exactly TMvec m) k) as T.
  assert (Gp : 0 <= gp_abs (exactly TCplx z) (exactly TMvec m) k).
  { unfold gp_abs. generalize all_blades. induction l; cbn [map rsum fold_right]; [lra|]. apply Rplus_le_le_0_compat; [apply Rmult_le_pos; apply Rabs_pos|exact IHl]. }
  apply Rmult_le_compat; lra.
Qed.
Lemma invf_within : forall ea eb (z : ComPlex f64) (m : MultiVector f64), (-1074 <= ea + eb)%Z -> (ea + eb + 3 <= 1023)%Z -> within ea TCplx z -> within eb TMvec m ->
  all_finite TMvec (@invf f64 Ring0_B z m).
Proof.
  intros ea eb z m H1 H2 Hz Hm.
  pose proof (@invf_rel f64 (tag) Ring0_B (Ring0_tag false) _ (bounded_rel ea eb false ltac:(discriminate)) z m _ _ (within_L1 ea eb false TCplx z Hz) (within_L2 ea eb false TMvec m Hm)) as H.
  pose proof (prod_list ea eb false _ _ H1 H2 H ltac:(vm_compute; reflexivity)) as K. eapply Forall_impl; [|exact K]. intros v [F _]. exact F.
Qed.
Lemma cdir_norm a : cnorm (cdir a) = cnorm a.
Proof. unfold cnorm, cnorm2. f_equal. cbn [map all_blades rsum fold_right]. unfold cdir. cbn. ring. Qed.

(** An element has an inverse iff its squared amplitude is not zero. *)
Lemma cdir_invol a : ceq (cdir (cdir a)) a.
Proof. intros k. unfold cdir. dblade k; dring. Qed.
Lemma no_inverse X : ampz X = (0, 0) -> ~ exists Y, ceq (gp X Y) cone.
Proof.
  intros H [Y E]. assert (H0 : ceq (gp X (cdir X)) czero) by (rewrite (ampz_cl X), H; intros k; dblade k; unfold zcl, czero; cbn; ring).
  assert (D : ceq (cdir X) czero).
  { transitivity (gp (cdir X) (gp X Y)); [rewrite E; symmetry; apply gp_one_r|]. rewrite <- gp_assoc, <- gp_cdir_comm, H0. intros k; dblade k; dring. }
  assert (Z : ceq X czero) by (rewrite <- (cdir_invol X), D; intros k; unfold cdir, czero; dblade k; dring).
  rewrite Z in E. pose proof (E bS) as E0. cbv -[Rplus Rmult Ropp R0 R1 IZR] in E0. lra.
Qed.
Lemma has_inverse X : fst (ampz X) <> 0 \/ snd (ampz X) <> 0 -> exists Y, ceq (gp X Y) cone.
Proof.
  intros H. assert (P : 0 < fst (ampz X) * fst (ampz X) + snd (ampz X) * snd (ampz X)).
  { pose proof (Rle_0_sqr (fst (ampz X))); pose proof (Rle_0_sqr (snd (ampz X))). destruct H as [H|H]; apply Rsqr_pos_lt in H; unfold Rsqr in *; lra. }
  pose proof (ampz_cl X) as A. destruct (ampz X) as [p q]. cbn [fst snd] in P.
  exists (gp (cdir X) (zcl (p / (p * p + q * q), - q / (p * p + q * q)))).
  rewrite <- gp_assoc, A, zcl_gp. intros k. unfold zmul. cbn [fst snd]. dblade k; unfold zcl, cone; cbn; try reflexivity; field; lra.
Qed.

Section WithLib.
Context (L : Libm f64) (eps : R) (He : 0 <= eps <= bpow radix2 (-10)) (HL : complex_within eps L).
Lemma inverse_Mvec_core : forall (x : MultiVector f64) dl, all_finite TMvec x ->
  let X := exactly TMvec x in let c := cnorm (gp X (cdir X)) in
  let z := (sca_0 (cplxSca (ampSq_Mvec x)), tri_0 (cplxTri (ampSq_Mvec x))) in
  cnorm X <= bpow radix2 50 -> bpow radix2 (-100) <= c -> zfin z -> zabs (zsub (zof z) (ampz X)) <= dl -> dl <= c / 8 ->
  let Y := exactly TMvec (inverse_Mvec x) in
  all_finite TMvec (inverse_Mvec x) /\
  cnorm (csub (gp X Y) cone) <= 4 * eps + 21 * u53 * (cnorm2 X / c) + 116 / 100 * (dl / c) /\
  cnorm (csub (gp Y X) cone) <= 4 * eps + 21 * u53 * (cnorm2 X / c) + 116 / 100 * (dl / c).
Proof.
  intros x dl F X c z B1 B2 Fz Ez K Y. pose proof u53_pos as U.
  assert (Ec : c = zabs (ampz X)) by (unfold c; rewrite (cnorm_ceq _ _ (ampz_cl X)); apply zcl_norm).
  assert (Pc : 0 < c) by (pose proof (bpow_gt_0 radix2 (-100)); lra).
  pose proof (amp_size TMvec ampSq_Mvec x eq_refl) as S. fold X in S. rewrite <- Ec in S. pose proof (cnorm_sq' X) as SQ. pose proof (sqrt_pos (cnorm2 X) : 0 <= cnorm X) as PX.
  pose proof (cnorm2_nonneg X) as PN.
  assert (Z1 : zabs (zof z) <= 9 / 8 * c) by (pose proof (zabs_near (zof z) (ampz X)); lra).
  assert (Z2 : 7 / 8 * c <= zabs (zof z)) by (pose proof (zabs_near (ampz X) (zof z)) as Q; rewrite zabs_swap in Q; lra).
  assert (N100 : cnorm2 X <= bpow radix2 100) by (rewrite <- SQ; apply (sq_upper _ 50); split; assumption).
  destruct (cinv_error L eps He HL z Fz) as [Fw Ew].
  { split; [apply Rle_trans with (bpow radix2 (-1) * bpow radix2 (-100)); [rewrite <- bpow_plus; apply bpow_le; lia|change (bpow radix2 (-1)) with (/ 2); lra]|].
    apply Rle_trans with (bpow radix2 1 * bpow radix2 100); [change (bpow radix2 1) with 2; lra|rewrite <- bpow_plus; apply bpow_le; lia]. }
  assert (Ei : mkCplx (Sca (fst z)) (Tri (snd z)) = ampSq_Mvec x) by (unfold z; destruct (ampSq_Mvec x) as [[[s]] [[t]]]; reflexivity).
  rewrite Ei in Fw, Ew. set (y := inverse_Cplx (ampSq_Mvec x)) in *. set (w := (sca_0 (cplxSca y), tri_0 (cplxTri y))) in *.
  assert (Ey : inverse_Mvec x = @invf f64 Ring0_B y x) by reflexivity.
  assert (Yw : exactly TCplx y = zcl (zof w)) by apply zcl_cplx.
  assert (B10 : bpow radix2 (-10) = / 1024) by reflexivity. pose proof He as [He0 He1]. rewrite B10 in He1.
  assert (W1 : zabs (zof z) * zabs (zof w) <= 1 + 4 * eps).
  { pose proof (zabs_near (zmul (zof z) (zof w)) (1, 0)) as Q. rewrite zabs_real, zabs_mul in Q by lra. lra. }
  assert (W2 : 1 - 4 * eps <= zabs (zof z) * zabs (zof w)).
  { pose proof (zabs_near (1, 0) (zmul (zof z) (zof w))) as Q. rewrite zabs_swap, zabs_real, zabs_mul in Q by lra. lra. }
  pose proof (zabs_pos (zof w)) as Pw.
  assert (W3 : c * zabs (zof w) <= 116 / 100) by nra.
  assert (W4 : 8 / 10 <= c * zabs (zof w)) by nra.
  assert (Wb : zabs (zof w) <= bpow radix2 101).
  { assert (bpow radix2 (-100) * zabs (zof w) <= 2) by nra. assert (Q : bpow radix2 100 * (bpow radix2 (-100) * zabs (zof w)) <= bpow radix2 100 * 2) by (apply Rmult_le_compat_l; [apply bpow_ge_0|lra]).
    rewrite <- Rmult_assoc, <- bpow_plus in Q. change (bpow radix2 (100 + -100)) with 1 in Q. change 101%Z with (100 + 1)%Z. rewrite bpow_plus. change (bpow radix2 1) with 2. lra. }
  assert (FY : all_finite TMvec (inverse_Mvec x)).
  { rewrite Ey. apply (invf_within 101 50); [lia|lia| |apply norm_within; assumption]. apply norm_within; [|rewrite Yw, zcl_norm; exact Wb].
    unfold all_finite. destruct y as [[[s]] [[t]]]. destruct Fw. repeat (apply Forall_cons || apply Forall_nil); assumption. }
  split; [exact FY|]. rewrite Ey in FY.
  pose proof (invf_error y x FY) as IE. fold X in IE. rewrite Yw, zcl_norm in IE.
  assert (Pq : bpow radix2 (-1000) <= zabs (zof w) * cnorm X).
  { apply Rle_trans with (bpow radix2 (-103)); [apply bpow_le; lia|]. replace (-103)%Z with (-1 + - (102))%Z by lia. rewrite bpow_plus, bpow_opp. change (bpow radix2 (-1)) with (/ 2).
    assert (Hc : c <= bpow radix2 51 * cnorm X).
    { apply Rle_trans with (2 * (cnorm X * cnorm X)); [lra|]. change 51%Z with (1 + 50)%Z. rewrite bpow_plus. change (bpow radix2 1) with 2. rewrite Rmult_assoc. apply Rmult_le_compat_l; [lra|]. apply Rmult_le_compat_r; assumption. }
    assert (I : 8 / 10 <= bpow radix2 51 * (zabs (zof w) * cnorm X)).
    { apply Rle_trans with (1 := W4). replace (bpow radix2 51 * (zabs (zof w) * cnorm X)) with (bpow radix2 51 * cnorm X * zabs (zof w)) by ring. apply Rmult_le_compat_r; assumption. }
    pose proof (bpow_gt_0 radix2 102) as P2. apply Rmult_le_reg_l with (bpow radix2 102); [exact P2|]. rewrite (Rmult_comm (/ 2)), <- Rmult_assoc, Rinv_r, Rmult_1_l by lra.
    apply Rle_trans with (8 / 10); [lra|]. eapply Rle_trans; [exact I|]. apply Rmult_le_compat_r; [apply Rmult_le_pos; assumption|]. apply bpow_le; lia. }
  pose proof (eta_rel _ Pq) as Et.
  assert (Pwx : 0 <= zabs (zof w) * cnorm X) by (apply Rmult_le_pos; assumption).
  set (E := csub (exactly TMvec (@invf f64 Ring0_B y x)) (gp (zcl (zof w)) (cdir X))).
  assert (NE : cnorm E <= 9 * u53 * (zabs (zof w) * cnorm X)).
  { eapply Rle_trans; [apply (norm_of_bound E (3 * u53 * (zabs (zof w) * cnorm X) + 3 * eta))|].
    - pose proof eta_pos. assert (0 <= u53 * (zabs (zof w) * cnorm X)) by (apply Rmult_le_pos; lra). lra.
    - intros k. apply IE.
    - assert (0 <= u53 * (zabs (zof w) * cnorm X)) by (apply Rmult_le_pos; lra). lra. }
  assert (R1 : zabs (zsub (zmul (ampz X) (zof w)) (1, 0)) <= dl * zabs (zof w) + 4 * eps).
  { replace (zsub (zmul (ampz X) (zof w)) (1, 0)) with (zadd (zmul (zsub (ampz X) (zof z)) (zof w)) (zsub (zmul (zof z) (zof w)) (1, 0))).
    - eapply Rle_trans; [apply zabs_tri|]. rewrite zabs_mul, zabs_swap. apply Rplus_le_compat; [apply Rmult_le_compat_r; assumption|exact Ew].
    - unfold zadd, zsub, zmul. cbn [fst snd]. f_equal; ring. }
  assert (Q0 : cnorm2 X * zabs (zof w) <= 116 / 100 * (cnorm2 X / c)).
  { replace (116 / 100 * (cnorm2 X / c)) with (cnorm2 X * (116 / 100 * / c)) by (field; lra). apply Rmult_le_compat_l; [exact PN|].
    apply Rmult_le_reg_l with c; [exact Pc|]. replace (c * (116 / 100 * / c)) with (116 / 100) by (field; lra). exact W3. }
  assert (Q2 : dl * zabs (zof w) <= 116 / 100 * (dl / c)).
  { replace (116 / 100 * (dl / c)) with (dl * (116 / 100 * / c)) by (field; lra). apply Rmult_le_compat_l; [pose proof (zabs_pos (zsub (zof z) (ampz X))); lra|].
    apply Rmult_le_reg_l with c; [exact Pc|]. replace (c * (116 / 100 * / c)) with (116 / 100) by (field; lra). exact W3. }
  assert (Q1 : 0 <= cnorm2 X / c) by (apply Rmult_le_pos; [exact PN|apply Rlt_le, Rinv_0_lt_compat, Pc]).
  assert (T : 2 * cnorm X * cnorm E + zabs (zsub (zmul (ampz X) (zof w)) (1, 0)) <= 4 * eps + 21 * u53 * (cnorm2 X / c) + 116 / 100 * (dl / c)).
  { assert (2 * cnorm X * cnorm E <= 2 * cnorm X * (9 * u53 * (zabs (zof w) * cnorm X))) by (apply Rmult_le_compat_l; lra).
    replace (2 * cnorm X * (9 * u53 * (zabs (zof w) * cnorm X))) with (18 * u53 * (cnorm2 X * zabs (zof w))) in H by (rewrite <- SQ; ring).
    assert (u53 * (cnorm2 X * zabs (zof w)) <= u53 * (116 / 100 * (cnorm2 X / c))) by (apply Rmult_le_compat_l; lra).
    assert (0 <= u53 * (cnorm2 X / c)) by (apply Rmult_le_pos; lra). lra. }
  unfold Y. rewrite Ey.
  assert (CY : ceq (exactly TMvec (@invf f64 Ring0_B y x)) (cadd E (gp (zcl (zof w)) (cdir X)))) by (intros k; unfold E, cadd, csub; ring).
  assert (ZC : ceq (csub (gp (zcl (ampz X)) (zcl (zof w))) cone) (zcl (zsub (zmul (ampz X) (zof w)) (1, 0)))).
  { intros k. transitivity (csub (zcl (zmul (ampz X) (zof w))) (zcl (1, 0)) k); [|apply zcl_sub]. unfold csub. rewrite (zcl_gp _ _ k). f_equal. f_equal. dblade k; unfold zcl; dring. }
  assert (ZM : forall a, ceq (gp (zcl (zof w)) a) (gp a (zcl (zof w)))) by (intros a; apply den_cplx_central).
  split.
  - assert (D : ceq (csub (gp X (exactly TMvec (@invf f64 Ring0_B y x))) cone) (cadd (gp X E) (zcl (zsub (zmul (ampz X) (zof w)) (1, 0))))).
    { rewrite CY. rewrite <- ZC. rewrite <- (ampz_cl X), (ZM (cdir X)), (gp_assoc X), gp_add_r. intros k. unfold csub, cadd. ring. }
    rewrite (cnorm_ceq _ _ D). eapply Rle_trans; [apply cnorm_triangle|]. rewrite zcl_norm. pose proof (cnorm_gp_le X E). lra.
  - assert (D : ceq (csub (gp (exactly TMvec (@invf f64 Ring0_B y x)) X) cone) (cadd (gp E X) (zcl (zsub (zmul (ampz X) (zof w)) (1, 0))))).
    { rewrite CY. rewrite <- ZC. rewrite <- ZM, <- (ampz_cl X), gp_cdir_comm, <- (gp_assoc (zcl (zof w))), gp_add_l. intros k. unfold csub, cadd. ring. }
    rewrite (cnorm_ceq _ _ D). eapply Rle_trans; [apply cnorm_triangle|]. rewrite zcl_norm. pose proof (cnorm_gp_le E X). lra.
Qed.
Lemma inverse_Mvec_error : forall x : MultiVector f64, all_finite TMvec x ->
  let X := exactly TMvec x in let c := cnorm (gp X (cdir X)) in
  cnorm X <= bpow radix2 50 -> bpow radix2 (-100) <= c -> cnorm2 X <= bpow radix2 46 * c ->
  let Y := exactly TMvec (inverse_Mvec x) in
  all_finite TMvec (inverse_Mvec x) /\
  cnorm (csub (gp X Y) cone) <= 4 * eps + 40 * unit_roundoff * (cnorm2 X / c) /\
  cnorm (csub (gp Y X) cone) <= 4 * eps + 40 * unit_roundoff * (cnorm2 X / c).
Proof.
  intros x F X c B1 B2 B3 Y. change unit_roundoff with u53. pose proof u53_pos as U.
  assert (Ec : c = zabs (ampz X)) by (unfold c; rewrite (cnorm_ceq _ _ (ampz_cl X)); apply zcl_norm).
  assert (Pc : 0 < c) by (pose proof (bpow_gt_0 radix2 (-100)); lra).
  pose proof (amp_size TMvec ampSq_Mvec x eq_refl) as S. fold X in S. rewrite <- Ec in S. pose proof (cnorm_sq' X) as SQ. pose proof (sqrt_pos (cnorm2 X) : 0 <= cnorm X) as PX.
  pose proof (cnorm2_nonneg X) as PN.
  assert (B0 : bpow radix2 (-51) <= cnorm X).
  { apply Rsqr_incr_0_var; [|exact PX]. unfold Rsqr. rewrite SQ, <- bpow_plus. apply Rle_trans with (bpow radix2 (-2) * bpow radix2 (-100)); [rewrite <- bpow_plus; apply bpow_le; lia|].
    change (bpow radix2 (-2)) with (/ 4). lra. }
  destruct (amp_close TMvec ampSq_Mvec x eq_refl F) as [Fz Ez].
  { split; [eapply Rle_trans; [|exact B0]|eapply Rle_trans; [exact B1|]]; apply bpow_le; lia. }
  fold X in Ez.
  assert (K : 14 * u53 * cnorm2 X <= c / 8).
  { apply Rle_trans with (14 * u53 * (bpow radix2 46 * c)); [apply Rmult_le_compat_l; lra|]. rewrite u53_val. change (bpow radix2 46) with 70368744177664. lra. }
  destruct (inverse_Mvec_core x (14 * u53 * cnorm2 X) F B1 B2 Fz Ez K) as (G1 & G2 & G3). fold X in G2, G3. fold c in G2, G3. fold Y in G2, G3.
  replace (14 * u53 * cnorm2 X / c) with (14 * u53 * (cnorm2 X / c)) in G2, G3 by (unfold Rdiv; ring).
  assert (Q : 0 <= u53 * (cnorm2 X / c)) by (apply Rmult_le_pos; [lra|]; apply Rmult_le_pos; [exact PN|apply Rlt_le, Rinv_0_lt_compat, Pc]).
  split; [exact G1|]. split; lra.
Qed.

(** Small integers: the squared amplitude is exact. *)
Definition zdbl (z : Z) : Z := (2 * z)%Z.
Lemma ampSq_integer : forall t f (x : val f64 t), ampSq t = Some f -> small_integers t x ->
  let X := exactly t x in let z := (sca_0 (cplxSca (f x)), tri_0 (cplxTri (f x))) in
  zfin z /\ zof z = ampz X /\ exists n m, zof z = (IZR n, IZR m).
Proof.
  intros t f x Hf Hx X. rewrite (amps_f64 t f x Hf). cbn [sca_0 cplxSca scaData at0 tri_0 cplxTri triData].
  set (pdbl := fun p : RZ => (2 * fst p, (2 * snd p)%Z) : RZ).
  assert (GD : forall v p, IntFacts.good v p -> IntFacts.good (dbl64 v) (pdbl p)).
  { intros v [p pb] [P1 Hp]. unfold IntFacts.good, pdbl in *. cbn [fst snd] in *. split; [lia|]. intros B. destruct Hp as (Fv & n & E & Bn & V); [lia|].
    destruct two_ok as [F2 V2]. assert (Q : B2R two64 * B2R v = IZR (2 * n)) by (rewrite V2, V, E, mult_IZR; reflexivity).
    assert (LT : Rabs (rnd64 (B2R two64 * B2R v)) < bpow radix2 1024) by (rewrite Q, rnd_int by lia; apply int_lt; lia).
    destruct (bmult_ok two64 v F2 Fv LT) as [Fm Em]. split; [exact Fm|]. exists (2 * n)%Z. unfold dbl64. rewrite Em, Q, rnd_int, E, mult_IZR by lia. repeat split. lia. }
  pose proof (@amps_rel f64 RZ Ring0_B Ring0_RZ _ good_rel dbl64 pdbl GD t _ _ (pairs_good t x Hx)) as [G1 G2].
  pose proof (@amps_rel RZ R Ring0_RZ Ring0_R _ fst_rel pdbl rdbl ltac:(unfold isfst; intros p r <-; reflexivity) t _ _ (pairs_fst t x)) as [P1 P2].
  pose proof (@amps_rel RZ Z Ring0_RZ Ring0_bound _ snd_rel pdbl zdbl ltac:(unfold issnd; intros p r <-; reflexivity) t _ _ (pairs_snd t x)) as [S1 S2].
  rewrite mapv_const in S1, S2. unfold isfst, issnd in *.
  assert (N : t <> TDub) by (intros ->; discriminate Hf).
  assert (BB : (fst (@amps Z Ring0_bound zdbl t (constv (2 ^ 24)%Z t)) <= 2 ^ 53)%Z /\ (snd (@amps Z Ring0_bound zdbl t (constv (2 ^ 24)%Z t)) <= 2 ^ 53)%Z).
  { clear. split; apply Z.leb_le; destruct t; vm_compute; reflexivity. }
  rewrite <- S1, <- S2 in BB. destruct BB as [BB1 BB2]. destruct G1 as [_ G1], G2 as [_ G2]. destruct (G1 BB1) as (F1 & n1 & A1 & _ & E1). destruct (G2 BB2) as (F2 & n2 & A2 & _ & E2).
  split; [split; assumption|]. pose proof (amps_exact t (exactv t x) N) as D. change (den t (exactv t x)) with X in D.
  assert (D1 : fst (@amps R Ring0_R rdbl t (exactv t x)) = gp X (cdir X) bS) by exact (D bS).
  assert (D2 : snd (@amps R Ring0_R rdbl t (exactv t x)) = gp X (cdir X) bT) by exact (D bT).
  split.
  - transitivity (b2r (fst (@amps f64 Ring0_B dbl64 t x)), b2r (snd (@amps f64 Ring0_B dbl64 t x))); [reflexivity|]. rewrite E1, E2, P1, P2, D1, D2. rewrite (ampz_cl X bS), (ampz_cl X bT). destruct (ampz X). reflexivity.
  - exists n1, n2. transitivity (b2r (fst (@amps f64 Ring0_B dbl64 t x)), b2r (snd (@amps f64 Ring0_B dbl64 t x))); [reflexivity|]. rewrite E1, E2, A1, A2. reflexivity.
Qed.
Lemma nan_l : forall v : f64, Bmult mode_NE (B754_nan : f64) v = B754_nan.
Proof. intros v; destruct v; reflexivity. Qed.
Lemma null_if_singular : forall x : MultiVector f64, small_integers TMvec x -> ampz (exactly TMvec x) = (0, 0) -> Forall (fun v : f64 => is_nan v = true) (elems TMvec (inverse_Mvec x)).
Proof.
  intros x Hx Hs. destruct (ampSq_integer TMvec ampSq_Mvec x eq_refl Hx) as [Fz [Vz _]]. rewrite Hs in Vz.
  set (z := (sca_0 (cplxSca (ampSq_Mvec x)), tri_0 (cplxTri (ampSq_Mvec x)))) in *.
  assert (Ei : mkCplx (Sca (fst z)) (Tri (snd z)) = ampSq_Mvec x) by (unfold z; destruct (ampSq_Mvec x) as [[[s]] [[t]]]; reflexivity).
  destruct HL as [_ _ _ _ [ZM ZA]]. destruct (ZM z (std_conj z) Fz (std_conj_fin z Fz) Vz) as [Fm Vm]. destruct (ZA _ Fm Vm) as [Fa Va].
  assert (Nu : inverse_Cplx (ampSq_Mvec x) = null_Cplx).
  { rewrite <- Ei, inverse_form. destruct min_lit as [Fl Vl].
    replace (nltb (lim_min : f64) (mcabs (mcmul z (std_conj z)))) with false; [reflexivity|]. symmetry.
    change (Bltb (lim_min : f64) (mcabs (mcmul z (std_conj z))) = false). rewrite Bltb_correct by assumption. rewrite Va, Vl. apply Rlt_bool_false, bpow_ge_0. }
  change (inverse_Mvec x) with (@invf f64 Ring0_B (inverse_Cplx (ampSq_Mvec x)) x). rewrite Nu. clear. dvs. cbv -[Bmult Bplus Bminus Bopp is_nan]. change (Bopp (B754_nan : f64)) with (B754_nan : f64). rewrite !nan_l. repeat (apply Forall_cons || apply Forall_nil); reflexivity.
Qed.
Lemma inverse_integer : forall x : MultiVector f64, small_integers TMvec x ->
  let X := exactly TMvec x in let c := cnorm (gp X (cdir X)) in let Y := exactly TMvec (inverse_Mvec x) in
  ((exists Z, ceq (gp X Z) cone) ->
    all_finite TMvec (inverse_Mvec x) /\
    cnorm (csub (gp X Y) cone) <= 4 * eps + 21 * unit_roundoff * (cnorm2 X / c) /\
    cnorm (csub (gp Y X) cone) <= 4 * eps + 21 * unit_roundoff * (cnorm2 X / c)) /\
  ((~ exists Z, ceq (gp X Z) cone) -> Forall (fun v : f64 => is_nan v = true) (elems TMvec (inverse_Mvec x))).
Proof.
  intros x Hx X c Y. change unit_roundoff with u53. destruct (ampSq_integer TMvec ampSq_Mvec x eq_refl Hx) as [Fz [Vz [n [m In]]]]. fold X in Vz.
  set (z := (sca_0 (cplxSca (ampSq_Mvec x)), tri_0 (cplxTri (ampSq_Mvec x)))) in *. split.
  - intros Hi. assert (Fx : all_finite TMvec x). { eapply Forall_impl; [|exact Hx]. intros v [A _]. exact A. }
    assert (Bx : forall k, Rabs (X k) <= bpow radix2 24).
    { assert (HB : Forall (fun v : f64 => Rabs (B2R v) <= bpow radix2 24) (elems TMvec x)).
      { eapply Forall_impl; [|exact Hx]. intros v (_ & q & A & ->). rewrite <- abs_IZR. change (bpow radix2 24) with (IZR (2 ^ 24)). apply IZR_le, A. }
      unfold X, exactly. clear -HB. dvs. cbv -[B2R Rabs Ropp R0 IZR bpow Rle f64] in HB. repeat match goal with Q : Forall _ (_ :: _) |- _ => inversion Q; clear Q; subst end. intros k. dblade k; cbv -[B2R Rabs Ropp R0 IZR bpow Rle f64]; rewrite ?Rabs_Ropp; assumption. }
    assert (Ec : c = zabs (ampz X)) by (unfold c; rewrite (cnorm_ceq _ _ (ampz_cl X)); apply zcl_norm).
    assert (C1 : 1 <= c).
    { rewrite Ec, <- Vz, In. apply Rsqr_incr_0_var; [|apply zabs_pos]. unfold Rsqr. rewrite zabs_sq. cbn [fst snd]. rewrite <- !mult_IZR, <- plus_IZR. apply IZR_le.
      assert (n <> 0 \/ m <> 0)%Z; [|nia]. destruct (Z.eq_dec n 0) as [->|]; [|lia]. destruct (Z.eq_dec m 0) as [->|]; [|lia]. exfalso. revert Hi. apply no_inverse.
      rewrite <- Vz, In. reflexivity. }
    destruct (inverse_Mvec_core x 0 Fx) as (G1 & G2 & G3).
    + eapply Rle_trans; [apply (norm_of_bound (exactly TMvec x) (bpow radix2 24)); [apply bpow_ge_0|exact Bx]|].
      apply Rle_trans with (bpow radix2 2 * bpow radix2 24); [change (bpow radix2 2) with 4; pose proof (bpow_ge_0 radix2 24); lra|]. rewrite <- bpow_plus. apply bpow_le. lia.
    + fold X. fold c. apply Rle_trans with (2 := C1). change 1 with (bpow radix2 0). apply bpow_le. lia.
    + exact Fz.
    + fold z. fold X. rewrite Vz. replace (zsub (ampz X) (ampz X)) with (0, 0) by (unfold zsub; f_equal; ring). rewrite zabs_real; lra.
    + fold X. fold c. lra.
    + fold X in G2, G3. fold c in G2, G3. fold Y in G2, G3. split; [exact G1|]. unfold Rdiv in G2, G3. rewrite ?Rmult_0_l, ?Rmult_0_r, ?Rplus_0_r in G2, G3. split; assumption.
  - intros Hn. apply null_if_singular; [exact Hx|]. fold X.
    destruct (Req_dec (fst (ampz X)) 0) as [Z1|Z1]; [destruct (Req_dec (snd (ampz X)) 0) as [Z2|Z2]|].
    + destruct (ampz X) as [p q]. cbn [fst snd] in Z1, Z2. rewrite Z1, Z2. reflexivity.
    + exfalso. apply Hn, has_inverse. tauto.
    + exfalso. apply Hn, has_inverse. tauto.
Qed.

(** For scalars, bivectors and spinors the amplitude is the magnitude. *)
Lemma even_amp : forall t (x : val f64 t), t = TSca \/ t = TBiv \/ t = TSpin -> ampz (exactly t x) = (cnorm2 (exactly t x), 0).
Proof.
  intros t x H. unfold exactly. destruct H as [->|[->| ->]]; dvals; unfold ampz; f_equal; unfold cnorm2; cbn [map all_blades rsum fold_right]; dring.
Qed.
Lemma zcl_scale : forall r, ceq (cscale r cone) (zcl (r, 0)).
Proof. intros r k. dblade k; unfold zcl, cscale; dring. Qed.
Lemma amplitude_even : forall t f (x : val f64 t), t = TSca \/ t = TBiv \/ t = TSpin -> amplitude t = Some f -> all_finite t x ->
  bpow radix2 (-400) <= cnorm (exactly t x) <= bpow radix2 400 ->
  let X := exactly t x in let A := exactly TCplx (f x) in
  cnorm (csub A (cscale (cnorm X) cone)) <= (2 * eps + 15 * unit_roundoff) * cnorm X.
Proof.
  intros t f x Ht Hf F B X A. unfold amplitude in Hf. destruct (ampSq t) as [g|] eqn:Hg; [|discriminate Hf]. injection Hf as <-.
  destruct (amp_close t g x Hg F B) as [Fz Ez]. fold X in Ez. fold X in B. rewrite (even_amp t x Ht : ampz X = _) in Ez. fold X in Ez. set (z := (sca_0 (cplxSca (g x)), tri_0 (cplxTri (g x)))) in *.
  change unit_roundoff with u53. pose proof u53_pos as U. pose proof (cnorm2_nonneg X) as PN. pose proof (cnorm_sq' X) as SQ.
  assert (U3 : u53 <= / 1000000) by (rewrite u53_val; lra). assert (UN : 0 <= u53 * cnorm2 X) by (apply Rmult_le_pos; lra).
  assert (Hz : zabs (zof z) <= 2 * cnorm2 X) by (pose proof (zabs_near (zof z) (cnorm2 X, 0)) as Q; rewrite zabs_real in Q by exact PN; nra).
  assert (Hn : cnorm2 X <= bpow radix2 800) by (rewrite <- SQ; apply (sq_upper _ 400); split; [apply sqrt_pos|apply B]).
  destruct (sqrt_within eps L HL z Fz) as (Fr & s & Es & Ps & Er).
  { eapply Rle_trans; [exact Hz|]. apply Rle_trans with (bpow radix2 1 * bpow radix2 800); [change (bpow radix2 1) with 2; pose proof (bpow_ge_0 radix2 800); lra|].
    rewrite <- bpow_plus. apply bpow_le. lia. }
  assert (Ht' : bpow radix2 (-500) <= u53 / 10 * cnorm X).
  { apply Rle_trans with (bpow radix2 (-57) * bpow radix2 (-400)); [rewrite <- bpow_plus; apply bpow_le; lia|]. apply Rmult_le_compat; try apply bpow_ge_0; [|apply B].
    rewrite u53_val. change (bpow radix2 (-57)) with (/ 144115188075855872). lra. }
  assert (Pn : 0 < cnorm X) by (pose proof (bpow_gt_0 radix2 (-400)); lra). set (n := cnorm X) in *.
  assert (S1 : zabs (zsub s (n, 0)) <= 14 * u53 * n).
  { assert (M : zabs (zsub s (n, 0)) * zabs (zadd s (n, 0)) = zabs (zsub (zof z) (cnorm2 X, 0))).
    { rewrite <- zabs_mul. f_equal. rewrite <- Es, <- SQ. unfold zsub, zadd, zmul. cbn [fst snd]. f_equal; ring. }
    assert (P : n <= zabs (zadd s (n, 0))). { pose proof (zfst_le (zadd s (n, 0))) as Q. unfold zadd at 1 in Q. cbn [fst] in Q. pose proof (Rle_abs (fst s + n)). lra. }
    pose proof (zabs_pos (zsub s (n, 0))) as P0. apply Rmult_le_reg_r with n; [exact Pn|].
    apply Rle_trans with (zabs (zsub s (n, 0)) * zabs (zadd s (n, 0))); [apply Rmult_le_compat_l; assumption|]. rewrite M. eapply Rle_trans; [exact Ez|]. rewrite <- SQ. lra. }
  assert (S2 : zabs s <= 101 / 100 * n). { pose proof (zabs_near s (n, 0)) as Q. rewrite zabs_real in Q by lra. nra. }
  assert (EA : A = zcl (zof (mcsqrt z))) by (unfold A; rewrite zcl_cplx; unfold amplitude_of; fold z; destruct (mcsqrt z); reflexivity).
  rewrite EA. rewrite (cnorm_ceq _ (zcl (zsub (zof (mcsqrt z)) (n, 0)))).
  - rewrite zcl_norm. eapply Rle_trans; [apply (zabs_sub _ _ s)|]. assert (eps * zabs s <= eps * (101 / 100 * n)) by (apply Rmult_le_compat_l; lra).
    assert (0 <= eps * n) by (apply Rmult_le_pos; lra). assert (0 <= u53 * n) by (apply Rmult_le_pos; lra). lra.
  - intros k. rewrite <- (zcl_sub _ _ k). unfold csub. rewrite (zcl_scale n k). reflexivity.
Qed.
End WithLib.

(** ** Squared amplitude, as elements of the algebra *)
Lemma ampSq_norm : forall t f (x : val f64 t), ampSq t = Some f -> all_finite t x -> bpow radix2 (-400) <= cnorm (exactly t x) <= bpow radix2 400 ->
  let X := exactly t x in all_finite TCplx (f x) /\ cnorm (csub (exactly TCplx (f x)) (gp X (cdir X))) <= 14 * unit_roundoff * cnorm2 X.
Proof.
  intros t f x Hf F B X. destruct (amp_close t f x Hf F B) as [Fz Ez]. fold X in Ez. split.
  - unfold all_finite. destruct (f x) as [[[s]] [[u]]]. destruct Fz. repeat (apply Forall_cons || apply Forall_nil); assumption.
  - rewrite zcl_cplx. set (z := (sca_0 (cplxSca (f x)), tri_0 (cplxTri (f x)))) in *. rewrite (cnorm_ceq _ (zcl (zsub (zof z) (ampz X)))).
    + rewrite zcl_norm. exact Ez.
    + intros k. rewrite <- (zcl_sub _ _ k). unfold csub. rewrite (ampz_cl X k). reflexivity.
Qed.
