(** * Error of products in norm, sandwiches and long products on binary64: proofs. *)

Require Import Reals ZArith List Bool Lra Lia.
From Flocq Require Import Core BinarySingleNaN.
Require Import Verif.Num Verif.Types Verif.Priv Verif.OpsUni Verif.OpsAdd Verif.OpsSub
  Verif.OpsMul Verif.Const Verif.Func Verif.SpecCl Verif.RealInst Verif.AlgTac Verif.AlgMul Verif.AlgFacts Verif.SpecFunc
  Verif.FuncFacts Verif.Rel Verif.B64 Verif.B64Facts Verif.Taint Verif.SpecValid Verif.ValidFacts Verif.SpecRound Verif.ArrErr Verif.IntFacts Verif.ErrFacts
  Verif.SpecAcc Verif.BoundFacts Verif.AccFacts.
Import ListNotations.
Local Open Scope R_scope.

(** ** Operands of a finite product are finite *)
Lemma not_spoilt : forall t (x : val f64 t), all_finite t x <-> ~ Exists (fun v => nonfin v = true) (elems t x).
Proof.
  intros t x. unfold all_finite. rewrite Forall_forall. split.
  - intros H E. apply Exists_exists in E. destruct E as (v & Hv & N). apply nonfin_true in N. rewrite (H v Hv) in N. discriminate N.
  - intros H v Hv. destruct (fin v) eqn:E; [reflexivity|]. exfalso. apply H, Exists_exists. exists v. split; [exact Hv|].
    apply nonfin_true, E.
Qed.
Lemma mul_fin_inv : forall a b (x : val f64 a) (y : val f64 b), all_finite (mulTy a b) (mul a b x y) ->
  all_finite a x /\ all_finite b y.
Proof.
  intros a b x y H. apply not_spoilt in H. split; apply not_spoilt; intro E; apply H; apply (keep_mul _ spoils_nonfin); auto.
Qed.

(** ** Norms *)
Lemma exactly_ceq_norm : forall a b, ceq a b -> cnorm a = cnorm b.
Proof. exact cnorm_ceq. Qed.
Definition cabs (a : clf) : clf := fun k => Rabs (a k).
Lemma gp_abs_norm : forall a b k, gp_abs a b k <= cnorm a * cnorm b.
Proof.
  intros a b k. set (b' := fun i => Rabs (b (bxor i k))).
  assert (E : gp_abs a b k = cdot (cabs a) b') by reflexivity.
  assert (Sq : forall v, Rabs v * Rabs v = v * v) by (intros v; rewrite <- Rabs_mult; apply Rabs_pos_eq, Rle_0_sqr).
  assert (Na : cnorm (cabs a) = cnorm a).
  { unfold cnorm, cnorm2, cabs. f_equal. cbn [map all_blades rsum fold_right]. rewrite !Sq. reflexivity. }
  assert (Nb : cnorm b' = cnorm b).
  { unfold cnorm, cnorm2, b'. f_equal. dblade k; cbv -[Rabs Rmult Rplus R0 IZR]; rewrite !Sq; ring. }
  rewrite E, <- Na, <- Nb. apply cdot_le.
Qed.
Lemma norm_of_bound : forall e B, 0 <= B -> (forall k, Rabs (e k) <= B) -> cnorm e <= 17 / 6 * B.
Proof.
  intros e B HB H. unfold cnorm. rewrite <- (sqrt_square (17 / 6 * B)) by lra. apply sqrt_le_1_alt.
  assert (Q : forall k, e k * e k <= B * B).
  { intros k. rewrite <- (Rabs_pos_eq (e k * e k)) by apply Rle_0_sqr. rewrite Rabs_mult.
    apply Rmult_le_compat; auto using Rabs_pos. }
  pose proof (Q bS). pose proof (Q bE1). pose proof (Q bE2). pose proof (Q bE3).
  pose proof (Q bE12). pose proof (Q bE13). pose proof (Q bE23). pose proof (Q bE123).
  pose proof (Rle_0_sqr B) as P. unfold Rsqr in P.
  replace (17 / 6 * B * (17 / 6 * B)) with (289 / 36 * (B * B)) by field.
  unfold cnorm2, all_blades, rsum. cbn [map fold_right]. lra.
Qed.
Lemma mul_norm_error : forall a b (x : val f64 a) (y : val f64 b), all_finite (mulTy a b) (mul a b x y) ->
  cnorm (csub (exactly (mulTy a b) (mul a b x y)) (gp (exactly a x) (exactly b y)))
    <= 26 * u53 * (cnorm (exactly a x) * cnorm (exactly b y)) + 26 * eta.
Proof.
  intros a b x y F. pose proof u53_pos. pose proof eta_pos.
  set (N := cnorm (exactly a x) * cnorm (exactly b y)).
  assert (HN : 0 <= N) by (apply Rmult_le_pos; apply cnorm_nonneg).
  assert (P : 0 <= u53 * N) by (apply Rmult_le_pos; lra).
  eapply Rle_trans; [apply (norm_of_bound _ (9 * u53 * N + 9 * eta)); [lra|]|lra].
  intros k. unfold csub. eapply Rle_trans; [apply (mul_error a b x y F k)|].
  pose proof (gp_abs_norm (exactly a x) (exactly b y) k) as G. fold N in G.
  apply Rplus_le_compat_r. apply Rmult_le_compat_l; [lra|exact G].
Qed.
Lemma exactly_rev_scalar : forall t (x : val f64 t), unmixed t = true -> rev_scalar (exactly t x).
Proof. intros t x H. apply unmixed_rev. exact H. Qed.
Lemma norm_gp_r a b : rev_scalar b -> cnorm (gp a b) = cnorm a * cnorm b.
Proof. intros H. apply cnorm_mul, cnorm2_gp_r, H. Qed.
Lemma norm_gp_l a b : rev_scalar a -> cnorm (gp a b) = cnorm a * cnorm b.
Proof. intros H. apply cnorm_mul, cnorm2_gp_l, H. Qed.
Lemma norm_sub_le a b c : cnorm (csub a c) <= cnorm (csub a b) + cnorm (csub b c).
Proof.
  rewrite (cnorm_ceq (csub a c) (cadd (csub a b) (csub b c))); [apply cnorm_triangle|].
  intros k. unfold cadd, csub. ring.
Qed.
Lemma norm_le_sub a b : cnorm a <= cnorm b + cnorm (csub a b).
Proof.
  rewrite (cnorm_ceq a (cadd b (csub a b))) at 1; [apply cnorm_triangle|]. intros k. unfold cadd, csub. ring.
Qed.
(** One more factor. *)
Lemma step_error : forall t (p : val f64 t) (E : clf) t' (s : val f64 t'), unmixed t' = true ->
  all_finite (mulTy t t') (mul t t' p s) ->
  cnorm (csub (exactly (mulTy t t') (mul t t' p s)) (gp E (exactly t' s)))
    <= 26 * u53 * (cnorm E * cnorm (exactly t' s)) + (1 + 26 * u53) * (cnorm (csub (exactly t p) E) * cnorm (exactly t' s)) + 26 * eta.
Proof.
  intros t p E t' s U F. pose proof u53_pos. pose proof (mul_norm_error t t' p s F) as M.
  set (P := exactly t p) in *. set (S := exactly t' s) in *. pose proof (exactly_rev_scalar t' s U) as RS. fold S in RS.
  eapply Rle_trans; [apply (norm_sub_le _ (gp P S))|].
  assert (G : cnorm (csub (gp P S) (gp E S)) = cnorm (csub P E) * cnorm S).
  { rewrite <- (norm_gp_r _ _ RS). apply cnorm_ceq. intros k. symmetry. apply gp_sub_l. }
  rewrite G. pose proof (norm_le_sub P E) as T. pose proof (cnorm_nonneg S) as HS.
  assert (T' : u53 * (cnorm P * cnorm S) <= u53 * ((cnorm E + cnorm (csub P E)) * cnorm S)).
  { apply Rmult_le_compat_l; [lra|]. apply Rmult_le_compat_r; auto. }
  nra.
Qed.

(** ** Sandwich *)
Lemma sandwich_error : forall (s : Spinor f64) t (v : val f64 t),
  all_finite _ (mul _ TSpin (mul TSpin t s v) (reverse TSpin s)) ->
  let S := exactly TSpin s in
  cnorm (csub (exactly _ (mul _ TSpin (mul TSpin t s v) (reverse TSpin s))) (gp (gp S (exactly t v)) (crev S)))
    <= 53 * u53 * (cnorm2 S * cnorm (exactly t v)) + 27 * eta * (1 + cnorm S).
Proof.
  intros s t v F S. pose proof u53_pos. pose proof eta_pos.
  destruct (mul_fin_inv _ _ _ _ F) as [F1 _].
  pose proof (mul_norm_error TSpin t s v F1) as E1. fold S in E1.
  assert (R : ceq (exactly TSpin (reverse TSpin s)) (crev S)) by (intros k; apply reverse_exactly).
  pose proof (step_error _ (mul TSpin t s v) (gp S (exactly t v)) TSpin (reverse TSpin s) eq_refl F) as E2.
  rewrite (cnorm_ceq _ _ R) in E2.
  assert (N : cnorm (crev S) = cnorm S) by (unfold cnorm; rewrite cnorm2_rev; reflexivity).
  rewrite N in E2. rewrite (norm_gp_l S (exactly t v)) in E2 by (apply exactly_rev_scalar; reflexivity).
  rewrite (cnorm_ceq (csub _ (gp (gp S (exactly t v)) (crev S)))
     (csub (exactly _ (mul _ TSpin (mul TSpin t s v) (reverse TSpin s))) (gp (gp S (exactly t v)) (exactly TSpin (reverse TSpin s)))))
    by (intros k; unfold csub; f_equal; apply gp_ceq; [intros ?; reflexivity|intros ?; symmetry; apply R]).
  eapply Rle_trans; [exact E2|]. rewrite <- (cnorm_sq S).
  pose proof (cnorm_nonneg S) as HS. pose proof (cnorm_nonneg (exactly t v)) as HV.
  set (n := cnorm S) in *. set (m := cnorm (exactly t v)) in *. set (d := cnorm (csub _ _)) in *.
  assert (D : d * n <= (26 * u53 * (n * m) + 26 * eta) * n) by (apply Rmult_le_compat_r; auto).
  assert (U : 26 * u53 <= / 100) by (rewrite u53_val; lra).
  assert (K : 0 <= n * m * n) by (apply Rmult_le_pos; [apply Rmult_le_pos|]; auto).
  apply Rle_trans with (26 * u53 * (n * m * n) + (1 + 26 * u53) * ((26 * u53 * (n * m) + 26 * eta) * n) + 26 * eta).
  { apply Rplus_le_compat_r, Rplus_le_compat_l, Rmult_le_compat_l; lra. }
  assert (A : (26 * u53) * (26 * u53 * (n * m * n)) <= / 100 * (26 * u53 * (n * m * n))).
  { apply Rmult_le_compat_r; [apply Rmult_le_pos; lra|lra]. }
  assert (B : (26 * u53) * (26 * (eta * n)) <= / 100 * (26 * (eta * n))).
  { apply Rmult_le_compat_r; [|lra]. apply Rmult_le_pos; [lra|]. apply Rmult_le_pos; lra. }
  assert (B' : 0 <= eta * n) by (apply Rmult_le_pos; lra).
  nra.
Qed.

(** The trivector part of a rotated vector, which is zero in exact arithmetic. *)
Lemma sandwich_tri : forall (s : Spinor f64) (v : Vector f64),
  gp (gp (exactly TSpin s) (exactly TVec v)) (crev (exactly TSpin s)) bE123 = 0.
Proof.
  intros s v. unfold exactly. dvs. cbv -[B2R Rmult Rplus Rminus Ropp R0 IZR]. ring.
Qed.
Lemma rotation_error : forall (s : Spinor f64) (v : Vector f64),
  let r := mul TImsp TSpin (mul TSpin TVec s v) (reverse TSpin s) in
  all_finite TImsp r ->
  let S := exactly TSpin s in
  let bound := 53 * u53 * (cnorm2 S * cnorm (exactly TVec v)) + 27 * eta * (1 + cnorm S) in
  cnorm (csub (exactly TImsp r) (gp (gp S (exactly TVec v)) (crev S))) <= bound /\
  Rabs (exactly TImsp r bE123) <= bound.
Proof.
  intros s v r F S bound. pose proof (sandwich_error s TVec v F) as E. cbv zeta in E. fold S in E.
  split; [exact E|]. eapply Rle_trans; [|exact E].
  rewrite <- (Rminus_0_r (exactly TImsp r bE123)), <- (sandwich_tri s v). fold S.
  exact (comp_le_norm (csub (exactly TImsp r) (gp (gp S (exactly TVec v)) (crev S))) bE123).
Qed.

(** ** Long products *)
Lemma exact_product_norm : forall s l, cnorm (exact_product s l) = norm_product s l.
Proof.
  intros s l. unfold exact_product, norm_product. induction l as [|q l IH] using rev_ind; [reflexivity|].
  rewrite !map_app, !fold_left_app. cbn [map fold_left]. 
  rewrite norm_gp_r by (apply exactly_rev_scalar; reflexivity). f_equal. exact IH.
Qed.
Lemma long_product : forall M s l, 1 <= M -> (forall q, In q l -> cnorm (exactly TSpin q) <= M) ->
  all_finite TSpin (running_product s l) ->
  cnorm (csub (exactly TSpin (running_product s l)) (exact_product s l)) <=
    ((1 + 26 * u53) ^ length l - 1) * norm_product s l + 26 * eta * (INR (length l) * ((1 + 26 * u53) * M) ^ length l).
Proof.
  intros M s l HM. rewrite <- exact_product_norm. pose proof u53_pos. pose proof eta_pos.
  induction l as [|q l IH] using rev_ind; intros HQ F.
  - cbn [length pow]. assert (Z : cnorm (csub (exactly TSpin (running_product s [])) (exact_product s [])) = 0).
    { unfold cnorm. replace (cnorm2 _) with 0; [apply sqrt_0|]. unfold cnorm2, csub, all_blades, rsum, running_product, exact_product.
      cbn [map fold_right fold_left]. ring. }
    eapply Rle_trans; [right; exact Z|]. cbn [INR]. lra.
  - unfold running_product, exact_product in *. rewrite !map_app, !fold_left_app in *. cbn [map fold_left] in *.
    match type of F with all_finite _ (mul _ _ ?P _) => set (p := P) in * end. set (E := fold_left gp _ _) in *.
    destruct (mul_fin_inv TSpin TSpin p q F) as [Fp _].
    assert (I : cnorm (csub (exactly TSpin p) E) <=
      ((1 + 26 * u53) ^ length l - 1) * cnorm E + 26 * eta * (INR (length l) * ((1 + 26 * u53) * M) ^ length l)).
    { apply IH; [intros; apply HQ, in_or_app; auto | exact Fp]. }
    pose proof (step_error TSpin p E TSpin q eq_refl F) as T.
    rewrite (norm_gp_r E) by (apply exactly_rev_scalar; reflexivity).
    eapply Rle_trans; [exact T|].
    assert (Hq : cnorm (exactly TSpin q) <= M) by (apply HQ, in_or_app; right; left; reflexivity).
    rewrite app_length. cbn [length]. rewrite Nat.add_1_r, S_INR. cbn [pow].
    pose proof (cnorm_nonneg (exactly TSpin q)) as P1. pose proof (cnorm_nonneg E) as P2.
    set (c := cnorm (exactly TSpin q)) in *. set (g := (1 + 26 * u53) ^ length l) in *.
    set (h := ((1 + 26 * u53) * M) ^ length l) in *. set (n := INR (length l)) in *. set (d := cnorm (csub _ _)) in *.
    assert (H1 : 1 <= h) by (apply pow_R1_Rle; nra).
    assert (Hn : 0 <= n) by apply pos_INR.
    assert (K1 : d * c <= (g - 1) * cnorm E * c + 26 * eta * (n * h) * M).
    { apply Rle_trans with (((g - 1) * cnorm E + 26 * eta * (n * h)) * c); [apply Rmult_le_compat_r; auto|].
      rewrite Rmult_plus_distr_r. apply Rplus_le_compat_l, Rmult_le_compat_l; [|exact Hq].
      apply Rmult_le_pos; [lra|]. apply Rmult_le_pos; lra. }
    assert (K2 : (1 + 26 * u53) * (d * c) <= (1 + 26 * u53) * ((g - 1) * cnorm E * c + 26 * eta * (n * h) * M)).
    { apply Rmult_le_compat_l; [lra|exact K1]. }
    assert (K3 : 1 <= (1 + 26 * u53) * M * h).
    { rewrite <- (Rmult_1_l 1) at 1. apply Rmult_le_compat; try lra. nra. }
    assert (K4 : 26 * eta * 1 <= 26 * eta * ((1 + 26 * u53) * M * h)) by (apply Rmult_le_compat_l; lra).
    apply Rle_trans with (26 * u53 * (cnorm E * c) + (1 + 26 * u53) * ((g - 1) * cnorm E * c + 26 * eta * (n * h) * M) + 26 * eta); [lra|].
    replace (26 * eta * ((n + 1) * ((1 + 26 * u53) * M * h))) with
      (26 * eta * (n * ((1 + 26 * u53) * M * h)) + 26 * eta * ((1 + 26 * u53) * M * h)) by ring.
    apply Rle_trans with (((1 + 26 * u53) * g - 1) * (cnorm E * c) + 26 * eta * (n * ((1 + 26 * u53) * M * h)) + 26 * eta * 1); [|lra].
    right. ring.
Qed.

(** ** Directions are of unit length, inverses invert *)
Lemma small_eta : forall e, (e <= 500)%Z -> 3 * eta * bpow radix2 e <= u53.
Proof.
  intros e H. apply Rle_trans with (bpow radix2 2 * bpow radix2 (-1075) * bpow radix2 500).
  - unfold eta. change (underflow_unit) with (bpow radix2 (-1075)).
    apply Rmult_le_compat; try apply bpow_ge_0; [|apply Rmult_le_compat_r; [apply bpow_ge_0|change (bpow radix2 2) with 4; lra] |apply bpow_le; exact H].
    apply Rmult_le_pos; [lra|apply bpow_ge_0].
  - rewrite <- !bpow_plus. apply bpow_le. lia.
Qed.
Lemma norm_mono : forall a b, (forall k, Rabs (a k) <= b k) -> cnorm a <= cnorm b.
Proof.
  intros a b H. unfold cnorm. apply sqrt_le_1_alt.
  assert (Q : forall k, a k * a k <= b k * b k).
  { intros k. rewrite <- (Rabs_pos_eq (a k * a k)) by apply Rle_0_sqr. rewrite Rabs_mult.
    apply Rmult_le_compat; auto using Rabs_pos. }
  pose proof (Q bS). pose proof (Q bE1). pose proof (Q bE2). pose proof (Q bE3).
  pose proof (Q bE12). pose proof (Q bE13). pose proof (Q bE23). pose proof (Q bE123).
  unfold cnorm2, all_blades, rsum. cbn [map fold_right]. lra.
Qed.
Lemma cnorm_cabs : forall a, cnorm (cabs a) = cnorm a.
Proof.
  assert (Sq : forall v, Rabs v * Rabs v = v * v) by (intros v; rewrite <- Rabs_mult; apply Rabs_pos_eq, Rle_0_sqr).
  intros a. unfold cnorm, cnorm2, cabs. f_equal. cbn [map all_blades rsum fold_right]. rewrite !Sq. reflexivity.
Qed.
Lemma norm_of_rel : forall e y A B, 0 <= A -> 0 <= B -> (forall k, Rabs (e k) <= A * Rabs (y k) + B) ->
  cnorm e <= A * cnorm y + 3 * B.
Proof.
  intros e y A B HA HB H. apply Rle_trans with (cnorm (cadd (cscale A (cabs y)) (fun _ => B))).
  - apply norm_mono. exact H.
  - eapply Rle_trans; [apply cnorm_triangle|]. rewrite cnorm_scale, cnorm_cabs, Rabs_pos_eq by exact HA.
    apply Rplus_le_compat_l. eapply Rle_trans; [apply (norm_of_bound _ B HB)|lra].
    intros k. rewrite Rabs_pos_eq by exact HB. lra.
Qed.
Lemma direction_unit : forall t (x : val f64 t), all_finite t x ->
  bpow radix2 (-480) <= cnorm (exactly t x) <= bpow radix2 480 ->
  Rabs (cnorm (exactly t (direction t x)) - 1) <= 15 * u53.
Proof.
  intros t x F H. destruct (direction_accurate t x F H) as [_ E]. pose proof u53_pos. pose proof eta_pos.
  set (X := exactly t x) in *. set (N := cnorm X) in *. set (D := exactly t (direction t x)) in *.
  assert (HN : 0 < N) by (eapply Rlt_le_trans; [apply bpow_gt_0|apply H]).
  assert (Y : cnorm (cscale (/ N) X) = 1).
  { rewrite cnorm_scale, Rabs_pos_eq by (left; apply Rinv_0_lt_compat; exact HN). fold N. field. lra. }
  assert (K : cnorm (csub D (cscale (/ N) X)) <= 14 * u53 * 1 + 3 * eta).
  { rewrite <- Y. apply norm_of_rel; [lra|lra|]. intros k. unfold csub, cscale. specialize (E k).
    rewrite Rabs_mult, (Rabs_pos_eq (/ N)) by (left; apply Rinv_0_lt_compat; exact HN).
    replace (/ N * X k) with (X k / N) by (unfold Rdiv; ring). replace (/ N * Rabs (X k)) with (Rabs (X k) / N) by (unfold Rdiv; ring). exact E. }
  pose proof (small_eta 0 ltac:(lia)) as Se. change (bpow radix2 0) with 1 in Se.
  pose proof (norm_le_sub D (cscale (/ N) X)) as T1. pose proof (norm_le_sub (cscale (/ N) X) D) as T2.
  assert (S : cnorm (csub (cscale (/ N) X) D) = cnorm (csub D (cscale (/ N) X))).
  { rewrite <- cnorm_cabs, <- (cnorm_cabs (csub D _)). apply cnorm_ceq. intros k. unfold cabs, csub. apply Rabs_minus_sym. }
  rewrite S in T2. apply Rabs_le. lra.
Qed.
Lemma inverse_product : forall t (x : val f64 t), unmixed t = true -> all_finite t x ->
  bpow radix2 (-480) <= cnorm (exactly t x) <= bpow radix2 480 ->
  let y := scale t (ndiv 1%num (magSq t x)) (reverse t x) in
  all_finite (mulTy t t) (mul t t x y) /\ all_finite (mulTy t t) (mul t t y x) /\
  cnorm (csub (exactly (mulTy t t) (mul t t x y)) cone) <= 43 * u53 /\
  cnorm (csub (exactly (mulTy t t) (mul t t y x)) cone) <= 43 * u53.
Proof.
  intros t x U F H y. destruct (inverse_scale t x F H) as [Fy E]. fold y in Fy, E. pose proof u53_pos. pose proof eta_pos.
  set (X := exactly t x) in *. pose proof (cnorm_sq X) as Q. set (N := cnorm X) in *. set (Y := exactly t y) in *.
  assert (HN : 0 < N) by (eapply Rlt_le_trans; [apply bpow_gt_0|apply H]).
  set (I := cscale (/ cnorm2 X) (crev X)).
  assert (PD : 0 < cnorm2 X) by (rewrite <- Q; apply Rmult_lt_0_compat; exact HN).
  assert (PI : 0 < / cnorm2 X) by (apply Rinv_0_lt_compat; exact PD).
  assert (NI : cnorm I = / N).
  { unfold I. rewrite cnorm_scale, Rabs_pos_eq by lra. unfold cnorm at 1. rewrite cnorm2_rev. fold (cnorm X). fold N.
    rewrite <- Q. field. lra. }
  assert (K : cnorm (csub Y I) <= 14 * u53 * / N + 3 * eta).
  { rewrite <- NI. apply norm_of_rel; [lra|lra|]. intros k. unfold csub, I, cscale. specialize (E k).
    rewrite Rabs_mult, (Rabs_pos_eq (/ cnorm2 X)) by lra. rewrite crev_abs.
    replace (/ cnorm2 X * crev X k) with (crev X k / cnorm2 X) by (unfold Rdiv; ring).
    replace (/ cnorm2 X * Rabs (X k)) with (Rabs (X k) / cnorm2 X) by (unfold Rdiv; ring). exact E. }
  assert (SE : 3 * eta * N <= u53).
  { eapply Rle_trans; [|apply (small_eta 480 ltac:(lia))]. apply Rmult_le_compat_l; [lra|apply H]. }
  assert (K' : N * cnorm (csub Y I) <= 15 * u53).
  { apply Rle_trans with (N * (14 * u53 * / N + 3 * eta)); [apply Rmult_le_compat_l; lra|].
    replace (N * (14 * u53 * / N + 3 * eta)) with (14 * u53 + 3 * eta * N) by (field; lra). lra. }
  assert (NY : N * cnorm Y <= 1 + 15 * u53).
  { apply Rle_trans with (N * (cnorm I + cnorm (csub Y I))); [apply Rmult_le_compat_l; [lra|apply norm_le_sub]|].
    rewrite Rmult_plus_distr_l, NI, Rinv_r by lra. lra. }
  pose proof (exactly_rev_scalar t x U) as RX. fold X in RX.
  assert (GI : ceq (gp X I) cone /\ ceq (gp I X) cone).
  { destruct RX as [R1 R2]. split; intro k; unfold I; rewrite ?gp_scale_l, ?gp_scale_r; unfold cscale; rewrite ?R1, ?R2;
      unfold cscale, cone; try (field; lra). }
  destruct GI as [G1 G2].
  assert (WY : within 481 t y).
  { apply norm_within; [exact Fy|]. fold Y. apply Rmult_le_reg_l with N; [exact HN|].
    apply Rle_trans with (1 + 15 * u53); [exact NY|]. apply Rle_trans with 2; [rewrite u53_val; lra|].
    change 2 with (bpow radix2 1). replace 1%Z with (-480 + 481)%Z by reflexivity. rewrite bpow_plus.
    apply Rmult_le_compat_r; [apply bpow_ge_0|apply H]. }
  assert (WX : within 480 t x) by (apply norm_within; [exact F|apply H]).
  assert (F1 : all_finite (mulTy t t) (mul t t x y)).
  { pose proof (mul_within 480 481 t t x y ltac:(lia) ltac:(lia) WX WY) as W. unfold within in W. unfold all_finite.
    eapply Forall_impl; [|exact W]. intros v Hv; apply Hv. }
  assert (F2 : all_finite (mulTy t t) (mul t t y x)).
  { pose proof (mul_within 481 480 t t y x ltac:(lia) ltac:(lia) WY WX) as W. unfold within in W. unfold all_finite.
    eapply Forall_impl; [|exact W]. intros v Hv; apply Hv. }
  assert (SE1 : 3 * eta <= u53 / 10000).
  { apply Rle_trans with (bpow radix2 (-70)); [|rewrite u53_val; change (bpow radix2 (-70)) with (/ 1180591620717411303424); lra].
    unfold eta. apply Rle_trans with (bpow radix2 2 * bpow radix2 (-1075)).
    - apply Rmult_le_compat_r; [apply bpow_ge_0|]. change (bpow radix2 2) with 4; lra.
    - rewrite <- bpow_plus. apply bpow_le. lia. }
  assert (UU : u53 * (15 * u53) <= u53 * / 1000) by (apply Rmult_le_compat_l; [lra|rewrite u53_val; lra]).
  split; [exact F1|]. split; [exact F2|]. split.
  - eapply Rle_trans; [apply (norm_sub_le _ (gp X Y))|].
    assert (A : cnorm (csub (gp X Y) cone) = N * cnorm (csub Y I)).
    { unfold N. rewrite <- (norm_gp_l _ _ RX). apply cnorm_ceq. intros k. rewrite gp_sub_r. unfold csub. rewrite G1. reflexivity. }
    rewrite A. pose proof (mul_norm_error t t x y F1) as M. fold X Y N in M.
    assert (u53 * (N * cnorm Y) <= u53 * (1 + 15 * u53)) by (apply Rmult_le_compat_l; lra). lra.
  - eapply Rle_trans; [apply (norm_sub_le _ (gp Y X))|].
    assert (A : cnorm (csub (gp Y X) cone) = N * cnorm (csub Y I)).
    { unfold N. rewrite Rmult_comm, <- (norm_gp_r _ _ RX). apply cnorm_ceq. intros k. rewrite gp_sub_l. unfold csub. rewrite G2. reflexivity. }
    rewrite A. pose proof (mul_norm_error t t y x F2) as M. fold X Y N in M.
    assert (u53 * (N * cnorm Y) <= u53 * (1 + 15 * u53)) by (apply Rmult_le_compat_l; lra). lra.
Qed.
