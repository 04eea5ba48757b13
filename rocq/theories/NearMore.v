(** * Nearby arguments: lengths, directions, inverses, rotations, and where the
    results jump (proofs only). *)

Require Import Reals ZArith Lra Lia List Bool.
From Flocq Require Import Core.
Require Import Verif.Num Verif.Types Verif.Priv Verif.OpsUni Verif.OpsAdd Verif.OpsSub Verif.OpsMul Verif.Const
  Verif.Validity Verif.Compare Verif.Func Verif.SpecCl Verif.SpecExp Verif.SpecFunc Verif.RealInst Verif.AlgTac Verif.AlgMul
  Verif.AlgFacts Verif.AlgSpec Verif.AlgThm Verif.FuncFacts Verif.FuncThm Verif.ExpFacts Verif.ExpThm Verif.LogThm Verif.SpecPrin Verif.PrinFacts
  Verif.SpecNear Verif.NearFacts Verif.NearThm.
Local Open Scope R_scope.

Lemma cdot_scale : forall p q a b, cdot (cscale p a) (cscale q b) = p * q * cdot a b.
Proof. intros. unfold cdot, cscale. cbv [rsum all_blades List.map fold_right]. ring. Qed.
Lemma cdot_rev : forall a b, cdot (crev a) (crev b) = cdot a b.
Proof. intros. cbv -[Rplus Rminus Rmult Ropp R R0 R1 IZR]. ring. Qed.
(** ** Lengths *)
Lemma near_magnitude : forall t (x y : val R t), exists m n, magnitude t (exact t x) = Some m /\ magnitude t (exact t y) = Some n /\ Rabs (m - n) <= apart t x y.
Proof.
  intros t x y. exists (cnorm (den t x)), (cnorm (den t y)). rewrite !magnitude_exact. split; [reflexivity|]. split; [reflexivity|].
  set (m := cnorm (den t x)). set (n := cnorm (den t y)). apply le_of_squares; [apply apart_pos|]. rewrite apart2, norm2_csub, <- !cnorm_sq. fold m n.
  pose proof (cdot_le (den t x) (den t y)) as C. fold m n in C. assert (E : Rabs (m - n) * Rabs (m - n) = (m - n) * (m - n)) by (rewrite <- Rabs_mult; apply Rabs_pos_eq, Rle_0_sqr). rewrite E. lra.
Qed.
(** ** Directions *)
Lemma near_direction : forall t (x y : val R t), tiny < cnorm (den t x) -> tiny < cnorm (den t y) ->
  returns_within t (direction t (exact t x)) (direction t (exact t y)) (apart t x y / sqrt (cnorm (den t x) * cnorm (den t y))).
Proof.
  intros t x y HX HY. pose proof tiny_pos. exists (scale t (1 / cnorm (den t x)) x), (scale t (1 / cnorm (den t y)) y).
  unfold direction. rewrite !pairMagDir_exact, !Rltb_true by assumption. split; [reflexivity|]. split; [reflexivity|].
  set (m := cnorm (den t x)) in *. set (n := cnorm (den t y)) in *. assert (MN : 0 < m * n) by (apply Rmult_lt_0_compat; lra).
  set (w := sqrt (m * n)). assert (Hw : 0 < w) by (apply sqrt_lt_R0, MN). assert (SW : w * w = m * n) by (apply sqrt_sqrt; lra).
  pose proof (apart_pos t x y) as AP. apply le_of_squares; [apply Rmult_le_pos; [exact AP|left; apply Rinv_0_lt_compat, Hw]|].
  apply Rmult_le_reg_l with (w * w); [apply Rmult_lt_0_compat; exact Hw|].
  replace (w * w * (apart t x y / w * (apart t x y / w))) with (apart t x y * apart t x y) by (field; lra). rewrite SW, !apart2.
  rewrite (cnorm2_ceq _ (csub (cscale (1 / m) (den t x)) (cscale (1 / n) (den t y)))).
  - rewrite !norm2_csub, !cnorm2_scale, cdot_scale, <- !cnorm_sq. fold m n.
    replace (m * n * (1 / m * (1 / m) * (m * m) - 2 * (1 / m * (1 / n) * cdot (den t x) (den t y)) + 1 / n * (1 / n) * (n * n))) with (2 * m * n - 2 * cdot (den t x) (den t y)) by (field; lra).
    assert (0 <= (m - n) * (m - n)) by apply Rle_0_sqr. lra.
  - intro k. unfold csub. rewrite (scale_den t _ x k), (scale_den t _ y k). reflexivity.
Qed.
(** ** Inverses: the distance is known exactly *)
Lemma near_inverse : forall t inv (x y : val R t), blade_inverse t = Some inv -> x <> zero t -> y <> zero t ->
  exists x' y', inv (exact t x) = exact t x' /\ inv (exact t y) = exact t y' /\ apart t x' y' = apart t x y / (cnorm (den t x) * cnorm (den t y)).
Proof.
  intros t inv x y E HX HY. assert (MX : magSq t x <> 0) by (rewrite magSq_zero_iff; exact HX). assert (MY : magSq t y <> 0) by (rewrite magSq_zero_iff; exact HY).
  exists (scale t (1 / magSq t x) (reverse t x)), (scale t (1 / magSq t y) (reverse t y)).
  split; [rewrite (blade_inverse_form t inv x E), div_exact, scale_exact by exact MX; reflexivity|].
  split; [rewrite (blade_inverse_form t inv y E), div_exact, scale_exact by exact MY; reflexivity|].
  rewrite (magSq_den t x), (magSq_den t y) in *. rewrite <- (cnorm_sq (den t x)), <- (cnorm_sq (den t y)) in *. set (m := cnorm (den t x)) in *. set (n := cnorm (den t y)) in *.
  assert (Hm : 0 < m) by (pose proof (cnorm_nonneg (den t x)) as P; fold m in P; destruct P as [P|P]; [exact P|rewrite <- P in MX; lra]).
  assert (Hn : 0 < n) by (pose proof (cnorm_nonneg (den t y)) as P; fold n in P; destruct P as [P|P]; [exact P|rewrite <- P in MY; lra]).
  assert (SQ : forall a b, 0 <= a -> 0 <= b -> a * a = b * b -> a = b) by (intros a b A B C; apply Rle_antisym; apply le_of_squares; lra).
  apply SQ; [apply apart_pos|apply Rmult_le_pos; [apply apart_pos|left; apply Rinv_0_lt_compat, Rmult_lt_0_compat; assumption]|].
  replace (apart t x y / (m * n) * (apart t x y / (m * n))) with (apart t x y * apart t x y / (m * m * (n * n))) by (field; lra). rewrite !apart2.
  rewrite (cnorm2_ceq (csub (den t (scale t (1 / (m * m)) (reverse t x))) _) (csub (cscale (1 / (m * m)) (crev (den t x))) (cscale (1 / (n * n)) (crev (den t y))))).
  - rewrite !norm2_csub, !cnorm2_scale, cdot_scale, !cnorm2_rev, cdot_rev, <- !cnorm_sq. fold m n. field. lra.
  - intro k. unfold csub. rewrite (scale_den t _ _ k), (scale_den t _ _ k). unfold cscale. rewrite (reverse_den t x k), (reverse_den t y k). reflexivity.
Qed.
(** ** Rotations *)
Lemma rotate_den' : forall (s : Spinor R) (v : Vector R), ceq (den TVec (rotate s v)) (gp (gp (den TSpin s) (den TVec v)) (crev (den TSpin s))).
Proof.
  intros s v. destruct (rotate_norm s v) as (_ & E & _). eapply ceq_trans; [apply ceq_sym, E|]. unfold sandwich. rewrite (mul_den TImsp TSpin), (mul_den TSpin TVec), (reverse_den TSpin). reflexivity.
Qed.
Lemma spin_csub : forall s r : Spinor R, exists q : Spinor R, ceq (den TSpin q) (csub (den TSpin s) (den TSpin r)).
Proof. intros [[[a]] [[x y z]]] [[[b]] [[u v w]]]. exists (mkSpin (Sca (a - b)) (Biv (x - u) (y - v) (z - w))). intro k. dblade k; dring. Qed.
Lemma near_rotation : forall (s r : Spinor R) (v : Vector R), apart TVec (rotate s v) (rotate r v) <= (cnorm (den TSpin s) + cnorm (den TSpin r)) * apart TSpin s r * cnorm (den TVec v).
Proof.
  intros s r v. destruct (spin_csub s r) as [q Q]. set (S := den TSpin s). set (W := den TSpin r). set (V := den TVec v).
  assert (N : forall a (b : Spinor R), cnorm (gp a (den TSpin b)) = cnorm a * cnorm (den TSpin b)).
  { intros a b. apply cnorm_mul, cnorm2_gp_r, (unmixed_rev TSpin b eq_refl). }
  assert (N' : forall (b : Spinor R) a, cnorm (gp (den TSpin b) a) = cnorm (den TSpin b) * cnorm a).
  { intros b a. apply cnorm_mul, cnorm2_gp_l, (unmixed_rev TSpin b eq_refl). }
  assert (RV : forall b : Spinor R, ceq (crev (den TSpin b)) (den TSpin (reverse TSpin b))) by (intro b; apply ceq_sym, (reverse_den TSpin b)).
  assert (RN : forall a, cnorm (crev a) = cnorm a) by (intro a; unfold cnorm; rewrite cnorm2_rev; reflexivity).
  unfold apart at 1. rewrite (cnorm_ceq _ (cadd (gp (gp S V) (den TSpin (reverse TSpin q))) (gp (gp (den TSpin q) V) (den TSpin (reverse TSpin r))))).
  - eapply Rle_trans; [apply cnorm_triangle|]. rewrite !N. unfold S, V. rewrite !N'. rewrite <- !(cnorm_ceq _ _ (RV _)), !RN. unfold apart. rewrite (cnorm_ceq _ _ Q). right. fold S W. ring.
  - intro k. unfold csub. rewrite (rotate_den' s v k), (rotate_den' r v k). fold S W V.
    assert (Z : ceq (cadd (gp (gp S V) (den TSpin (reverse TSpin q))) (gp (gp (den TSpin q) V) (den TSpin (reverse TSpin r)))) (csub (gp (gp S V) (crev S)) (gp (gp W V) (crev W)))).
    { rewrite <- !RV, Q. fold S W. generalize S W V. clear. intros S W V k. dblade k; dring. }
    symmetry. exact (Z k).
Qed.
Lemma near_turn : forall (A B : BiVector R) (v : Vector R), nontiny A -> nontiny B ->
  exists s r, exp_Biv (exact TBiv A) = exact TSpin s /\ exp_Biv (exact TBiv B) = exact TSpin r /\
    apart TVec (rotate s v) (rotate r v) <= 2 * apart TBiv A B * cnorm (den TVec v).
Proof.
  intros A B v HA HB. destruct (near_exp_bivector A B HA HB) as (s & r & X & Y & H). exists s, r. split; [exact X|]. split; [exact Y|].
  assert (U : forall C z, nontiny C -> exp_Biv (exact TBiv C) = exact TSpin z -> cnorm (den TSpin z) = 1).
  { intros C z HC E. destruct (exp_polar C HC) as (th & d & Hd & _ & F). rewrite E in F. apply (exact_inj TSpin) in F. subst z. unfold cnorm. rewrite <- sqrt_1. f_equal.
    assert (D2 : cnorm2 (den TBiv d) = 1) by (rewrite <- cnorm_sq, Hd; ring). transitivity (cos th * cos th + sin th * sin th * cnorm2 (den TBiv d)).
    - clear. unfold polar. destruct d as [[x y z]]. cbv -[Rplus Rminus Rmult Ropp R R0 R1 IZR cos sin]. ring.
    - rewrite D2. pose proof (sin2_cos2 th) as Q. unfold Rsqr in Q. lra. }
  eapply Rle_trans; [apply near_rotation|]. rewrite (U A s HA X), (U B r HB Y). pose proof (cnorm_nonneg (den TVec v)). replace (1 + 1) with 2 by ring.
  apply Rmult_le_compat_r; [assumption|]. lra.
Qed.
(** ** The cut *)
Definition below (h : R) : Spinor R := mkSpin (Sca (-1)) (Biv h 0 0).
Lemma below_norm : forall h, cnorm (den TSpin (below h)) = sqrt (1 + h * h).
Proof. intros h. unfold cnorm. f_equal. cbv -[Rplus Rminus Rmult Ropp R R0 R1 IZR]. ring. Qed.
Lemma cut : forall h (plane : BiVector R), / 2097152 <= h <= / 2097152 -> tiny < cnorm (den TBiv plane) ->
  apart TSpin (below h) (below (- h)) = 2 * h /\
  (exists x y, logG2 (exact TSpin (below h)) (exact TBiv plane) = exact TSpin x /\ logG2 (exact TSpin (below (- h))) (exact TBiv plane) = exact TSpin y /\ 6 <= apart TSpin x y) /\
  (exists x y, sqrtG2 (exact TSpin (below h)) (exact TBiv plane) = exact TSpin x /\ sqrtG2 (exact TSpin (below (- h))) (exact TBiv plane) = exact TSpin y /\ 1 <= apart TSpin x y).
Proof.
  intros h plane Hh HP. assert (Eh : h = / 2097152) by lra. assert (H0 : 0 < h) by lra.
  set (M := sqrt (1 + h * h)). assert (SM : M * M = 1 + h * h) by (apply sqrt_sqrt; nra). assert (M1 : 1 <= M). { rewrite <- sqrt_1. apply sqrt_le_1_alt. nra. }
  assert (NS : cnorm (den TSpin (below h)) = M) by apply below_norm.
  assert (NT : cnorm (den TSpin (below (- h))) = M) by (rewrite below_norm; unfold M; f_equal; ring).
  assert (D : deps = / 4503599627370496) by exact deps_val.
  assert (C : Rabs (-1) <= (1 - deps) * M).
  { rewrite Rabs_left by lra. replace (- -1) with 1 by ring. apply le_of_squares; [rewrite D; nra|]. replace ((1 - deps) * M * ((1 - deps) * M)) with ((1 - deps) * (1 - deps) * (M * M)) by ring. rewrite SM, D, Eh. lra. }
  destruct (polar_of (below h) plane ltac:(rewrite NS, D; lra) ltac:(rewrite NS; exact C) HP) as (x & d & Hd & Hx & ES & LS & RS).
  destruct (polar_of (below (- h)) plane ltac:(rewrite NT, D; lra) ltac:(rewrite NT; exact C) HP) as (y & d' & Hd' & Hy & ET & LT & RT).
  rewrite NS in ES, LS, RS. rewrite NT in ET, LT, RT. specialize (RS ltac:(rewrite D; lra)). specialize (RT ltac:(rewrite D; lra)).
  assert (Cx : M * cos x = -1) by (pose proof (f_equal (fun s : Spinor R => sca_0 (spinSca s)) ES) as Z; exact (eq_sym Z)).
  assert (Cy : M * cos y = -1) by (pose proof (f_equal (fun s : Spinor R => sca_0 (spinSca s)) ET) as Z; exact (eq_sym Z)).
  assert (XY : x = y). { apply cos_inj; try lra. apply Rmult_eq_reg_l with M; lra. }
  subst y. assert (Sx : 0 < sin x) by (apply sin_gt_0; lra).
  assert (S2 : M * sin x * (M * sin x) = h * h).
  { pose proof (sin2_cos2 x) as Q. unfold Rsqr in Q. transitivity (M * M * (sin x * sin x + cos x * cos x) - (M * cos x) * (M * cos x)); [ring|]. rewrite Q, Cx, SM. ring. }
  assert (Ms : 0 < M * sin x) by (apply Rmult_lt_0_compat; lra).
  assert (Sh : M * sin x = h) by (apply Rle_antisym; apply le_of_squares; lra).
  assert (CD : cdot (den TBiv d) (den TBiv d') = -1).
  { pose proof (polar_apart (M * cos x) (M * sin x) d (M * cos x) (M * sin x) d' Hd Hd') as P. rewrite <- ES, <- ET, Sh in P.
    assert (Q : cnorm2 (csub (den TSpin (below h)) (den TSpin (below (- h)))) = 4 * (h * h)) by (cbv -[Rplus Rminus Rmult Ropp R R0 R1 IZR]; ring). rewrite Q in P. nra. }
  split; [|split].
  - assert (SQ : forall a b, 0 <= a -> 0 <= b -> a * a = b * b -> a = b) by (intros a b A B E; apply Rle_antisym; apply le_of_squares; lra).
    apply SQ; [apply apart_pos|lra|]. rewrite apart2. cbv -[Rplus Rminus Rmult Ropp R R0 R1 IZR]. ring.
  - eexists _, _. split; [exact LS|]. split; [exact LT|]. apply le_of_squares; [apply apart_pos|]. rewrite apart2, polar_apart, CD by assumption.
    assert (X3 : 3 <= x).
    { assert (N : PI / 2 <= x). { destruct (Rle_dec (PI / 2) x) as [K|K]; [exact K|]. assert (0 < cos x) by (apply cos_gt_0; lra). nra. }
      pose proof (sin_lower (PI - x) ltac:(lra)) as L. rewrite sin_PI_x in L. assert (sin x <= h) by nra. pose proof PI_4 as P4. pose proof PI_RGT_0. assert (PI * sin x <= 4 * h) by nra.
      assert (P3 : 3 + / 8 < PI). { pose proof pi53_bounds as P. unfold pi53 in P. lra. }
      lra. }
    nra.
  - eexists _, _. split; [exact RS|]. split; [exact RT|]. apply le_of_squares; [apply apart_pos|]. rewrite apart2, polar_apart, CD by assumption.
    assert (SQ : sqrt M * sqrt M = M) by (apply sqrt_sqrt; lra). assert (K : sin (x / 2) * sin (x / 2) = (1 - cos x) / 2) by (pose proof (chord x); lra).
    replace ((sqrt M * cos (x / 2) - sqrt M * cos (x / 2)) * (sqrt M * cos (x / 2) - sqrt M * cos (x / 2)) + sqrt M * sin (x / 2) * (sqrt M * sin (x / 2)) + sqrt M * sin (x / 2) * (sqrt M * sin (x / 2)) - 2 * (sqrt M * sin (x / 2)) * (sqrt M * sin (x / 2)) * -1)
      with (4 * (sqrt M * sqrt M * (sin (x / 2) * sin (x / 2)))) by ring. rewrite SQ, K. lra.
Qed.
Lemma the_cut : exists S T : Spinor R, apart TSpin S T = / 1048576 /\ forall plane : BiVector R, tiny < cnorm (den TBiv plane) ->
  (exists x y, logG2 (exact TSpin S) (exact TBiv plane) = exact TSpin x /\ logG2 (exact TSpin T) (exact TBiv plane) = exact TSpin y /\ 6 <= apart TSpin x y) /\
  (exists x y, sqrtG2 (exact TSpin S) (exact TBiv plane) = exact TSpin x /\ sqrtG2 (exact TSpin T) (exact TBiv plane) = exact TSpin y /\ 1 <= apart TSpin x y).
Proof.
  exists (below (/ 2097152)), (below (- / 2097152)). split.
  - pose proof unit_e12 as E. destruct (cut (/ 2097152) c_e12 ltac:(lra)) as [C _]; [pose proof tiny_small; lra|]. lra.
  - intros plane HP. exact (proj2 (cut (/ 2097152) plane ltac:(lra) HP)).
Qed.
(** ** A case for each hypothesis *)
Lemma norm_of : forall t (x : val R t) r, 0 <= r -> cnorm2 (den t x) = r * r -> cnorm (den t x) = r.
Proof. intros t x r H E. unfold cnorm. rewrite E. apply sqrt_square, H. Qed.
Lemma near_example : let S := mkSpin (Sca 3) (Biv 0 4 0) in let T := mkSpin (Sca 0) (Biv 1 0 0) in
  4 * deps <= cnorm (den TSpin S) /\ 4 * deps <= cnorm (den TSpin T) /\ 0 <= sca_0 (spinSca S) <= (1 - deps) * cnorm (den TSpin S) /\
  0 <= sca_0 (spinSca T) <= (1 - deps) * cnorm (den TSpin T) /\ tiny < cnorm (den TBiv (c_e12 : BiVector R)) /\
  nontiny (Biv 0 4 0) /\ nontiny (zero TBiv) /\ blade_inverse TVec = Some inverse_Vec /\ (Vec 0 2 0 : Vector R) <> zero TVec /\ apart TSpin S T = sqrt 26.
Proof.
  intros S T. assert (NS : cnorm (den TSpin S) = 5) by (apply (norm_of TSpin); [lra|dring]). assert (NT : cnorm (den TSpin T) = 1) by (apply (norm_of TSpin); [lra|dring]).
  rewrite NS, NT, unit_e12. change (sca_0 (spinSca S)) with 3. change (sca_0 (spinSca T)) with 0. pose proof deps_val as D. pose proof tiny_small as Ts. pose proof tiny_pos.
  repeat split; try (rewrite D; lra); try lra.
  - right. rewrite (norm_of TBiv _ 4); [lra|lra|dring].
  - left. reflexivity.
  - intros H0. injection H0. lra.
  - unfold apart, cnorm. f_equal. dring.
Qed.
