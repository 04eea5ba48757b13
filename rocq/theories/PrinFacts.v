(** * Logarithms and square roots of a spinor (proofs only). *)

Require Import Reals ZArith Lra Lia List Bool.
From Flocq Require Import Core.
Require Import Verif.Num Verif.Types Verif.Priv Verif.OpsUni Verif.OpsAdd Verif.OpsSub Verif.OpsMul Verif.Const
  Verif.Validity Verif.Compare Verif.Func Verif.SpecCl Verif.SpecExp Verif.SpecFunc Verif.RealInst Verif.AlgTac Verif.AlgMul
  Verif.AlgFacts Verif.AlgSpec Verif.AlgThm Verif.FuncFacts Verif.FuncThm Verif.ExpFacts Verif.ExpThm Verif.LogThm Verif.SpecPrin.
Local Open Scope R_scope.

Lemma spin_den' : forall w : Spinor R, ceq (den TSpin w) (cadd (cscale (sca_0 (spinSca w)) cone) (den TBiv (spinBiv w))).
Proof. intros [[[a]] [[x y z]]] k. dblade k; dring. Qed.
(** The exponential of a spinor in closed form. *)
Lemma spin_cexp : forall w : Spinor R, let m := cnorm (den TBiv (spinBiv w)) in
  is_cexp (den TSpin w) (cscale (exp (sca_0 (spinSca w))) (den TSpin (rotor (cos m) (sinc m) (spinBiv w)))).
Proof.
  intros w m. assert (B : is_cexp (den TBiv (spinBiv w)) (cadd (cscale (cos m) cone) (cscale (sinc m) (den TBiv (spinBiv w))))) by (apply cexp_square, biv_sq).
  assert (C : ceq (gp (cscale (sca_0 (spinSca w)) cone) (den TBiv (spinBiv w))) (gp (den TBiv (spinBiv w)) (cscale (sca_0 (spinSca w)) cone))).
  { rewrite gp_scale_l, gp_scale_r, gp_one_l, gp_one_r. reflexivity. }
  pose proof (cexp_add _ _ C _ _ (cexp_scalar (sca_0 (spinSca w))) B) as E.
  eapply is_cexp_ceq; [| |exact E]; [symmetry; apply spin_den'|]. rewrite gp_scale_l, gp_one_l. intros k. unfold cscale at 1 4. f_equal. symmetry. apply rotor_den.
Qed.
Lemma sinc_abs : forall r, sinc (Rabs r) * r = sin r.
Proof.
  intros r. unfold sinc. destruct (Req_EM_T (Rabs r) 0) as [Z|N].
  - assert (r = 0) by (destruct (Req_dec r 0) as [K|K]; [exact K|apply Rabs_no_R0 in K; contradiction]). subst r. rewrite sin_0. ring.
  - destruct (Rle_dec 0 r) as [P|P]; [rewrite Rabs_pos_eq in * by exact P; field; exact N|].
    rewrite Rabs_left in * by lra. rewrite sin_neg. field. lra.
Qed.
Lemma cos_abs : forall r, cos (Rabs r) = cos r.
Proof. intros r. destruct (Rle_dec 0 r); [rewrite Rabs_pos_eq by lra; reflexivity|rewrite Rabs_left by lra; apply cos_neg]. Qed.
Lemma same_angle : forall x y, cos x = cos y -> sin x = sin y -> exists k : Z, x = y + 2 * IZR k * PI.
Proof.
  intros x y C S. assert (D : cos (x - y) = 1) by (rewrite cos_minus, C, S; pose proof (sin2_cos2 y) as Q; unfold Rsqr in Q; lra).
  assert (H : sin ((x - y) / 2) = 0).
  { replace (x - y) with (2 * ((x - y) / 2)) in D by field. rewrite cos_2a_sin in D. nra. }
  apply sin_eq_0_0 in H. destruct H as [k H]. exists k. lra.
Qed.
Lemma angle_back : forall y (k : Z), cos (y + 2 * IZR k * PI) = cos y /\ sin (y + 2 * IZR k * PI) = sin y.
Proof.
  intros y k. assert (C : cos (2 * IZR k * PI) = 1 /\ sin (2 * IZR k * PI) = 0).
  { replace (2 * IZR k * PI) with (2 * (IZR k * PI)) by ring. rewrite cos_2a_sin, sin_2a. rewrite (sin_eq_0_1 (IZR k * PI)) by (exists k; reflexivity). lra. }
  destruct C as [C S]. rewrite cos_plus, sin_plus, C, S. lra.
Qed.
Lemma norm_scaled : forall r (d : BiVector R), cnorm (den TBiv d) = 1 -> cnorm (den TBiv (scale TBiv r d)) = Rabs r.
Proof. intros r d D. rewrite (cnorm_ceq _ _ (scale_den TBiv r d)), cnorm_scale, D. ring. Qed.
(** Two numbers in polar form. *)
Lemma polar_parts : forall M N c q (b : BiVector R) c' q' (d : BiVector R), 0 < M -> 0 < N ->
  c * c + q * q * cnorm2 (den TBiv b) = 1 -> c' * c' + q' * q' * cnorm2 (den TBiv d) = 1 ->
  ceq (cscale M (den TSpin (rotor c q b))) (cscale N (den TSpin (rotor c' q' d))) -> M = N /\ c = c' /\ scale TBiv q b = scale TBiv q' d.
Proof.
  intros M N c q b c' q' d HM HN Q Q' E.
  assert (K : M * M = N * N).
  { pose proof (cnorm2_ceq _ _ E) as P. rewrite !cnorm2_scale, !(cnorm2_ceq _ _ (rotor_den _ _ _)), !cnorm2_rotor, Q, Q' in P. lra. }
  assert (MN : M = N) by nra. subst N. split; [reflexivity|].
  assert (F : ceq (den TSpin (rotor c q b)) (den TSpin (rotor c' q' d))).
  { intros k. specialize (E k). unfold cscale in E. apply Rmult_eq_reg_l in E; [exact E|lra]. }
  apply den_inj in F. split.
  - exact (f_equal (fun s : Spinor R => sca_0 (spinSca s)) F).
  - apply (f_equal (fun s : Spinor R => spinBiv s)) in F. exact F.
Qed.
Lemma log_polar : forall (S : Spinor R) (plane : BiVector R), let M := cnorm (den TSpin S) in
  deps < M -> Rabs (sca_0 (spinSca S)) <= (1 - deps) * M -> tiny < cnorm (den TBiv plane) ->
  exists th d, logG2 (exact TSpin S) (exact TBiv plane) = exact TSpin (mkSpin (Sca (ln M)) (scale TBiv th d)) /\
    cnorm (den TBiv d) = 1 /\ 0 < th < PI /\ ceq (den TSpin S) (cscale M (den TSpin (rotor (cos th) (sin th) d))).
Proof.
  intros S plane M HM HS HP. pose proof deps_pos as Hd0. destruct (logG2_cases S plane HM HP) as (th & d & HL & Hd & Hth & _ & He & _). fold M in HL, He.
  specialize (He HS). exists th, d. split; [exact HL|]. split; [exact Hd|]. split; [|apply ceq_sym, He].
  assert (C : M * cos th = sca_0 (spinSca S)).
  { specialize (He bS). revert He. clear. unfold rotor. destruct S as [[[a]] [[x y z]]], d as [[u v w]]. cbv -[Rplus Rminus Rmult Ropp cos sin cnorm M R R0 R1 IZR]. intros H. lra. }
  assert (A : Rabs (cos th) <= 1 - deps).
  { apply Rmult_le_reg_l with M; [lra|]. rewrite <- (Rabs_pos_eq M) at 1 by lra. rewrite <- Rabs_mult, C. lra. }
  split; apply Rnot_le_lt; intros N.
  - assert (th = 0) by lra. subst th. rewrite cos_0, Rabs_R1 in A. lra.
  - assert (th = PI) by lra. subst th. rewrite cos_PI, Rabs_left in A by lra. lra.
Qed.
Lemma all_logs : forall (S : Spinor R) (plane : BiVector R), let M := cnorm (den TSpin S) in
  deps < M -> Rabs (sca_0 (spinSca S)) <= (1 - deps) * M -> tiny < cnorm (den TBiv plane) ->
  exists th d, logG2 (exact TSpin S) (exact TBiv plane) = exact TSpin (mkSpin (Sca (ln M)) (scale TBiv th d)) /\
    cnorm (den TBiv d) = 1 /\ 0 < th < PI /\
    forall w, is_log w S <-> exists k : Z, w = mkSpin (Sca (ln M)) (scale TBiv (th + 2 * IZR k * PI) d).
Proof.
  intros S plane M HM HS HP. pose proof deps_pos as Hd0. destruct (log_polar S plane HM HS HP) as (th & d & HL & Hd & Hth & E). fold M in E, HL. exists th, d.
  split; [exact HL|]. split; [exact Hd|]. split; [exact Hth|]. intros w. unfold is_log.
  assert (Hd2 : cnorm2 (den TBiv d) = 1) by (rewrite <- cnorm_sq, Hd; ring).
  assert (St : 0 < sin th) by (apply sin_gt_0; lra). split.
  - intros H. pose proof (is_cexp_unique _ _ _ (spin_cexp w) H) as U. set (m := cnorm (den TBiv (spinBiv w))) in U.
    destruct (polar_parts (exp (sca_0 (spinSca w))) M (cos m) (sinc m) (spinBiv w) (cos th) (sin th) d) as (A & B & C).
    + apply exp_pos.
    + lra.
    + rewrite <- cnorm_sq. fold m. replace (sinc m * sinc m * (m * m)) with ((m * sinc m) * (m * sinc m)) by ring. rewrite sinc_mul. pose proof (sin2_cos2 m) as Q. unfold Rsqr in Q. lra.
    + rewrite Hd2. pose proof (sin2_cos2 th) as Q. unfold Rsqr in Q. lra.
    + eapply ceq_trans; [exact U|exact E].
    + assert (Z : sinc m <> 0).
      { intros Z. pose proof (f_equal (fun b : BiVector R => cnorm (den TBiv b)) C) as N. cbv beta in N. rewrite (norm_scaled (sin th) d Hd) in N.
        rewrite (cnorm_ceq _ _ (scale_den TBiv (sinc m) (spinBiv w))), cnorm_scale, Z, Rabs_R0, Rabs_pos_eq in N by lra. lra. }
      set (r := sin th / sinc m).
      assert (Hb : spinBiv w = scale TBiv r d).
      { apply (den_inj TBiv). intros k. pose proof (f_equal (fun b : BiVector R => den TBiv b k) C) as N. cbv beta in N. rewrite !(scale_den TBiv _ _ k) in *. unfold cscale in *. unfold r. apply (Rmult_eq_reg_l (sinc m)); [|exact Z]. etransitivity; [exact N|]. field. exact Z. }
      assert (Hm : m = Rabs r) by (unfold m; rewrite Hb; apply norm_scaled, Hd).
      destruct (same_angle r th) as [k K].
      * rewrite <- cos_abs, <- Hm. exact B.
      * rewrite <- sinc_abs, <- Hm. unfold r. field. exact Z.
      * exists k. rewrite <- K, <- Hb. rewrite <- A, ln_exp. clear. destruct w as [[[a]] b]. reflexivity.
  - intros [k ->]. set (r := th + 2 * IZR k * PI). eapply is_cexp_ceq; [apply ceq_refl| |apply spin_cexp]. cbn [spinSca spinBiv].
    change (sca_0 (Sca (ln M))) with (ln M). rewrite exp_ln by lra. rewrite (norm_scaled r d Hd), cos_abs.
    destruct (angle_back th k) as [C1 S1]. fold r in C1, S1. eapply ceq_trans; [|apply ceq_sym, E]. intros j. unfold cscale. f_equal.
    rewrite (rotor_den _ _ _ j), (rotor_den _ _ _ j). unfold cadd, cscale. rewrite (scale_den TBiv r d j). unfold cscale. rewrite <- Rmult_assoc, sinc_abs, C1, S1. reflexivity.
Qed.
Lemma principal_log : forall (S : Spinor R) (plane : BiVector R), let M := cnorm (den TSpin S) in
  deps < M -> Rabs (sca_0 (spinSca S)) <= (1 - deps) * M -> tiny < cnorm (den TBiv plane) ->
  exists L, logG2 (exact TSpin S) (exact TBiv plane) = exact TSpin L /\ is_log L S /\
    forall w, is_log w S -> angle_of L <= angle_of w /\ (angle_of w <= angle_of L -> w = L).
Proof.
  intros S plane M HM HS HP. destruct (all_logs S plane HM HS HP) as (th & d & HL & Hd & Hth & A). fold M in HL, A. eexists. split; [exact HL|]. split.
  - apply A. exists 0%Z. do 2 f_equal. ring.
  - intros w H. apply A in H. destruct H as [k ->]. unfold angle_of. cbn [spinBiv]. rewrite !norm_scaled by exact Hd. rewrite (Rabs_pos_eq th) by lra.
    destruct (Z.eq_dec k 0) as [->|N].
    + replace (th + 2 * 0 * PI) with th by ring. rewrite Rabs_pos_eq by lra. split; [lra|]. reflexivity.
    + assert (L : th < Rabs (th + 2 * IZR k * PI)).
      { destruct (Z_lt_le_dec k 0) as [K|K].
        - assert (IZR k <= -1) by (apply IZR_le; lia). rewrite Rabs_left; nra.
        - assert (1 <= IZR k) by (apply IZR_le; lia). rewrite Rabs_pos_eq; nra. }
      split; [lra|]. intros C. lra.
Qed.
Lemma two_roots : forall q r : Spinor R, 0 < sca_0 (spinSca q) -> (ceq (gp (den TSpin r) (den TSpin r)) (gp (den TSpin q) (den TSpin q)) <-> r = q \/ r = neg TSpin q).
Proof.
  intros q r H. split.
  - intros E. pose proof (E bS) as E0. pose proof (E bE12) as E1. pose proof (E bE13) as E2. pose proof (E bE23) as E3. clear E. revert H E0 E1 E2 E3.
    destruct q as [[[c]] [[u v w]]], r as [[[a]] [[x y z]]]. cbv -[Rplus Rminus Rmult Ropp Rlt R R0 R1 IZR]. intros H E0 E1 E2 E3.
    assert (F0 : a * a - x * x - y * y - z * z = c * c - u * u - v * v - w * w) by lra.
    assert (F1 : a * z = c * w) by lra. assert (F2 : a * y = c * v) by lra. assert (F3 : a * x = c * u) by lra. clear E0 E1 E2 E3.
    assert (P : (a * a - c * c) * (a * a + (u * u + v * v + w * w)) = 0).
    { transitivity (a * a * (a * a - x * x - y * y - z * z) + (a * x) * (a * x) + (a * y) * (a * y) + (a * z) * (a * z) - c * c * (a * a) + (a * a - c * c) * (u * u + v * v + w * w)); [ring|]. rewrite F0, F1, F2, F3. ring. }
    assert (Q : a * a = c * c).
    { apply Rmult_integral in P. destruct P as [P|P]; [lra|]. exfalso.
      assert (a = 0) by nra. subst a. assert (u = 0) by nra. assert (v = 0) by nra. assert (w = 0) by nra. subst. nra. }
    assert (D : a = c \/ a = - c). { assert ((a - c) * (a + c) = 0) by lra. apply Rmult_integral in H0. lra. }
    destruct D as [D|D]; subst a; [left|right].
    + assert (x = u) by (apply Rmult_eq_reg_l with c; lra). assert (y = v) by (apply Rmult_eq_reg_l with c; lra). assert (z = w) by (apply Rmult_eq_reg_l with c; lra). subst. reflexivity.
    + assert (x = - u) by (apply Rmult_eq_reg_l with c; lra). assert (y = - v) by (apply Rmult_eq_reg_l with c; lra). assert (z = - w) by (apply Rmult_eq_reg_l with c; lra). subst. reflexivity.
  - intros [-> | ->]; [reflexivity|]. rewrite (neg_den TSpin q), copp_scale, gp_scale_l, gp_scale_r. intros k. unfold cscale. ring.
Qed.
Lemma all_roots : forall (S : Spinor R) (plane : BiVector R), let M := cnorm (den TSpin S) in
  4 * deps <= M -> Rabs (sca_0 (spinSca S)) <= (1 - deps) * M -> tiny < cnorm (den TBiv plane) ->
  exists q, sqrtG2 (exact TSpin S) (exact TBiv plane) = exact TSpin q /\ 0 < sca_0 (spinSca q) /\
    forall r, is_root r S <-> r = q \/ r = neg TSpin q.
Proof.
  intros S plane M HM HS HP. pose proof deps_pos as Hd0. destruct (sqrtG2_square S plane HM HP) as (q & Hq & P & Hn & E & _). fold M in Hn, E. specialize (E HS). exists q. split; [exact Hq|].
  assert (D : ceq (gp (den TSpin q) (den TSpin q)) (den TSpin S)) by (rewrite <- E; exact (ceq_sym _ _ (mul_den TSpin TSpin q q))).
  assert (P1 : 0 < sca_0 (spinSca q)).
  { destruct P as [P|P]; [exact P|]. exfalso. assert (X : sca_0 (spinSca S) = - M).
    { rewrite <- Hn, <- E. clear - P. revert P. destruct q as [[[a]] [[x y z]]]. cbv -[Rplus Rminus Rmult Ropp R R0 R1 IZR]. intros <-. ring. }
    rewrite X, Rabs_left in HS by lra. nra. }
  split; [exact P1|]. intros r. rewrite <- two_roots by exact P1. unfold is_root. split; intros H; [eapply ceq_trans; [exact H|apply ceq_sym, D]|eapply ceq_trans; [exact H|exact D]].
Qed.
(** On the negative axis every plane gives a root and a logarithm. *)
Lemma minus_one_all : forall b : BiVector R, cnorm (den TBiv b) = 1 ->
  is_root (mkSpin (Sca 0) b) (mkSpin (Sca (-1)) (zero TBiv)) /\ is_log (mkSpin (Sca 0) (scale TBiv PI b)) (mkSpin (Sca (-1)) (zero TBiv)).
Proof.
  intros b Hb. pose proof (unit_biv_sq b Hb) as Q. split.
  - unfold is_root. eapply ceq_trans; [apply gp_ceq; apply spin_den'|]. cbn [spinSca spinBiv]. change (sca_0 (Sca 0)) with 0.
    assert (Z : ceq (cadd (cscale 0 cone) (den TBiv b)) (den TBiv b)) by (intros k; unfold cadd, cscale; ring).
    rewrite Z, Q. intros k. dblade k; cbv -[Rplus Rmult Ropp R R0 R1 IZR]; ring.
  - unfold is_log. eapply is_cexp_ceq; [apply ceq_refl| |apply spin_cexp]. cbn [spinSca spinBiv]. change (sca_0 (Sca 0)) with 0. rewrite exp_0, (norm_scaled PI b Hb).
    pose proof PI_RGT_0. rewrite Rabs_pos_eq by lra. intros k. unfold cscale at 1. rewrite (rotor_den _ _ _ k). unfold cadd, cscale. rewrite (scale_den TBiv PI b k). unfold cscale.
    replace (sinc PI * (PI * den TBiv b k)) with (PI * sinc PI * den TBiv b k) by ring. rewrite sinc_mul, sin_PI, cos_PI. dblade k; cbv -[Rplus Rmult Ropp R R0 R1 IZR den]; clear; destruct b as [[x y z]]; cbv -[Rplus Rmult Ropp R R0 R1 IZR]; ring.
Qed.
Lemma norm_345 : cnorm (den TSpin (mkSpin (Sca 3) (Biv 0 4 0))) = 5.
Proof. unfold cnorm. replace (cnorm2 _) with (5 * 5) by dring. apply sqrt_square. lra. Qed.
Lemma prin_example : let S := mkSpin (Sca 3) (Biv 0 4 0) in let M := cnorm (den TSpin S) in
  4 * deps <= M /\ Rabs (sca_0 (spinSca S)) <= (1 - deps) * M /\ tiny < cnorm (den TBiv (c_e23 : BiVector R)) /\ is_root (mkSpin (Sca 2) (Biv 0 1 0)) S.
Proof.
  cbv zeta. rewrite norm_345. pose proof deps_val. pose proof tiny_small. split; [lra|]. split; [change (sca_0 (spinSca (mkSpin (Sca 3) (Biv 0 4 0)))) with 3; rewrite Rabs_pos_eq; lra|]. split.
  - unfold cnorm. replace (cnorm2 (den TBiv (c_e23 : BiVector R))) with 1 by dring. rewrite sqrt_1. lra.
  - intros k. dblade k; cbv -[Rplus Rmult Ropp R R0 R1 IZR]; ring.
Qed.
