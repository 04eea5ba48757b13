(** * Powers of spinors and interpolation between vectors (proofs only). *)

Require Import Reals Lra List Bool Setoid Morphisms.
From Flocq Require Import Core.
Require Import Verif.Num Verif.Types Verif.Priv Verif.OpsUni Verif.OpsAdd
  Verif.OpsSub Verif.OpsMul Verif.Const Verif.Validity Verif.Func Verif.SpecCl Verif.SpecExp
  Verif.SpecFunc Verif.SpecGeom Verif.RealInst Verif.AlgTac Verif.AlgMul Verif.AlgFacts Verif.AlgSpec Verif.AlgThm
  Verif.FuncFacts Verif.ExpFacts Verif.ExpThm Verif.FuncThm Verif.LogThm Verif.GeomThm Verif.SpecSlerp.
Local Open Scope R_scope.

(** ** The logarithm away from its branches *)
Lemma rotor_sca c q B : sca_0 (spinSca (rotor c q B)) = c.
Proof. reflexivity. Qed.
Lemma scale_sca g (S : Spinor R) : sca_0 (spinSca (scale TSpin g S)) = g * sca_0 (spinSca S).
Proof. destruct S as [[[s]] [[x y z]]]; dring. Qed.
Lemma scale_biv g (S : Spinor R) : spinBiv (scale TSpin g S) = scale TBiv g (spinBiv S).
Proof. destruct S as [[[s]] [[x y z]]]; reflexivity. Qed.

Lemma log_form : forall (S : Spinor R) (plane : BiVector R), let M := cnorm (den TSpin S) in
  deps < M -> Rabs (sca_0 (spinSca S)) <= (1 - deps) * M -> tiny < cnorm (den TBiv plane) ->
  exists L, logG2 (exact TSpin S) (exact TBiv plane) = exact TSpin L /\
    let m := cnorm (den TBiv (spinBiv L)) in
    sca_0 (spinSca L) = ln M /\ tiny < m < PI /\
    S = scale TSpin M (rotor (cos m) (sinc m) (spinBiv L)).
Proof.
  intros S plane M HM HS Hp. pose proof deps_pos as Hd. pose proof tiny_pos as Ht.
  destruct (logG2_exp S plane HM Hp) as (L & r & HL & Hr & Hs & Hm & Hex & _).
  fold M in Hs, Hex; specialize (Hex HS); subst r.
  exists L; split; [exact HL|]; intros m; split; [exact Hs|]; fold m in Hm.
  assert (EM : exp (sca_0 (spinSca L)) = M) by (rewrite Hs; apply exp_ln; lra).
  destruct (Rlt_le_dec tiny m) as [h|h].
  - rewrite (exp_Spin_form L h) in Hr; apply (exact_inj TSpin) in Hr; rewrite EM in Hr; fold m in Hr.
    split; [split; [exact h|]|symmetry; exact Hr].
    destruct (Rle_lt_or_eq_dec _ _ Hm) as [g|g]; [exact g|exfalso].
    rewrite <- Hr, scale_sca, rotor_sca, g, cos_PI in HS.
    rewrite Rabs_left in HS by lra. nra.
  - exfalso.
    assert (E : exp_Biv (exact TBiv (spinBiv L)) = exact TSpin (rotor 1 0 (zero TBiv))).
    { rewrite exp_Biv_exact; fold m; rewrite Rltb_false by exact h; reflexivity. }
    rewrite (exp_Spin_exact L _ E) in Hr; apply (exact_inj TSpin) in Hr; rewrite EM in Hr.
    rewrite <- Hr, scale_sca, rotor_sca, Rabs_pos_eq in HS by lra. nra.
Qed.

(** ** Powers *)
Lemma sinc_abs x y : sinc (Rabs x * y) * x = sinc (x * y) * x.
Proof.
  unfold Rabs; destruct (Rcase_abs x) as [h|h]; [|reflexivity].
  unfold sinc; replace (- x * y) with (- (x * y)) by ring.
  destruct (Req_EM_T (x * y) 0), (Req_EM_T (- (x * y)) 0); try lra.
  rewrite sin_neg; field; split; intros e; apply n; rewrite e; ring.
Qed.
Lemma cos_abs x y : cos (Rabs x * y) = cos (x * y).
Proof.
  unfold Rabs; destruct (Rcase_abs x) as [h|h]; [|reflexivity].
  replace (- x * y) with (- (x * y)) by ring; apply cos_neg.
Qed.
Lemma sinc_zero : sinc 0 = 1.
Proof. unfold sinc; destruct (Req_EM_T 0 0); [reflexivity | lra]. Qed.

Lemma pow_form (L : Spinor R) t : let m := cnorm (den TBiv (spinBiv L)) in
  t = 0 \/ tiny < Rabs t * m ->
  exp_Spin (mul_Dub_Spin (Some t : xreal) (exact TSpin L)) =
  exact TSpin (scale TSpin (exp (t * sca_0 (spinSca L)))
                 (rotor (cos (t * m)) (sinc (t * m) * t) (spinBiv L))).
Proof.
  intros m Ht.
  change (mul_Dub_Spin (Some t : xreal) (exact TSpin L)) with (scale TSpin (Some t : xreal) (exact TSpin L)).
  rewrite scale_exact.
  destruct Ht as [-> | Ht].
  - assert (E : exp_Biv (exact TBiv (spinBiv (scale TSpin 0 L))) = exact TSpin (rotor 1 0 (zero TBiv))).
    { rewrite exp_Biv_exact, Rltb_false; [reflexivity|].
      rewrite scale_biv, (cnorm_ceq _ _ (scale_den TBiv 0 (spinBiv L))), cnorm_scale, Rabs_R0, Rmult_0_l.
      apply Rlt_le, tiny_pos. }
    rewrite (exp_Spin_exact _ _ E), scale_sca, !Rmult_0_l, cos_0, Rmult_0_r.
    apply (f_equal (exact TSpin)), (den_inj TSpin); intro k; clear; dvals; dblade k; dring.
  - assert (Em : cnorm (den TBiv (spinBiv (scale TSpin t L))) = Rabs t * m).
    { rewrite scale_biv, (cnorm_ceq _ _ (scale_den TBiv t (spinBiv L))), cnorm_scale; reflexivity. }
    rewrite exp_Spin_form; rewrite Em; [|exact Ht].
    apply (f_equal (exact TSpin)). rewrite scale_sca, scale_biv.
    rewrite cos_abs, <- sinc_abs.
    apply (den_inj TSpin); rewrite !scale_den, !rotor_den, scale_den.
    intro k; unfold cadd, cscale; ring.
Qed.

Lemma rotor_mul c q c' q' B : mul TSpin TSpin (rotor c q B) (rotor c' q' B) =
  rotor (c * c' - q * q' * cnorm2 (den TBiv B)) (c * q' + q * c') B.
Proof. apply (den_inj TSpin); intro k; dvals; dblade k; dring. Qed.
Lemma scale_mul g h (S T : Spinor R) : mul TSpin TSpin (scale TSpin g S) (scale TSpin h T) = scale TSpin (g * h) (mul TSpin TSpin S T).
Proof.
  destruct S as [[[s]] [[x y z]]], T as [[[s']] [[x' y' z']]].
  apply (den_inj TSpin); intro k; dblade k; dring.
Qed.
Lemma sinc_times m t : sinc (t * m) * t * m = sin (t * m).
Proof. rewrite Rmult_assoc, Rmult_comm; apply sinc_mul. Qed.

Lemma power_law : forall (S : Spinor R) (plane : BiVector R), let M := cnorm (den TSpin S) in
  deps < M -> Rabs (sca_0 (spinSca S)) <= (1 - deps) * M -> tiny < cnorm (den TBiv plane) ->
  exists (th : R) (P : R -> Spinor R), 0 < th < PI /\ sca_0 (spinSca S) = M * cos th /\
    (forall t, t = 0 \/ tiny < Rabs t * th -> power S plane t = exact TSpin (P t)) /\
    P 0 = one TSpin /\ P 1 = S /\
    (forall s t, mul TSpin TSpin (P s) (P t) = P (s + t)) /\
    (forall t, cnorm (den TSpin (P t)) = Rpower M t) /\
    (forall t, sca_0 (spinSca (P t)) = Rpower M t * cos (t * th)).
Proof.
  intros S plane M HM HS Hp. pose proof deps_pos as Hd. pose proof tiny_pos as Ht.
  destruct (log_form S plane HM HS Hp) as (L & HL & Hs & [Hm1 Hm2] & ES). fold M in Hs, ES.
  set (m := cnorm (den TBiv (spinBiv L))) in *.
  exists m, (fun t => scale TSpin (Rpower M t) (rotor (cos (t * m)) (sinc (t * m) * t) (spinBiv L))).
  split; [lra|]. split; [rewrite ES, scale_sca, rotor_sca; reflexivity|].
  split; [|split; [|split; [|split; [|split]]]].
  - intros t h; unfold power; rewrite HL, (pow_form L t h), Hs; reflexivity.
  - rewrite Rpower_O, Rmult_0_r, Rmult_0_l, cos_0 by lra.
    apply (den_inj TSpin); intro k; clear; dvals; dblade k; dring.
  - rewrite Rpower_1, Rmult_1_r, Rmult_1_l by lra; symmetry; exact ES.
  - intros s t; rewrite scale_mul, rotor_mul, <- Rpower_plus. apply (f_equal (scale TSpin _)).
    replace (cnorm2 _) with (m * m) by (unfold m; apply cnorm_sq).
    replace (sinc (s * m) * s * (sinc (t * m) * t) * (m * m)) with ((sinc (s * m) * s * m) * (sinc (t * m) * t * m)) by ring.
    rewrite !sinc_times, Rmult_plus_distr_r, <- cos_plus, <- Rmult_plus_distr_r.
    f_equal.
    apply (Rmult_eq_reg_r m); [|lra].
    rewrite sinc_times, Rmult_plus_distr_r.
    replace (cos (s * m) * (sinc (t * m) * t) * m) with (cos (s * m) * (sinc (t * m) * t * m)) by ring.
    replace (sinc (s * m) * s * cos (t * m) * m) with ((sinc (s * m) * s * m) * cos (t * m)) by ring.
    rewrite !sinc_times, Rmult_plus_distr_r, sin_plus; ring.
  - intros t; apply scaled_norm; [apply Rlt_le, exp_pos|].
    rewrite (cnorm2_ceq _ _ (rotor_den _ _ _)), cnorm2_rotor, <- cnorm_sq; fold m.
    replace (sinc (t * m) * t * (sinc (t * m) * t) * (m * m)) with ((sinc (t * m) * t * m) * (sinc (t * m) * t * m)) by ring.
    rewrite sinc_times; pose proof (sin2_cos2 (t * m)) as h; unfold Rsqr in h; lra.
  - intros t; rewrite scale_sca, rotor_sca; reflexivity.
Qed.

(** ** The angle between two vectors *)
Lemma prod_norm (a b : Vector R) : cnorm (den TSpin (mul TVec TVec b a)) = cnorm (den TVec a) * cnorm (den TVec b).
Proof.
  unfold cnorm. replace (cnorm2 (den TSpin (mul TVec TVec b a))) with (cnorm2 (den TVec b) * cnorm2 (den TVec a)) by (dvals; dring).
  rewrite Rmult_comm, sqrt_mult_alt; [reflexivity | apply cnorm2_nonneg].
Qed.
Lemma prod_sca (a b : Vector R) : sca_0 (spinSca (mul TVec TVec b a)) = dot a b.
Proof. dvals; dring. Qed.
Lemma vec_norm (a : Vector R) : cnorm (den TVec a) * cnorm (den TVec a) = dot a a.
Proof. rewrite cnorm_sq; dvals; dring. Qed.

Lemma sinc_pos m : m <> 0 -> sinc m = sin m / m.
Proof. intros h; unfold sinc; destruct (Req_EM_T m 0); [contradiction | reflexivity]. Qed.

Lemma prod_log : forall (a b : Vector R) (plane : BiVector R),
  let M := cnorm (den TVec a) * cnorm (den TVec b) in
  deps < M -> Rabs (dot a b) <= (1 - deps) * M -> tiny < cnorm (den TBiv plane) ->
  exists L, logG2 (exact TSpin (mul TVec TVec b a)) (exact TBiv plane) = exact TSpin L /\
    let th := cnorm (den TBiv (spinBiv L)) in
    sca_0 (spinSca L) = ln M /\ tiny < th < PI /\ dot a b = M * cos th /\
    axis (spinBiv L) = vtimes (th / (M * sin th)) (cross b a).
Proof.
  intros a b plane M HM Hab Hp. pose proof deps_pos as Hd. pose proof tiny_pos as Ht.
  pose proof (log_form (mul TVec TVec b a) plane) as F. cbv zeta in F.
  rewrite prod_norm, prod_sca in F. fold M in F.
  destruct (F HM Hab Hp) as (L & HL & Hs & Hm & ES). clear F.
  exists L; split; [exact HL|]; intros m; fold m in Hm, ES.
  split; [exact Hs|]; split; [exact Hm|].
  assert (H0 : 0 < sin m) by (apply sin_gt_0; lra).
  split; [rewrite <- prod_sca, ES, scale_sca, rotor_sca; reflexivity|].
  assert (EB : axis (spinBiv (mul TVec TVec b a)) = vtimes (M * sinc m) (axis (spinBiv L))).
  { rewrite ES, scale_biv. clear. destruct (spinBiv L) as [[x y z]].
    cbv -[Rplus Rminus Rmult Ropp R R0 R1 IZR cos sinc M m]; peel; ring. }
  rewrite (proj2 (vector_product b a)) in EB; rewrite EB, sinc_pos by lra.
  generalize (axis (spinBiv L)); intros [[x y z]].
  cbv -[Rplus Rminus Rmult Ropp Rdiv Rinv R R0 R1 IZR sin M m]; peel; field; lra.
Qed.

Lemma angle_between : forall (a b : Vector R) (plane : BiVector R),
  let M := cnorm (den TVec a) * cnorm (den TVec b) in
  deps < M -> Rabs (dot a b) <= (1 - deps) * M -> tiny < cnorm (den TBiv plane) ->
  exists L, logG2 (exact TSpin (mul TVec TVec b a)) (exact TBiv plane) = exact TSpin L /\
    let th := cnorm (den TBiv (spinBiv L)) in
    sca_0 (spinSca L) = ln M /\ 0 < th < PI /\ dot a b = M * cos th /\
    axis (spinBiv L) = vtimes (th / (M * sin th)) (cross b a).
Proof.
  intros a b plane M HM Hab Hp; destruct (prod_log a b plane HM Hab Hp) as (L & H1 & H2 & H3 & H4 & H5).
  exists L; split; [exact H1|]; cbv zeta; split; [exact H2|]; split; [pose proof tiny_pos; lra|]; split; assumption.
Qed.

(** ** Interpolation *)
Lemma rotate_scale g r v : rotate (scale TSpin g r) v = vtimes (g * g) (rotate r v).
Proof. destruct r as [[[s]] [[x y z]]], v as [[v0 v1 v2]]; apply (den_inj TVec); intro k; dblade k; dring. Qed.
Lemma sandwich_vec s (v w : Vector R) : rotate s v = w -> ceq (den TImsp (sandwich s v)) (den TVec w).
Proof.
  intros <-; unfold rotate. pose proof (sandwich_tri s v) as h.
  destruct (sandwich s v) as [[[x y z]] [[t]]]; cbn in h; subst t; intro k; dblade k; dring.
Qed.

Lemma eq_vec (u0 u1 u2 v0 v1 v2 : R) : u0 = v0 -> u1 = v1 -> u2 = v2 -> Vec u0 u1 u2 = Vec v0 v1 v2.
Proof. intros -> -> ->; reflexivity. Qed.

Lemma slerp : forall (a b : Vector R) (plane : BiVector R) (t : R),
  let M := cnorm (den TVec a) * cnorm (den TVec b) in
  deps < M -> Rabs (dot a b) <= (1 - deps) * M -> tiny < cnorm (den TBiv plane) ->
  exists th, 0 < th < PI /\ dot a b = M * cos th /\
   (t = 0 \/ tiny < Rabs (t / 2) * th ->
    exists q, power (mul TVec TVec b a) plane (t / 2) = exact TSpin q /\
      cnorm (den TSpin q) = Rpower M (t / 2) /\
      ceq (den TImsp (sandwich q a))
          (den TVec (vtimes (Rpower M t)
             (vplus (vtimes (sin ((1 - t) * th) / sin th) a)
                    (vtimes (sin (t * th) / sin th * (cnorm (den TVec a) / cnorm (den TVec b))) b))))).
Proof.
  intros a b plane t M HM Hab Hp. pose proof deps_pos as Hd. pose proof tiny_pos as Ht.
  destruct (prod_log a b plane HM Hab Hp) as (L & HL & Hs & Hm & Hc & Hx).
  set (m := cnorm (den TBiv (spinBiv L))) in *. exists m; split; [lra|]; split; [exact Hc|]; intros ht.
  assert (H0 : 0 < sin m) by (apply sin_gt_0; lra).
  assert (Hab0 : cnorm (den TVec a) <> 0 /\ cnorm (den TVec b) <> 0) by (split; intros h; unfold M in HM; rewrite h in HM; lra).
  set (la := cnorm (den TVec a)) in *; set (lb := cnorm (den TVec b)) in *.
  change (la * lb) with M in Hs, Hc, Hx.
  unfold power; rewrite HL, pow_form by (destruct ht as [-> | ht]; [left; field | right; exact ht]).
  eexists; split; [reflexivity|]. rewrite Hs. fold m.
  set (x := t / 2 * m).
  assert (Hx2 : sin x * sin x + cos x * cos x = 1) by (pose proof (sin2_cos2 x) as h; unfold Rsqr in h; lra).
  assert (Ex : sinc x * (t / 2) * m = sin x) by apply sinc_times.
  split.
  { apply scaled_norm; [apply Rlt_le, exp_pos|].
    rewrite (cnorm2_ceq _ _ (rotor_den _ _ _)), cnorm2_rotor, <- cnorm_sq; fold m.
    replace (sinc x * (t / 2) * (sinc x * (t / 2)) * (m * m)) with ((sinc x * (t / 2) * m) * (sinc x * (t / 2) * m)) by ring.
    rewrite Ex; lra. }
  apply sandwich_vec. rewrite rotate_scale.
  replace (exp (t / 2 * ln M) * exp (t / 2 * ln M)) with (Rpower M t)
    by (unfold Rpower; rewrite <- exp_plus; f_equal; field).
  apply (f_equal (vtimes (Rpower M t))).
  rewrite rotate_rotor. replace (cnorm2 (den TBiv (spinBiv L))) with (m * m) by (unfold m; apply cnorm_sq).
  assert (Eq : sinc x * (t / 2) = sin x / m) by (rewrite <- Ex; field; lra).
  rewrite Eq. replace (sin x / m * (sin x / m) * (m * m)) with (sin x * sin x) by (field; lra).
  assert (Et : t * m = 2 * x) by (unfold x; field).
  replace ((1 - t) * m) with (m - t * m) by ring. rewrite sin_minus, Et, sin_2a, cos_2a.
  change (biv_0 (spinBiv L)) with (vec_0 (axis (spinBiv L))).
  change (biv_1 (spinBiv L)) with (vec_1 (axis (spinBiv L))).
  change (biv_2 (spinBiv L)) with (vec_2 (axis (spinBiv L))).
  rewrite Hx.
  pose proof (vec_norm a) as Na; fold la in Na.
  assert (Hd0 : dot (vtimes (m / (M * sin m)) (cross b a)) a = 0).
  { clear. destruct a as [[a0 a1 a2]], b as [[b0 b1 b2]]; cbv -[Rplus Rminus Rmult Ropp Rdiv Rinv R R0 R1 IZR sin M m]; ring. }
  rewrite Hd0. clear Hd0 Eq Et Ex Hx HL Hs ht Hp Hab.
  assert (HM0 : M <> 0) by lra.
  assert (EM : M = la * lb) by reflexivity.
  assert (Ec : dot a b = la * lb * cos m) by (rewrite <- EM; exact Hc).
  rewrite EM. clear Hc EM HM HM0. destruct Hab0 as [Ha0 Hb0]. clearbody m la lb. clear M plane L Hd.
  set (c := cos x) in *; set (sx := sin x) in *; set (cm := cos m) in *; set (sm := sin m) in *.
  clearbody c sx cm sm. assert (Hm0 : m <> 0) by lra. assert (Hs0 : sm <> 0) by lra. clear x t Hm.
  assert (Gen : forall a0 b0 z cr, cr = m / (la * lb * sm) * (dot a a * b0 - dot a b * a0) ->
     (c * c - sx * sx) * a0 + 2 * (sx / m) * (sx / m) * 0 * z + 2 * c * (sx / m) * cr =
     (sm * (c * c - sx * sx) - cm * (2 * sx * c)) / sm * a0 + 2 * sx * c / sm * (la / lb) * b0).
  { intros a0 b0 z cr ->; rewrite Ec, <- Na; field; repeat split; assumption. }
  apply eq_vec; apply Gen; clear;
    destruct a as [[a0 a1 a2]], b as [[b0 b1 b2]];
    cbv -[Rplus Rminus Rmult Ropp Rdiv Rinv R R0 R1 IZR]; ring.
Qed.

(** ** Mirrors *)
Lemma mirrored_by (n v w : Vector R) : mirrored n v w -> vtimes (dot n n) w = vplus (vtimes (dot n n) v) (vtimes (- 2 * dot v n) n).
Proof.
  intros [H [k ->]].
  assert (E : k * dot n n = - 2 * dot v n).
  { replace (dot (vplus v (vplus v (vtimes k n))) n) with (2 * dot v n + k * dot n n) in H
      by (destruct n as [[n0 n1 n2]], v as [[v0 v1 v2]]; cbv -[Rplus Rminus Rmult Ropp R R0 R1 IZR]; ring). lra. }
  rewrite <- E; clear.
  destruct n as [[n0 n1 n2]], v as [[v0 v1 v2]]; apply eq_vec; cbv -[Rplus Rminus Rmult Ropp R R0 R1 IZR]; ring.
Qed.
Lemma vtimes_vtimes x y v : vtimes x (vtimes y v) = vtimes (x * y) v.
Proof. destruct v as [[v0 v1 v2]]; apply eq_vec; cbv -[Rplus Rminus Rmult Ropp R R0 R1 IZR]; ring. Qed.
Lemma dot_vtimes x u v : dot (vtimes x u) v = x * dot u v.
Proof. destruct u as [[u0 u1 u2]], v as [[v0 v1 v2]]; cbv -[Rplus Rminus Rmult Ropp R R0 R1 IZR]; ring. Qed.
Lemma two_mirrors_rotate : forall a b v p w : Vector R, mirrored a v p -> mirrored b p w ->
  rotate (mul TVec TVec b a) v = vtimes (dot a a * dot b b) w.
Proof.
  intros a b v p w H1 H2; apply mirrored_by in H1, H2.
  rewrite <- vtimes_vtimes, H2.
  transitivity (vplus (vtimes (dot b b) (vtimes (dot a a) p)) (vtimes (- 2 * dot (vtimes (dot a a) p) b) b)).
  2: { rewrite dot_vtimes; clear. destruct a as [[a0 a1 a2]], b as [[b0 b1 b2]], p as [[p0 p1 p2]]; apply eq_vec;
       cbv -[Rplus Rminus Rmult Ropp R R0 R1 IZR]; ring. }
  rewrite H1; clear. destruct a as [[a0 a1 a2]], b as [[b0 b1 b2]], v as [[v0 v1 v2]]; apply eq_vec;
       cbv -[Rplus Rminus Rmult Ropp R R0 R1 IZR]; ring.
Qed.
Lemma rotate_mul (s t : Spinor R) v : rotate (mul TSpin TSpin s t) v = rotate s (rotate t v).
Proof.
  pose proof (sandwich_vec t v _ eq_refl) as H2.
  pose proof (sandwich_vec (mul TSpin TSpin s t) v _ eq_refl) as H1.
  pose proof (sandwich_vec s (rotate t v) _ eq_refl) as H3.
  apply (den_inj TVec); rewrite <- H1, <- H3. clear H1 H3. unfold sandwich at 1 2.
  rewrite !(mul_den TImsp TSpin), !(mul_den TSpin TVec), !(reverse_den TSpin), (mul_den TSpin TSpin s t).
  rewrite <- H2. unfold sandwich. rewrite (mul_den TImsp TSpin), (mul_den TSpin TVec), (reverse_den TSpin).
  rewrite crev_gp, !gp_assoc; reflexivity.
Qed.
Lemma rotate_vtimes s x v : rotate s (vtimes x v) = vtimes x (rotate s v).
Proof. destruct s as [[[s]] [[a b c]]], v as [[v0 v1 v2]]; apply eq_vec; cbv -[Rplus Rminus Rmult Ropp R R0 R1 IZR]; ring. Qed.

Lemma mirrors_rotate : forall l v w, mirrors l v w ->
  ceq (den TImsp (sandwich (mirror_product l) v)) (den TVec (vtimes (mirror_scale l) w)).
Proof.
  intros l v w H; apply sandwich_vec; induction H as [v | a b l v p q w H1 H2 H3 IH]; cbn [mirror_product mirror_scale].
  - destruct v as [[v0 v1 v2]]; apply eq_vec; cbv -[Rplus Rminus Rmult Ropp R R0 R1 IZR]; ring.
  - rewrite rotate_mul, (two_mirrors_rotate a b v p q H1 H2), rotate_vtimes, IH, vtimes_vtimes; reflexivity.
Qed.

Lemma across (B : BiVector R) : exists a : Vector R, dot a a <> 0 /\ dot (axis B) a = 0.
Proof.
  destruct B as [[x y z]]. destruct (Req_dec x 0) as [-> | h].
  - exists (Vec 1 0 0); split; cbv -[Rplus Rminus Rmult Ropp R R0 R1 IZR not]; [intros e | ring]; lra.
  - exists (Vec (- y) x 0); split; cbv -[Rplus Rminus Rmult Ropp R R0 R1 IZR not]; [intros e | ring].
    assert (0 < x * x) by nra. pose proof (Rle_0_sqr y) as g; unfold Rsqr in g. lra.
Qed.
Lemma spinor_is_two : forall S : Spinor R, exists a b : Vector R, mul TVec TVec b a = S.
Proof.
  intros S; destruct (across (spinBiv S)) as (a & Ha & Hp).
  exists a, (vtimes (/ dot a a) (imspVec (mul TSpin TVec S a))).
  assert (E : ceq (den TVec (imspVec (mul TSpin TVec S a))) (gp (den TSpin S) (den TVec a))).
  { rewrite <- (mul_den TSpin TVec). change (mulTy TSpin TVec) with TImsp.
    assert (T : tri_0 (imspTri (mul TSpin TVec S a)) = dot (axis (spinBiv S)) a)
      by (clear; destruct S as [[[s]] [[x y z]]], a as [[a0 a1 a2]]; cbv -[Rplus Rminus Rmult Ropp R R0 R1 IZR]; ring).
    rewrite Hp in T. destruct (mul TSpin TVec S a) as [[[x y z]] [[t]]]; cbn in T; subst t; intro k; dblade k; dring. }
  assert (A2 : ceq (gp (den TVec a) (den TVec a)) (cscale (dot a a) cone)) by (clear; dvals; intro k; dblade k; dring).
  apply (den_inj TSpin). change (den TSpin) with (den (mulTy TVec TVec)) at 1. rewrite (mul_den TVec TVec).
  change (vtimes (/ dot a a) ?v) with (scale TVec (/ dot a a) v). rewrite (scale_den TVec), E, gp_scale_l, gp_assoc, A2, gp_scale_r.
  rewrite gp_one_r; intro k; unfold cscale; field; exact Ha.
Qed.

Lemma rotated_products : forall (r : Spinor R) (u v : Vector R),
  ceq (den TSpin (mul TVec TVec (rotate r u) (rotate r v)))
      (cscale (cnorm2 (den TSpin r)) (den TSpin (mul TSpin TSpin (mul TSpin TSpin r (mul TVec TVec u v)) (reverse TSpin r)))) /\
  cross (rotate r u) (rotate r v) = vtimes (cnorm2 (den TSpin r)) (rotate r (cross u v)).
Proof.
  intros r u v; split.
  - destruct r as [[[s]] [[x y z]]], u as [[u0 u1 u2]], v as [[v0 v1 v2]]; intro k; dblade k; dring.
  - destruct r as [[[s]] [[x y z]]], u as [[u0 u1 u2]], v as [[v0 v1 v2]]; apply eq_vec;
      cbv -[Rplus Rminus Rmult Ropp R R0 R1 IZR]; ring.
Qed.
