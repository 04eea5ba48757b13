(** * Geometry built from the operators, exact arithmetic (proofs only). *)

Require Import Reals Lra Lia List Bool Setoid Morphisms.
From Flocq Require Import Core.
From Coquelicot Require Import Coquelicot.
Require Import Verif.Num Verif.Types Verif.Priv Verif.OpsUni Verif.OpsAdd Verif.OpsSub Verif.OpsMul Verif.Const
  Verif.Validity Verif.Func Verif.SpecCl Verif.SpecExp Verif.SpecFunc Verif.RealInst Verif.AlgTac Verif.AlgMul
  Verif.AlgFacts Verif.AlgSpec Verif.AlgThm Verif.FuncFacts Verif.ExpFacts Verif.ExpThm Verif.LogThm Verif.SpecGeom.
Import ListNotations.
Local Open Scope R_scope.

(** ** Types of products *)
Definition gen1 (t : ty) : val R t :=
  match t with
  | TDub => 1
  | TSca => Sca 1
  | TVec => Vec 1 2 4
  | TBiv => Biv 1 3 9
  | TTri => Tri 1
  | TSpin => mkSpin (Sca 1) (Biv 1 3 9)
  | TImsp => mkImsp (Vec 1 2 4) (Tri 1)
  | TCplx => mkCplx (Sca 1) (Tri 3)
  | TDplx => mkDplx (Vec 1 2 4) (Biv 1 3 9)
  | TMvec => mkMvec (Sca 1) (Vec 1 2 4) (Biv 1 3 9) (Tri 11)
  end.
Definition gen2 (t : ty) : val R t :=
  match t with
  | TDub => 1
  | TSca => Sca 1
  | TVec => Vec 1 5 25
  | TBiv => Biv 1 7 49
  | TTri => Tri 1
  | TSpin => mkSpin (Sca 1) (Biv 1 7 49)
  | TImsp => mkImsp (Vec 1 5 25) (Tri 1)
  | TCplx => mkCplx (Sca 1) (Tri 5)
  | TDplx => mkDplx (Vec 1 5 25) (Biv 1 7 49)
  | TMvec => mkMvec (Sca 1) (Vec 1 5 25) (Biv 1 7 49) (Tri 13)
  end.
Ltac wit k := exists k; split; [reflexivity | cbv -[Rplus Rminus Rmult Ropp R R0 R1 IZR]; lra].
Lemma product_grades : forall a b n, has_grade (mulTy a b) n = true <->
  exists (x : val R a) (y : val R b) k, grade k = n /\ gp (den a x) (den b y) k <> 0.
Proof.
  intros a b n; split.
  - intros H; exists (gen1 a), (gen2 b).
    destruct n as [|[|[|[|n]]]]; destruct a, b; try discriminate H;
      first [wit bS | wit bE1 | wit bE12 | wit bE123 | wit bE2 | wit bE23].
  - intros (x & y & k & <- & H).
    rewrite <- (mul_den a b x y k) in H.
    generalize dependent (mul a b x y); generalize (mulTy a b); intros c z H.
    destruct c, k as [[|] [|] [|]]; cbn in *; try reflexivity; lra.
Qed.

(** ** logG2 after exp *)
Lemma cos_inj x y : 0 <= x <= PI -> 0 <= y <= PI -> cos x = cos y -> x = y.
Proof.
  intros Hx Hy E; destruct (Rtotal_order x y) as [h|[h|h]]; [|exact h|].
  - pose proof (cos_decreasing_1 x y ltac:(lra) ltac:(lra) ltac:(lra) ltac:(lra) h); lra.
  - pose proof (cos_decreasing_1 y x ltac:(lra) ltac:(lra) ltac:(lra) ltac:(lra) h); lra.
Qed.
Lemma exp_Spin_form (S : Spinor R) : let m := cnorm (den TBiv (spinBiv S)) in tiny < m ->
  exp_Spin (exact TSpin S) = exact TSpin (scale TSpin (exp (sca_0 (spinSca S))) (rotor (cos m) (sinc m) (spinBiv S))).
Proof.
  intros m H; apply exp_Spin_exact; rewrite exp_Biv_exact; fold m; rewrite Rltb_true by exact H; reflexivity.
Qed.
Lemma rotor_norm m B : cnorm (den TBiv B) = m -> cnorm2 (den TSpin (rotor (cos m) (sinc m) B)) = 1.
Proof.
  intros <-; set (m := cnorm _). rewrite (cnorm2_ceq _ _ (rotor_den _ _ _)), cnorm2_rotor, <- cnorm_sq; fold m.
  replace (sinc m * sinc m * (m * m)) with ((m * sinc m) * (m * sinc m)) by ring.
  rewrite sinc_mul; pose proof (sin2_cos2 m) as h; unfold Rsqr in h; lra.
Qed.
Lemma scaled_norm g (S : Spinor R) : 0 <= g -> cnorm2 (den TSpin S) = 1 -> cnorm (den TSpin (scale TSpin g S)) = g.
Proof.
  intros Hg H; rewrite (cnorm_ceq _ _ (scale_den TSpin g S)), cnorm_scale, Rabs_pos_eq by exact Hg.
  unfold cnorm; rewrite H, sqrt_1; ring.
Qed.

Lemma log_exp : forall (S : Spinor R) (plane : BiVector R),
  let s := sca_0 (spinSca S) in let m := cnorm (den TBiv (spinBiv S)) in
  deps < exp s -> 2 * tiny < m < PI -> Rabs (cos m) <= 1 - deps -> tiny < cnorm (den TBiv plane) ->
  exists r, exp_Spin (exact TSpin S) = exact TSpin r /\ logG2 (exact TSpin r) (exact TBiv plane) = exact TSpin S.
Proof.
  intros S plane s m Hs Hm Hc Hp. pose proof tiny_pos as Ht; pose proof deps_pos as Hd.
  set (r := scale TSpin (exp s) (rotor (cos m) (sinc m) (spinBiv S))).
  assert (Er : exp_Spin (exact TSpin S) = exact TSpin r) by (apply exp_Spin_form; fold m; lra).
  exists r; split; [exact Er|].
  assert (N1 : cnorm (den TSpin r) = exp s) by (apply scaled_norm; [apply Rlt_le, exp_pos | apply rotor_norm; reflexivity]).
  assert (Hr0 : sca_0 (spinSca r) = exp s * cos m) by reflexivity.
  destruct (logG2_cases r plane ltac:(rewrite N1; exact Hs) Hp) as (th & d & HL & Hd1 & Hth & Htt & He & _).
  rewrite N1 in HL, He. rewrite ln_exp in HL. rewrite HL; f_equal.
  assert (Hr : ceq (cscale (exp s) (den TSpin (rotor (cos th) (sin th) d))) (den TSpin r)).
  { apply He; rewrite Hr0, Rabs_mult, (Rabs_pos_eq (exp s)) by (apply Rlt_le, exp_pos).
    rewrite Rmult_comm; apply Rmult_le_compat_r; [apply Rlt_le, exp_pos | exact Hc]. }
  pose proof (exp_pos s) as Hes.
  assert (Hu : ceq (cadd (cscale (cos th) cone) (cscale (sin th) (den TBiv d)))
                   (cadd (cscale (cos m) cone) (cscale (sinc m) (den TBiv (spinBiv S))))).
  { intro k; pose proof (Hr k) as h; unfold r in h. rewrite (scale_den TSpin _ _ k) in h; unfold cscale in h.
    rewrite !(rotor_den _ _ _ k) in h. apply Rmult_eq_reg_l with (exp s); [exact h | lra]. }
  assert (Ec : th = m).
  { apply cos_inj; [lra | lra |]. pose proof (Hu bS) as h; unfold cadd, cscale in h.
    assert (Z : forall B : BiVector R, den TBiv B bS = 0) by reflexivity.
    rewrite !Z in h; change (cone bS) with 1 in h; lra. }
  subst th.
  assert (Hsin : 0 < sin m) by (apply sin_gt_0; lra).
  assert (Hsc : 0 < sinc m).
  { assert (0 < m * sinc m) by (rewrite sinc_mul; exact Hsin). nra. }
  apply (den_inj TSpin); intro k; rewrite (spin_den S k).
  rewrite (spin_den (mkSpin (Sca s) (scale TBiv m d)) k); unfold cadd; f_equal.
  cbn [spinBiv]; rewrite (scale_den TBiv m d k); unfold cscale.
  pose proof (Hu k) as h; unfold cadd, cscale in h.
  apply Rmult_eq_reg_l with (sinc m); [|lra].
  rewrite <- (sinc_mul m) in h; lra.
Qed.

(** ** The rotor between two vectors *)
Lemma wedge_anti (a b : Vector R) k :
  ceq (gp (cadd (cscale k cone) (den TBiv (spinBiv (mul TVec TVec b a)))) (den TVec a))
      (gp (den TVec a) (cadd (cscale k cone) (copp (den TBiv (spinBiv (mul TVec TVec b a)))))).
Proof. dvals; intro j; dblade j; dring. Qed.
Lemma rotor_between : forall (a b : Vector R) (plane : BiVector R),
  let M := cnorm (den TVec a) * cnorm (den TVec b) in
  4 * deps <= M -> Rabs (dot a b) <= (1 - deps) * M -> tiny < cnorm (den TBiv plane) ->
  exists q, sqrtG2 (exact TSpin (mul TVec TVec b a)) (exact TBiv plane) = exact TSpin q /\
    ceq (den TImsp (sandwich q a)) (den TVec (scale TVec (dot a a) b)).
Proof.
  intros a b plane M HM Hab Hp. pose proof deps_pos as Hd.
  set (S := mul TVec TVec b a).
  assert (HN : cnorm (den TSpin S) = M).
  { unfold cnorm. replace (cnorm2 (den TSpin S)) with (cnorm2 (den TVec b) * cnorm2 (den TVec a)) by (unfold S; dvals; dring).
    unfold M, cnorm; rewrite Rmult_comm, sqrt_mult_alt; [reflexivity | apply cnorm2_nonneg]. }
  assert (H0 : sca_0 (spinSca S) = dot a b) by (unfold S; dvals; dring).
  destruct (sqrtG2_square S plane) as (q & Eq & Hq0 & _ & Hqq & _); [rewrite HN; exact HM | exact Hp |].
  rewrite HN, H0 in Hqq; specialize (Hqq Hab).
  exists q; split; [exact Eq|].
  set (q0 := sca_0 (spinSca q)) in *.
  assert (EQ : forall j, 2 * q0 * den TBiv (spinBiv q) j = den TBiv (spinBiv S) j).
  { rewrite <- Hqq; unfold q0; clear. destruct q as [[[s]] [[x y z]]]; intro j; dblade j; dring. }
  assert (ES : q0 * q0 - cnorm2 (den TBiv (spinBiv q)) = dot a b).
  { rewrite <- H0, <- Hqq; unfold q0; clear. destruct q as [[[s]] [[x y z]]]; dring. }
  assert (Hq : q0 <> 0).
  { intros h. assert (Z : forall j, den TBiv (spinBiv S) j = 0) by (intro j; rewrite <- EQ, h; ring).
    assert (N2 : M * M = dot a b * dot a b).
    { rewrite <- HN, cnorm_sq, (cnorm2_ceq _ _ (spin_den S)), H0.
      rewrite (cnorm2_ceq _ (cscale (dot a b) cone)); [rewrite cnorm2_scale; unfold cone; dring|].
      intro j; unfold cadd; rewrite Z; ring. }
    assert (0 < M) by lra.
    assert (Rabs (dot a b) = M).
    { rewrite <- sqrt_Rsqr_abs; unfold Rsqr; rewrite <- N2; apply sqrt_square; lra. }
    nra. }
  (* q a = a ~q *)
  assert (A1 : ceq (gp (den TSpin q) (den TVec a)) (gp (den TVec a) (crev (den TSpin q)))).
  { assert (D1 : ceq (den TSpin q) (cscale (/ (2 * q0)) (cadd (cscale (2 * q0 * q0) cone) (den TBiv (spinBiv S))))).
    { intro j; rewrite (spin_den q j); fold q0; unfold cadd, cscale; rewrite <- EQ; field; exact Hq. }
    assert (D2 : ceq (crev (den TSpin q)) (cscale (/ (2 * q0)) (cadd (cscale (2 * q0 * q0) cone) (copp (den TBiv (spinBiv S)))))).
    { intro j. transitivity (cadd (cscale q0 cone) (copp (den TBiv (spinBiv q))) j).
      - unfold q0; clear. destruct q as [[[s]] [[x y z]]]; dblade j; dring.
      - unfold cadd, cscale, copp; rewrite <- EQ; field; exact Hq. }
    rewrite D2, D1, gp_scale_l, gp_scale_r. unfold S; rewrite wedge_anti; reflexivity. }
  unfold sandwich; rewrite (mul_den TImsp TSpin), (mul_den TSpin TVec), (reverse_den TSpin), A1, gp_assoc, <- crev_gp.
  rewrite <- (mul_den TSpin TSpin q q). change (mulTy TSpin TSpin) with TSpin; rewrite Hqq.
  unfold S; rewrite <- (reverse_den TSpin), <- (mul_den TVec TSpin).
  clear; dvals; intro j; dblade j; dring.
Qed.

(** ** Reflection, projection, rejection *)
Lemma inverse_is : forall t inv (x y : val R t), blade_inverse t = Some inv -> x <> zero t -> inv (exact t x) = exact t y ->
  y = scale t (/ magSq t x) (reverse t x) /\ magSq t x <> 0.
Proof.
  intros t inv x y E Hx Hy.
  assert (Hm : magSq t x <> 0) by (rewrite magSq_zero_iff; exact Hx).
  split; [|exact Hm].
  rewrite (blade_inverse_form t inv x E), div_exact, scale_exact in Hy by exact Hm.
  apply exact_inj in Hy; rewrite <- Hy; unfold Rdiv; rewrite Rmult_1_l; reflexivity.
Qed.

Lemma vec_inv (n : Vector R) : n <> zero TVec -> exists m,
  inverse_Vec (exact TVec n) = exact TVec m /\ m = scale TVec (/ magSq TVec n) n /\ magSq TVec n <> 0.
Proof.
  intros Hn; destruct (blade_inverse_ok TVec inverse_Vec n eq_refl Hn) as (m & E & _).
  exists m; split; [exact E|]. destruct (inverse_is TVec _ n m eq_refl Hn E) as (Em & H).
  split; [|exact H]. rewrite Em; destruct n as [[x y z]]; reflexivity.
Qed.
Lemma biv_inv (n : BiVector R) : n <> zero TBiv -> exists m,
  inverse_Biv (exact TBiv n) = exact TBiv m /\ m = scale TBiv (- / magSq TBiv n) n /\ magSq TBiv n <> 0.
Proof.
  intros Hn; destruct (blade_inverse_ok TBiv inverse_Biv n eq_refl Hn) as (m & E & _).
  exists m; split; [exact E|]. destruct (inverse_is TBiv _ n m eq_refl Hn E) as (Em & H).
  split; [|exact H]. rewrite Em; destruct n as [[x y z]]; apply (den_inj TBiv); intro k; dblade k; dring.
Qed.
Lemma eq3 (a b c a' b' c' : R) : a = a' -> b = b' -> c = c' -> A3 a b c = A3 a' b' c'.
Proof. intros -> -> ->; reflexivity. Qed.
Ltac peel := repeat match goal with
  | |- @eq (Arr3 _) _ _ => apply eq3
  | |- @eq R _ _ => fail 1
  | |- ?f _ = ?f _ => apply (f_equal f)
  end.

Lemma reflection : forall n v : Vector R, n <> zero TVec -> exists m,
  inverse_Vec (exact TVec n) = exact TVec m /\
  let r := neg TImsp (mul TSpin TVec (mul TVec TVec n v) m) in
  mirrored n v (imspVec r) /\ imspTri r = Tri 0.
Proof.
  intros n v Hn; destruct (vec_inv n Hn) as (m & E & -> & Hm). exists (scale TVec (/ magSq TVec n) n); split; [exact E|].
  clear E Hn; cbv zeta. unfold mirrored.
  destruct n as [[n0 n1 n2]], v as [[v0 v1 v2]]; cbn in Hm |- *. cbv -[Rplus Rminus Rmult Ropp Rinv R R0 R1 IZR dot] in Hm |- *.
  repeat split.
  - unfold dot; cbn; field; intro h; apply Hm; lra.
  - exists (-2 * (n0 * v0 + n1 * v1 + n2 * v2) / (n0 * n0 + n1 * n1 + n2 * n2)).
    peel; field; intro h; apply Hm; lra.
  - peel; field; intro h; apply Hm; lra.
Qed.

Ltac start Hm n v := destruct n as [[n0 n1 n2]], v as [[v0 v1 v2]]; cbv -[Rplus Rminus Rmult Ropp Rinv R R0 R1 IZR dot] in Hm |- *.
Ltac fin Hm := unfold dot; cbn; try (field; intro h; apply Hm; lra); peel; field; intro h; apply Hm; lra.
Lemma projection_vec : forall n v : Vector R, n <> zero TVec -> exists m,
  inverse_Vec (exact TVec n) = exact TVec m /\
  let p := mul TSca TVec (spinSca (mul TVec TVec v n)) m in
  let r := mul TBiv TVec (spinBiv (mul TVec TVec v n)) m in
  split_along n v p (imspVec r) /\ imspTri r = Tri 0.
Proof.
  intros n v Hn; destruct (vec_inv n Hn) as (m & E & -> & Hm). exists (scale TVec (/ magSq TVec n) n); split; [exact E|].
  clear E Hn; cbv zeta; unfold split_along. start Hm n v; repeat split; try (fin Hm).
  exists ((v0 * n0 + v1 * n1 + v2 * n2) / (n0 * n0 + n1 * n1 + n2 * n2)); fin Hm.
Qed.
Lemma projection_biv : forall (B : BiVector R) (v : Vector R), B <> zero TBiv -> exists m,
  inverse_Biv (exact TBiv B) = exact TBiv m /\
  let p := mul TVec TBiv (imspVec (mul TVec TBiv v B)) m in
  let r := mul TTri TBiv (imspTri (mul TVec TBiv v B)) m in
  split_along (axis B) v r (imspVec p) /\ imspTri p = Tri 0.
Proof.
  intros n v Hn; destruct (biv_inv n Hn) as (m & E & -> & Hm). exists (scale TBiv (- / magSq TBiv n) n); split; [exact E|].
  clear E Hn; cbv zeta; unfold split_along. start Hm n v; repeat split; try (fin Hm).
  exists ((v0 * n0 + v1 * n1 + v2 * n2) / (n0 * n0 + n1 * n1 + n2 * n2)); fin Hm.
Qed.

(** ** Products in vector algebra *)
Lemma vector_product : forall u v : Vector R,
  let p := mul TVec TVec u v in spinSca p = Sca (dot u v) /\ axis (spinBiv p) = cross u v.
Proof. intros; destruct u as [[u0 u1 u2]], v as [[v0 v1 v2]]; split; cbv -[Rplus Rminus Rmult Ropp R R0 R1 IZR]; peel; ring. Qed.
Lemma triple_product : forall u v w : Vector R,
  let p := mul TSpin TVec (mul TVec TVec u v) w in
  imspTri p = Tri (det3 u v w) /\ det3 u v w = dot u (cross v w) /\
  imspVec p = vplus (vplus (vtimes (dot v w) u) (vtimes (- dot u w) v)) (vtimes (dot u v) w).
Proof.
  intros; destruct u as [[u0 u1 u2]], v as [[v0 v1 v2]], w as [[w0 w1 w2]]; repeat split;
    cbv -[Rplus Rminus Rmult Ropp R R0 R1 IZR]; peel; ring.
Qed.
Lemma bivector_products : forall (u : Vector R) (B C : BiVector R),
  (imspTri (mul TVec TBiv u B) = Tri (dot u (axis B)) /\ imspVec (mul TVec TBiv u B) = cross (axis B) u) /\
  (imspTri (mul TBiv TVec B u) = Tri (dot u (axis B)) /\ imspVec (mul TBiv TVec B u) = cross u (axis B)) /\
  (spinSca (mul TBiv TBiv B C) = Sca (- dot (axis B) (axis C)) /\ axis (spinBiv (mul TBiv TBiv B C)) = cross (axis C) (axis B)).
Proof.
  intros; destruct u as [[u0 u1 u2]], B as [[v0 v1 v2]], C as [[w0 w1 w2]]; repeat split;
    cbv -[Rplus Rminus Rmult Ropp R R0 R1 IZR]; peel; ring.
Qed.
Lemma trivector_products : forall (a b : R) (u : Vector R) (B : BiVector R),
  (axis (mul TTri TVec (Tri a) u) = vtimes a u /\ axis (mul TVec TTri u (Tri a)) = vtimes a u) /\
  (mul TTri TBiv (Tri a) B = vtimes (- a) (axis B) /\ mul TBiv TTri B (Tri a) = vtimes (- a) (axis B)) /\
  mul TTri TTri (Tri a) (Tri b) = Sca (- (a * b)).
Proof.
  intros; destruct u as [[u0 u1 u2]], B as [[v0 v1 v2]]; repeat split;
    cbv -[Rplus Rminus Rmult Ropp R R0 R1 IZR]; peel; ring.
Qed.
