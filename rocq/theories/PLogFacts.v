(** * Multivectors as exponentials (proofs only). *)

Require Import Reals ZArith Lra Lia List Bool.
From Coquelicot Require Import Coquelicot.
Require Import Verif.Num Verif.Types Verif.Priv Verif.OpsUni Verif.OpsAdd Verif.OpsMul Verif.Const Verif.Func
  Verif.SpecCl Verif.SpecFunc Verif.SpecExp Verif.RealInst Verif.AlgTac Verif.AlgMul Verif.AlgFacts Verif.AlgSpec Verif.AlgThm
  Verif.FuncFacts Verif.FuncThm Verif.ExpFacts Verif.LogThm Verif.SpecPolar Verif.PolarFacts.
Local Open Scope R_scope.

Definition cx (p q : R) : clf := den TCplx (complex p q).
Lemma cx_mul : forall p q r s, ceq (gp (cx p q) (cx r s)) (cx (p * r - q * s) (p * s + q * r)).
Proof. intros p q r s k. dblade k; dring. Qed.
Lemma cx_central : forall p q x, ceq (gp x (cx p q)) (gp (cx p q) x).
Proof. intros p q x. symmetry. apply (den_cplx_central (complex p q) x). Qed.
Lemma cx_ext : forall p q r s, p = r -> q = s -> ceq (cx p q) (cx r s).
Proof. intros p q r s -> ->. reflexivity. Qed.
Lemma cx_one : ceq (cx 1 0) cone.
Proof. intro k. dblade k; dring. Qed.
Lemma cx_scale : forall r p q, ceq (cscale r (cx p q)) (cx (r * p) (r * q)).
Proof. intros r p q k. dblade k; dring. Qed.
Lemma cx_add : forall p q r s, ceq (cadd (cx p q) (cx r s)) (cx (p + r) (q + s)).
Proof. intros p q r s k. dblade k; dring. Qed.
Lemma cadd_ceq : forall a b a' b', ceq a a' -> ceq b b' -> ceq (cadd a b) (cadd a' b').
Proof. intros a b a' b' H H' k. unfold cadd. rewrite (H k), (H' k). reflexivity. Qed.
Lemma polar_exists : forall p q, 0 < p * p + q * q -> exists s t, p = exp s * cos t /\ q = exp s * sin t.
Proof.
  intros p q H. set (r := sqrt (p * p + q * q)). assert (Rp : 0 < r) by (apply sqrt_lt_R0, H). assert (R2 : r * r = p * p + q * q) by (apply sqrt_sqrt; lra).
  assert (B : -1 <= p / r <= 1). { assert (Q : (p / r) * (p / r) <= 1). { replace (p / r * (p / r)) with (p * p / (r * r)) by (field; lra). apply (Rmult_le_reg_r (r * r)); [nra|]. replace (p * p / (r * r) * (r * r)) with (p * p) by (field; lra). nra. } split; nra. }
  assert (S : sin (acos (p / r)) = Rabs q / r).
  { rewrite sin_acos by exact B. assert (E : 1 - (p / r)² = (Rabs q / r) * (Rabs q / r)). { unfold Rsqr. replace (Rabs q / r * (Rabs q / r)) with ((Rabs q * Rabs q) / (r * r)) by (field; lra). rewrite <- Rabs_mult, (Rabs_pos_eq (q * q)) by nra. replace (q * q) with (r * r - p * p) by lra. field. lra. }
    rewrite E, sqrt_square; [reflexivity|]. apply Rmult_le_pos; [apply Rabs_pos|left; apply Rinv_0_lt_compat, Rp]. }
  assert (C : cos (acos (p / r)) = p / r) by (apply cos_acos; exact B).
  exists (ln r). rewrite exp_ln by exact Rp. destruct (Rle_dec 0 q) as [L|L].
  - exists (acos (p / r)). rewrite C, S, Rabs_pos_eq by exact L. split; field; lra.
  - exists (- acos (p / r)). rewrite cos_neg, sin_neg, C, S, Rabs_left by lra. split; field; lra.
Qed.
(** ** Exponentials *)
Lemma sinc_r : forall m, sinc m * m = sin m.
Proof. intros m. rewrite Rmult_comm. apply sinc_mul. Qed.
Lemma exp_tri : forall t, is_cexp (cx 0 t) (cx (cos t) (sin t)).
Proof.
  intros t. apply (is_cexp_ceq (cx 0 t) _ (cadd (cscale (cos t) cone) (cscale (sinc t) (cx 0 t)))); [reflexivity| |apply cexp_square; intro k; dblade k; dring].
  rewrite <- (sinc_r t). generalize (cos t) (sinc t). intros c s k. dblade k; dring.
Qed.
Lemma exp_sca : forall s, is_cexp (cx s 0) (cx (exp s) 0).
Proof. intros s. apply (is_cexp_ceq (cscale s cone) _ (cscale (exp s) cone)); [| |apply cexp_scalar]; [|generalize (exp s); intros e]; intro k; dblade k; dring. Qed.
Section Axis.
Context (N : clf) (HN : ceq (gp N N) cone).
Definition mix (p q r s : R) : clf := cadd (cx p q) (gp (cx r s) N).
Lemma mix_mul : forall p q r s p' q' r' s', ceq (gp (mix p q r s) (mix p' q' r' s'))
  (mix (p * p' - q * q' + (r * r' - s * s')) (p * q' + q * p' + (r * s' + s * r')) (p * r' - q * s' + (r * p' - s * q')) (p * s' + q * r' + (r * q' + s * p'))).
Proof.
  intros p q r s p' q' r' s'. unfold mix. rewrite gp_add_l, !gp_add_r.
  assert (E1 : ceq (gp (cx p q) (gp (cx r' s') N)) (gp (cx (p * r' - q * s') (p * s' + q * r')) N)) by (rewrite <- gp_assoc, cx_mul; reflexivity).
  assert (E2 : ceq (gp (gp (cx r s) N) (cx p' q')) (gp (cx (r * p' - s * q') (r * q' + s * p')) N)) by (rewrite cx_central, <- gp_assoc, cx_mul; apply gp_ceq; [apply cx_ext; ring|reflexivity]).
  assert (E3 : ceq (gp (gp (cx r s) N) (gp (cx r' s') N)) (cx (r * r' - s * s') (r * s' + s * r'))) by (rewrite gp_assoc, <- (gp_assoc N), (cx_central r' s' N), (gp_assoc (cx r' s')), HN, gp_one_r, cx_mul; reflexivity).
  rewrite E1, E2, E3, cx_mul. rewrite <- (cx_add (p * p' - q * q')), <- (cx_add (p * r' - q * s')), gp_add_l. intro k. unfold cadd. ring.
Qed.
Lemma exp_axis : forall a, is_cexp (gp (cx a 0) N) (mix ((exp a + exp (- a)) / 2) 0 ((exp a - exp (- a)) / 2) 0).
Proof.
  intros a. assert (D : ceq (cscale a N) (gp (cx a 0) N)) by (rewrite <- (gp_one_l N) at 1; rewrite <- gp_scale_l; apply gp_ceq; [intro k; dblade k; dring|reflexivity]).
  destruct (Req_dec a 0) as [->|Na].
  - apply (is_cexp_ceq (cscale 0 cone) _ (cscale (exp 0) cone)); [rewrite <- D; intro k; unfold cscale; ring| |apply cexp_scalar].
    rewrite Ropp_0, exp_0. unfold mix. replace ((1 - 1) / 2) with 0 by field. replace ((1 + 1) / 2) with 1 by field. rewrite cx_one.
    assert (Z : ceq (gp (cx 0 0) N) czero) by (intro k; dblade k; dring). rewrite Z. intro k. unfold cadd, cscale, czero. ring.
  - apply (is_cexp_ceq (cscale a N) _ (cadd (cscale ((exp a + exp (- a)) / 2) cone) (cscale ((exp a - exp (- a)) / 2 / a) (cscale a N)))); [exact D| |].
    + unfold mix. assert (K : forall x, ceq (cx x 0) (cscale x cone)) by (intros x k; dblade k; dring). rewrite !K, gp_scale_l, gp_one_l. intro k. unfold cadd, cscale. field. exact Na.
    + apply cexp_square_pos; [exact Na|]. rewrite gp_scale_l, gp_scale_r, HN. intro k. unfold cscale. ring.
Qed.
Lemma exp_dual : forall b, is_cexp (gp (cx 0 b) N) (mix (cos b) 0 0 (sin b)).
Proof.
  intros b. apply (is_cexp_ceq (gp (cx 0 b) N) _ (cadd (cscale (cos b) cone) (cscale (sinc b) (gp (cx 0 b) N)))); [reflexivity| |].
  - unfold mix. rewrite <- gp_scale_l, cx_scale, sinc_r, Rmult_0_r. intro k. unfold cadd. f_equal. dblade k; dring.
  - apply cexp_square. rewrite gp_assoc, <- (gp_assoc N), (cx_central 0 b N), (gp_assoc (cx 0 b) N), HN, gp_one_r, cx_mul. intro k. dblade k; dring.
Qed.
Lemma exp_flat : forall a b, is_cexp (gp (cx a b) N) (gp (mix ((exp a + exp (- a)) / 2) 0 ((exp a - exp (- a)) / 2) 0) (mix (cos b) 0 0 (sin b))).
Proof.
  intros a b. apply (is_cexp_ceq (cadd (gp (cx a 0) N) (gp (cx 0 b) N)) _ (gp (mix ((exp a + exp (- a)) / 2) 0 ((exp a - exp (- a)) / 2) 0) (mix (cos b) 0 0 (sin b)))); [|reflexivity|].
  - rewrite <- gp_add_l, cx_add. apply gp_ceq; [apply cx_ext; ring|reflexivity].
  - apply cexp_add; [|apply exp_axis|apply exp_dual]. 
    rewrite !gp_assoc, <- !(gp_assoc N), !(cx_central _ _ N), !(gp_assoc _ N), HN, !gp_one_r, !cx_mul. apply cx_ext; ring.
Qed.
(** A combination of 1 and [N] with invertible coefficients along both projections. *)
Lemma mix_exp : forall p q r s, 0 < (p + r) * (p + r) + (q + s) * (q + s) -> 0 < (p - r) * (p - r) + (q - s) * (q - s) ->
  exists u t a b E, is_cexp (gp (cx a b) N) E /\ ceq (mix p q r s) (gp (gp (cx (exp u) 0) (cx (cos t) (sin t))) E).
Proof.
  intros p q r s Hp Hm. destruct (polar_exists _ _ Hp) as (s1 & t1 & P1 & Q1). destruct (polar_exists _ _ Hm) as (s2 & t2 & P2 & Q2).
  set (u := (s1 + s2) / 2). set (t := (t1 + t2) / 2). set (a := (s1 - s2) / 2). set (b := (t1 - t2) / 2).
  exists u, t, a, b. eexists. split; [apply exp_flat|].
  replace s1 with (u + a) in P1, Q1 by (unfold u, a; field). replace s2 with (u + - a) in P2, Q2 by (unfold u, a; field). rewrite exp_plus in P1, Q1, P2, Q2.
  replace t1 with (t + b) in P1, Q1 by (unfold t, b; field). replace t2 with (t - b) in P2, Q2 by (unfold t, b; field).
  rewrite cos_plus in P1. rewrite sin_plus in Q1. rewrite cos_minus in P2. rewrite sin_minus in Q2.
  assert (C : forall x y, ceq (cx x y) (mix x y 0 0)) by (intros x y; unfold mix; assert (Z : ceq (gp (cx 0 0) N) czero) by (intro k; dblade k; dring); rewrite Z; intro k; unfold cadd, czero; ring).
  rewrite (C (exp u)), (C (cos t)), !mix_mul. 
  assert (Ep : p = ((p + r) + (p - r)) / 2) by field. assert (Er : r = ((p + r) - (p - r)) / 2) by field. assert (Eq : q = ((q + s) + (q - s)) / 2) by field. assert (Es : s = ((q + s) - (q - s)) / 2) by field.
  rewrite P1, P2 in Ep, Er. rewrite Q1, Q2 in Eq, Es. rewrite Ep, Eq, Er, Es. unfold mix. apply cadd_ceq; [|apply gp_ceq; [|reflexivity]]; apply cx_ext; field.
Qed.
End Axis.

(** ** Multivectors *)
Lemma dplx_square : forall F : DirPlex R, exists w0 w1, ceq (gp (den TDplx F) (den TDplx F)) (cx w0 w1).
Proof. intros F. exists (gp (den TDplx F) (den TDplx F) bS), (gp (den TDplx F) (den TDplx F) bE123). destruct F as [[[? ? ?]] [[? ? ?]]]. intro k. dblade k; dring. Qed.
Lemma mv_split : forall M : MultiVector R, ceq (den TMvec M) (cadd (cx (sca_0 (mvSca M)) (tri_0 (mvTri M))) (den TDplx (mkDplx (mvVec M) (mvBiv M)))).
Proof. intros [[[?]] [[? ? ?]] [[? ? ?]] [[?]]] k. dblade k; dring. Qed.
Lemma mv_amp : forall M : MultiVector R, ceq (gp (den TMvec M) (cdir (den TMvec M)))
  (csub (gp (cx (sca_0 (mvSca M)) (tri_0 (mvTri M))) (cx (sca_0 (mvSca M)) (tri_0 (mvTri M)))) (gp (den TDplx (mkDplx (mvVec M) (mvBiv M))) (den TDplx (mkDplx (mvVec M) (mvBiv M))))).
Proof. intros [[[?]] [[? ? ?]] [[? ? ?]] [[?]]] k. dblade k; dring. Qed.
Lemma amp_zero_sq : forall M : MultiVector R, amplitude_is TMvec M (zero TCplx) <-> ceq (gp (den TMvec M) (cdir (den TMvec M))) czero.
Proof.
  intros M. assert (Z : ceq (gp (den TCplx (zero TCplx)) (den TCplx (zero TCplx))) czero) by (intro k; dblade k; dring). split; intros H.
  - apply amp_square in H. destruct H as [_ H]. rewrite <- H. exact Z.
  - apply amp_unique; [discriminate|right; split; [reflexivity|change (0 <= 0); lra]|]. rewrite H. exact Z.
Qed.
Lemma exp_null : forall x, ceq (gp x x) czero -> is_cexp x (cadd cone x).
Proof.
  intros x H. apply (is_cexp_ceq x _ (cadd (cscale (cos 0) cone) (cscale (sinc 0) x))); [reflexivity| |apply cexp_square; rewrite H; intro k; unfold czero, cscale; ring].
  rewrite cos_0. unfold sinc. destruct (Req_EM_T 0 0) as [_|X]; [|contradiction X; reflexivity]. intro k. unfold cadd, cscale. ring.
Qed.
Lemma sca_cx : forall x : Scalar R, ceq (cx (sca_0 x) 0) (den TSca x).
Proof. intros [[?]] k. dblade k; dring. Qed.
Lemma tri_cx : forall x : TriVector R, ceq (cx 0 (tri_0 x)) (den TTri x).
Proof. intros [[?]] k. dblade k; dring. Qed.
Lemma polar_exponential : forall M : MultiVector R, ~ amplitude_is TMvec M (zero TCplx) -> exists (s : Scalar R) (t : TriVector R) (F : DirPlex R) Es Et Ef,
  is_cexp (den TSca s) Es /\ is_cexp (den TTri t) Et /\ is_cexp (den TDplx F) Ef /\ ceq (den TMvec M) (gp (gp Es Et) Ef).
Proof.
  intros M H. rewrite amp_zero_sq, mv_amp in H. pose proof (mv_split M) as SP. set (p := sca_0 (mvSca M)) in *. set (q := tri_0 (mvTri M)) in *. set (D := mkDplx (mvVec M) (mvBiv M)) in *.
  destruct (dplx_square D) as (w0 & w1 & W). rewrite W, cx_mul in H. destruct (Rcsqrt_sq w0 w1) as (Z0 & Z1 & _). set (z := Rcsqrt w0 w1) in *. destruct z as [r s]. cbn [fst snd] in Z0, Z1.
  assert (NZ : (p * p - q * q - w0) * (p * p - q * q - w0) + (p * q + q * p - w1) * (p * q + q * p - w1) <> 0).
  { intros E. destruct (Rplus_sqr_eq_0 _ _ E) as [A B]. apply H. 
    transitivity (cx (p * p - q * q - w0) (p * q + q * p - w1)); [intro k; dblade k; dring|]. rewrite A, B. intro k. dblade k; dring. }
  assert (PR : ((p + r) * (p + r) + (q + s) * (q + s)) * ((p - r) * (p - r) + (q - s) * (q - s)) <> 0).
  { intros E. apply NZ. rewrite <- Z0, <- Z1. rewrite <- E. ring. }
  assert (SQ : forall a b, a * a + b * b <> 0 -> 0 < a * a + b * b) by (intros a b K; pose proof (Rle_0_sqr a); pose proof (Rle_0_sqr b); unfold Rsqr in *; lra).
  assert (EX : forall u, is_cexp (den TSca (Sca u)) (cx (exp u) 0)) by (intros u; apply (is_cexp_ceq (cx u 0) _ (cx (exp u) 0)); [apply (sca_cx (Sca u))|reflexivity|apply exp_sca]).
  assert (ET : forall u, is_cexp (den TTri (Tri u)) (cx (cos u) (sin u))) by (intros u; apply (is_cexp_ceq (cx 0 u) _ (cx (cos u) (sin u))); [apply (tri_cx (Tri u))|reflexivity|apply exp_tri]).
  destruct (Req_dec (r * r + s * s) 0) as [ZZ|ZN].
  - destruct (Rplus_sqr_eq_0 _ _ ZZ) as [-> ->]. assert (A : w0 = 0) by lra. assert (B : w1 = 0) by lra. rewrite A, B in W.
    assert (AP : 0 < p * p + q * q). { apply SQ. intros E. apply PR. rewrite Rplus_0_r, Rplus_0_r, E. ring. }
    destruct (polar_exists p q AP) as (u & t & P & Q). set (n := p * p + q * q) in *.
    exists (Sca u), (Tri t), (mul TCplx TDplx (complex (p / n) (- q / n)) D), (cx (exp u) 0), (cx (cos t) (sin t)), (cadd cone (gp (cx (p / n) (- q / n)) (den TDplx D))).
    split; [apply EX|]. split; [apply ET|]. split.
    + apply (is_cexp_ceq (gp (cx (p / n) (- q / n)) (den TDplx D)) _ (cadd cone (gp (cx (p / n) (- q / n)) (den TDplx D)))); [symmetry; apply (mul_den TCplx TDplx)|reflexivity|].
      apply exp_null. rewrite gp_assoc, <- (gp_assoc (den TDplx D)), (cx_central _ _ (den TDplx D)), (gp_assoc (cx _ _) (den TDplx D)), W. intro k. dblade k; dring.
    + rewrite SP. rewrite cx_mul. assert (E : ceq (cx (exp u * cos t - 0 * sin t) (exp u * sin t + 0 * cos t)) (cx p q)) by (apply cx_ext; rewrite ?P, ?Q; ring).
      rewrite E, gp_add_r, gp_one_r, <- gp_assoc, cx_mul. assert (E1 : ceq (cx (p * (p / n) - q * (- q / n)) (p * (- q / n) + q * (p / n))) cone).
      { rewrite <- cx_one. apply cx_ext; [|field; lra]. replace (p * (p / n) - q * (- q / n)) with ((p * p + q * q) / n) by (field; lra). fold n. field. lra. }
      rewrite E1, gp_one_l. reflexivity.
  - set (n := r * r + s * s) in *. assert (n <> 0) by exact ZN. set (N := gp (cx (r / n) (- s / n)) (den TDplx D)).
    assert (I1 : ceq (gp (cx r s) (cx (r / n) (- s / n))) cone).
    { rewrite cx_mul, <- cx_one. apply cx_ext; [|field; exact ZN]. replace (r * (r / n) - s * (- s / n)) with ((r * r + s * s) / n) by (field; exact ZN). fold n. field. exact ZN. }
    assert (HN : ceq (gp N N) cone).
    { unfold N. rewrite gp_assoc, <- (gp_assoc (den TDplx D)), (cx_central _ _ (den TDplx D)), (gp_assoc (cx _ _) (den TDplx D)), W.
      assert (E : ceq (cx w0 w1) (gp (cx r s) (cx r s))) by (rewrite cx_mul; apply cx_ext; lra). rewrite E.
      rewrite !cx_mul, <- cx_one.
      apply cx_ext; unfold n in *; field; exact ZN. }
    assert (SP2 : ceq (den TMvec M) (mix N p q r s)) by (rewrite SP; unfold mix, N; rewrite <- gp_assoc, I1, gp_one_l; reflexivity).
    destruct (mix_exp N HN p q r s) as (u & t & a & b & E & HE & EM); [apply SQ; intros K; apply PR; rewrite K; ring|apply SQ; intros K; apply PR; rewrite K; ring|].
    exists (Sca u), (Tri t), (mul TCplx TDplx (complex a b) (mul TCplx TDplx (complex (r / n) (- s / n)) D)), (cx (exp u) 0), (cx (cos t) (sin t)), E.
    split; [apply EX|]. split; [apply ET|]. split; [|rewrite SP2; exact EM].
    apply (is_cexp_ceq (gp (cx a b) N) _ E); [|reflexivity|exact HE]. symmetry. etransitivity; [apply (mul_den TCplx TDplx)|]. apply gp_ceq; [reflexivity|]. apply (mul_den TCplx TDplx).
Qed.
(** ** Which multivectors are exponentials *)
Lemma cpow_cdir : forall a n, ceq (cpow (cdir a) n) (cdir (cpow a n)).
Proof.
  intros a. assert (C : forall n, ceq (gp (cpow a n) a) (gp a (cpow a n))) by (intros n; apply (cpow_comm a a); reflexivity).
  induction n as [|n IH]; cbn [cpow]; [intro k; dblade k; dring|]. rewrite IH. rewrite <- (cdir_gp (cpow a n) a). intro k. unfold cdir. rewrite (C n k). reflexivity.
Qed.
Lemma cexp_cdir : forall a E, is_cexp a E -> is_cexp (cdir a) (cdir E).
Proof.
  intros a E H k. apply (Rseries_ext (fun n => cdir (cpow a n) k / INR (fact n))); [intros n; rewrite (cpow_cdir a n k); reflexivity|].
  unfold cdir. destruct (grade k) as [|[|[|m]]]; try apply H.
  all: apply (Rseries_ext (fun n => opp (cpow a n k / INR (fact n)))); [intros n; change (- (cpow a n k / INR (fact n)) = - cpow a n k / INR (fact n)); unfold Rdiv; ring|]; apply (is_series_opp (fun n => cpow a n k / INR (fact n)) (E k)), H.
Qed.
Lemma exp_amp : forall (L : MultiVector R) E, is_cexp (den TMvec L) E -> let s := sca_0 (mvSca L) in let t := tri_0 (mvTri L) in
  ceq (gp E (cdir E)) (cx (exp (2 * s) * cos (2 * t)) (exp (2 * s) * sin (2 * t))).
Proof.
  intros L E H s t. pose proof (cexp_cdir _ _ H) as H'. assert (C : ceq (gp (den TMvec L) (cdir (den TMvec L))) (gp (cdir (den TMvec L)) (den TMvec L))) by apply gp_cdir_comm.
  pose proof (cexp_add _ _ C _ _ H H') as A.
  assert (B : is_cexp (cadd (cx (2 * s) 0) (cx 0 (2 * t))) (gp (cx (exp (2 * s)) 0) (cx (cos (2 * t)) (sin (2 * t))))) by (apply cexp_add; [apply cx_central|apply exp_sca|apply exp_tri]).
  assert (S : ceq (cadd (den TMvec L) (cdir (den TMvec L))) (cadd (cx (2 * s) 0) (cx 0 (2 * t)))) by (unfold s, t; clear; destruct L as [[[?]] [[? ? ?]] [[? ? ?]] [[?]]]; intro k; dblade k; dring).
  assert (A' : is_cexp (cadd (cx (2 * s) 0) (cx 0 (2 * t))) (gp E (cdir E))) by (apply (is_cexp_ceq _ _ (gp E (cdir E)) (gp E (cdir E)) S); [reflexivity|exact A]).
  rewrite (is_cexp_unique _ _ _ A' B), cx_mul. apply cx_ext; ring.
Qed.
Lemma exp_amplitude : forall L M : MultiVector R, is_cexp (den TMvec L) (den TMvec M) -> let s := sca_0 (mvSca L) in let t := tri_0 (mvTri L) in
  amplitude_is TMvec M (complex (exp s * cos t) (exp s * sin t)) \/ amplitude_is TMvec M (complex (- (exp s * cos t)) (- (exp s * sin t))).
Proof.
  intros L M H s t. pose proof (exp_amp L _ H) as A. cbv zeta in A. fold s t in A.
  destruct (amp_exists TMvec M) as [X HX]; [discriminate|]. destruct (amp_square _ _ _ HX) as [_ EX].
  assert (Q : ceq (gp (den TCplx X) (den TCplx X)) (gp (den TCplx (complex (exp s * cos t) (exp s * sin t))) (den TCplx (complex (exp s * cos t) (exp s * sin t))))).
  { rewrite EX, A. change (den TCplx (complex (exp s * cos t) (exp s * sin t))) with (cx (exp s * cos t) (exp s * sin t)). rewrite cx_mul. replace (2 * s) with (s + s) by ring. rewrite exp_plus, cos_2a, sin_2a. apply cx_ext; ring. }
  apply same_square in Q. destruct Q as [-> | ->]; [left|right]; exact HX.
Qed.
Lemma logarithms : forall M : MultiVector R, ~ amplitude_is TMvec M (zero TCplx) <-> exists L : MultiVector R, is_cexp (den TMvec L) (den TMvec M).
Proof.
  intros M. split.
  - intros H. destruct (polar_exponential M H) as (s & t & F & Es & Et & Ef & Hs & Ht & Hf & E).
    exists (mkMvec s (dplxVec F) (dplxBiv F) t).
    assert (S : ceq (cadd (cadd (den TSca s) (den TTri t)) (den TDplx F)) (den TMvec (mkMvec s (dplxVec F) (dplxBiv F) t))) by (destruct s as [[?]], t as [[?]], F as [[[? ? ?]] [[? ? ?]]]; intro k; dblade k; dring).
    apply (is_cexp_ceq _ _ _ _ S (ceq_sym _ _ E)). apply cexp_add; [|apply cexp_add; [|exact Hs|exact Ht]|exact Hf].
    + destruct s as [[?]], t as [[?]], F as [[[? ? ?]] [[? ? ?]]]. intro k. dblade k; dring.
    + destruct s as [[?]], t as [[?]]. intro k. dblade k; dring.
  - intros [L H] Z. rewrite amp_zero_sq in Z. pose proof (exp_amp L _ H) as A. cbv zeta in A. rewrite Z in A. set (s := sca_0 (mvSca L)) in *. set (t := tri_0 (mvTri L)) in *.
    pose proof (A bS) as A0. pose proof (A bE123) as A1. revert A0 A1. pose proof (exp_pos (2 * s)) as P. pose proof (sin2_cos2 (2 * t)) as T. unfold Rsqr in T. revert P T. generalize (exp (2 * s)) (cos (2 * t)) (sin (2 * t)). clear. intros e c d P T.
    cbv -[Rplus Rminus Rmult Ropp R R0 R1 IZR]. intros A0 A1. assert (e * e * (d * d + c * c) = 0) by (transitivity ((e * d) * (e * d) + (e * c) * (e * c)); [ring|]; rewrite <- A0, <- A1; ring). rewrite T in H. nra.
Qed.
Lemma log_example : let M := mkMvec (Sca 2) (Vec 1 0 0) (Biv 0 0 0) (Tri 0) in let Z := mkMvec (Sca 1) (Vec 1 0 0) (Biv 0 0 0) (Tri 0) in
  ~ amplitude_is TMvec M (zero TCplx) /\ ~ exists L : MultiVector R, is_cexp (den TMvec L) (den TMvec Z).
Proof.
  intros M Z. split.
  - rewrite amp_zero_sq. intros H. pose proof (H bS) as K. revert K. cbv -[Rplus Rminus Rmult Ropp R R0 R1 IZR]. lra.
  - rewrite <- logarithms. intros H. apply H. apply amp_zero_sq. intro k. dblade k; dring.
Qed.
