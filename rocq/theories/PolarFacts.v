(** * The polar form of multivectors (proofs only). *)

Require Import Reals ZArith Lra Lia List Bool.
From Flocq Require Import Core.
Require Import Verif.Num Verif.Types Verif.Priv Verif.OpsUni Verif.OpsAdd Verif.OpsSub Verif.OpsMul Verif.Const
  Verif.Validity Verif.Compare Verif.Func Verif.SpecCl Verif.SpecFunc Verif.RealInst Verif.AlgTac Verif.AlgMul
  Verif.AlgFacts Verif.AlgSpec Verif.AlgThm Verif.FuncFacts Verif.FuncThm Verif.SpecPolar.
Local Open Scope R_scope.

Definition upper (z : ComPlex R) : Prop := 0 < sca_0 (cplxSca z) \/ (sca_0 (cplxSca z) = 0 /\ 0 <= tri_0 (cplxTri z)).
Lemma amp_ty : forall t, t <> TDub -> exists f g, (amplitude t : option (val xreal t -> _)) = Some f /\ (ampSq t : option (val xreal t -> _)) = Some g.
Proof. intros t H. destruct t; try contradiction; do 2 eexists; split; reflexivity. Qed.
(** The amplitude is the square root in the upper half of [x * dirverse(x)]. *)
Lemma amp_square : forall t (x : val R t) A, amplitude_is t x A -> upper A /\ ceq (gp (den TCplx A) (den TCplx A)) (gp (den t x) (cdir (den t x))).
Proof.
  intros t x A (f & Hf & E). assert (N : t <> TDub) by (intros ->; discriminate Hf). destruct (amp_ty t N) as (f' & g & Hf' & Hg). rewrite Hf in Hf'. injection Hf' as <-.
  destruct (amplitude_exact t f g x Hf Hg) as (z & w & Z & W & D & U). rewrite E in Z. apply (exact_inj TCplx) in Z. subst z. split; [exact U|].
  destruct (ampSq_exact t g x Hg) as (w' & W' & D'). rewrite W in W'. apply (exact_inj TCplx) in W'. subst w'.
  rewrite <- D'. rewrite <- D. symmetry. apply (mul_den TCplx TCplx).
Qed.
Lemma amp_exists : forall t (x : val R t), t <> TDub -> exists A, amplitude_is t x A.
Proof. intros t x N. destruct (amp_ty t N) as (f & g & Hf & Hg). destruct (amplitude_exact t f g x Hf Hg) as (z & _ & Z & _). exists z, f. split; assumption. Qed.
Lemma same_square : forall z w : ComPlex R, ceq (gp (den TCplx z) (den TCplx z)) (gp (den TCplx w) (den TCplx w)) -> z = w \/ z = neg TCplx w.
Proof.
  intros z w E. pose proof (E bS) as E0. pose proof (E bE123) as E1. clear E. revert E0 E1. destruct z as [[[a]] [[b]]], w as [[[c]] [[d]]]. cbv -[Rplus Rminus Rmult Ropp R R0 R1 IZR]. intros E0 E1.
  assert (F0 : a * a - b * b = c * c - d * d) by lra. assert (F1 : a * b = c * d) by lra. clear E0 E1.
  assert (P : (a * a - c * c) * (a * a + d * d) = 0). { transitivity (a * a * (a * a - b * b) + (a * b) * (a * b) - c * c * (a * a) + (a * a - c * c) * (d * d)); [ring|]. rewrite F0, F1. ring. }
  assert (Q : a * a = c * c). { apply Rmult_integral in P. destruct P as [P|P]; [lra|]. assert (a = 0) by nra. assert (d = 0) by nra. subst. nra. }
  assert (Q2 : b * b = d * d) by lra.
  assert (D : a = c \/ a = - c). { assert (H : (a - c) * (a + c) = 0) by lra. apply Rmult_integral in H. lra. }
  assert (D2 : b = d \/ b = - d). { assert (H : (b - d) * (b + d) = 0) by lra. apply Rmult_integral in H. lra. }
  assert (G : a = c /\ b = d \/ a = - c /\ b = - d).
  { destruct D as [->| ->], D2 as [->| ->]; try (left; split; lra); try (right; split; lra).
    - assert (c * d = 0) by lra. apply Rmult_integral in H. destruct H; subst; [right|left]; split; lra.
    - assert (c * d = 0) by lra. apply Rmult_integral in H. destruct H; subst; [left|right]; split; lra. }
  destruct G as [[-> ->]|[-> ->]]; [left|right]; reflexivity.
Qed.
Lemma upper_neg : forall z : ComPlex R, upper z -> upper (neg TCplx z) -> neg TCplx z = z.
Proof. intros [[[a]] [[b]]]. unfold upper. cbv -[Rplus Rminus Rmult Ropp Rlt Rle R R0 R1 IZR]. intros U V. assert (a = 0) by lra. assert (b = 0) by lra. subst. rewrite Ropp_0. reflexivity. Qed.
Lemma amp_unique : forall t (x : val R t) (z : ComPlex R), t <> TDub -> upper z -> ceq (gp (den TCplx z) (den TCplx z)) (gp (den t x) (cdir (den t x))) -> amplitude_is t x z.
Proof.
  intros t x z N U E. destruct (amp_exists t x N) as [A HA]. destruct (amp_square t x A HA) as [UA EA].
  assert (S : z = A \/ z = neg TCplx A) by (apply same_square; eapply ceq_trans; [exact E|apply ceq_sym, EA]). destruct S as [->|S]; [exact HA|].
  rewrite S in U. rewrite (upper_neg A UA U) in S. subst z. exact HA.
Qed.
(** ** Polar form *)
Lemma cplx_dir : forall z : ComPlex R, ceq (cdir (den TCplx z)) (den TCplx z).
Proof. intros [[[a]] [[b]]] k. dblade k; dring. Qed.
Lemma one_cplx : ceq (den TCplx (one TCplx)) cone.
Proof. intro k. dblade k; dring. Qed.
Lemma neg_l : forall a b, ceq (gp (copp a) (copp b)) (gp a b).
Proof. intros a b. rewrite !copp_scale, gp_scale_l, gp_scale_r. intro k. unfold cscale. ring. Qed.
Lemma polar_form : forall (M : MultiVector R) A, amplitude_is TMvec M A -> dmin < magSq TCplx A ->
  exists I, inverse_Cplx (exact TCplx A) = exact TCplx I /\ let U := mul TCplx TMvec I M in
    mul TCplx TMvec A U = M /\ unitary U /\ amplitude_is TMvec U (one TCplx) /\
    forall A' U', mul TCplx TMvec A' U' = M -> unitary U' -> A' = A /\ U' = U \/ A' = neg TCplx A /\ U' = neg TMvec U.
Proof.
  intros M A HA HD. rewrite magSq_den in HD. destruct (inverse_Cplx_ok A HD) as (I & HI & I1 & I2). exists I. split; [exact HI|]. intros U.
  destruct (amp_square TMvec M A HA) as [_ EA]. rewrite (mul_den TCplx TCplx) in I1, I2.
  assert (DU : ceq (den TMvec U) (gp (den TCplx I) (den TMvec M))) by exact (mul_den TCplx TMvec I M).
  assert (UU : unitary U).
  { unfold unitary. rewrite DU. rewrite amp_mult. rewrite <- EA, (cplx_dir I). rewrite (gp_assoc (den TCplx I)), <- (gp_assoc (den TCplx I) (den TCplx A)), I2, gp_one_l. exact I2. }
  split; [|split; [exact UU|split]].
  - apply (den_inj TMvec). rewrite (mul_den TCplx TMvec A U), DU, <- gp_assoc, I1, gp_one_l. reflexivity.
  - apply amp_unique; [discriminate|left; change (0 < 1); lra|]. rewrite one_cplx, gp_one_l. symmetry. exact UU.
  - intros A' U' E V. unfold unitary in V.
    assert (SQ : ceq (gp (den TCplx A') (den TCplx A')) (gp (den TCplx A) (den TCplx A))).
    { rewrite EA, <- E, (mul_den TCplx TMvec A' U'), amp_mult, V, gp_one_r, (cplx_dir A'). reflexivity. }
    assert (K : forall B : ComPlex R, ceq (gp (den TCplx I) (den TCplx B)) cone -> mul TCplx TMvec B U' = M -> U' = U).
    { intros B HB E'. apply (den_inj TMvec). rewrite DU, <- E', (mul_den TCplx TMvec B U'), <- gp_assoc, HB, gp_one_l. reflexivity. }
    apply same_square in SQ. destruct SQ as [-> | ->]; [left|right]; (split; [reflexivity|]).
    + exact (K A I2 E).
    + apply (den_inj TMvec). rewrite (neg_den TMvec U), DU, <- E, (mul_den TCplx TMvec _ U'), (neg_den TCplx A), <- gp_assoc.
      rewrite !copp_scale, gp_scale_r, gp_scale_l, I2, gp_one_l. intro k. unfold cscale. ring.
Qed.
(** ** Amplitudes of the types *)
Lemma amp_grade : forall t (x : val R t) s, t <> TDub -> s = 1 \/ s = -1 -> ceq (gp (den t x) (cdir (den t x))) (cscale (s * cnorm2 (den t x)) cone) ->
  amplitude_is t x (if Rle_dec 0 s then complex (cnorm (den t x)) 0 else complex 0 (cnorm (den t x))).
Proof.
  intros t x s N S E. pose proof (cnorm_nonneg (den t x)) as P. pose proof (cnorm_sq (den t x)) as Q. apply amp_unique; [exact N| |].
  - destruct (Rle_dec 0 s); unfold upper; cbv -[Rlt Rle R R0 IZR cnorm den]; destruct P; [left; assumption|right; split; [auto|lra]|right; split; [reflexivity|lra]|right; split; [reflexivity|lra]].
  - eapply ceq_trans; [|apply ceq_sym, E]. rewrite <- Q. generalize (cnorm (den t x)). intros m. destruct S as [-> | ->]; destruct (Rle_dec 0 _) as [H|H]; try lra; intro k; dblade k; cbv -[Rplus Rminus Rmult Ropp R R0 R1 IZR]; ring.
Qed.
Lemma amp_table :
  (forall x : Scalar R, amplitude_is TSca x (complex (cnorm (den TSca x)) 0)) /\ (forall x : Vector R, amplitude_is TVec x (complex 0 (cnorm (den TVec x)))) /\
  (forall x : BiVector R, amplitude_is TBiv x (complex (cnorm (den TBiv x)) 0)) /\ (forall x : TriVector R, amplitude_is TTri x (complex 0 (cnorm (den TTri x)))) /\
  (forall x : Spinor R, amplitude_is TSpin x (complex (cnorm (den TSpin x)) 0)) /\ (forall x : ImSpin R, amplitude_is TImsp x (complex 0 (cnorm (den TImsp x)))).
Proof.
  assert (P : forall t (x : val R t), t <> TDub -> ceq (gp (den t x) (cdir (den t x))) (cscale (1 * cnorm2 (den t x)) cone) -> amplitude_is t x (complex (cnorm (den t x)) 0)).
  { intros t x N E. pose proof (amp_grade t x 1 N (or_introl eq_refl) E) as H. destruct (Rle_dec 0 1); [exact H|lra]. }
  assert (Q : forall t (x : val R t), t <> TDub -> ceq (gp (den t x) (cdir (den t x))) (cscale (-1 * cnorm2 (den t x)) cone) -> amplitude_is t x (complex 0 (cnorm (den t x)))).
  { intros t x N E. pose proof (amp_grade t x (-1) N (or_intror eq_refl) E) as H. destruct (Rle_dec 0 (-1)); [lra|exact H]. }
  repeat split; intros x; first [apply P|apply Q]; try discriminate; dvals; intro k; dblade k; dring.
Qed.
(** ** Products *)
Lemma amp_product : forall a b (x : val R a) (y : val R b) A B, amplitude_is a x A -> amplitude_is b y B ->
  amplitude_is (mulTy a b) (mul a b x y) (mul TCplx TCplx A B) \/ amplitude_is (mulTy a b) (mul a b x y) (neg TCplx (mul TCplx TCplx A B)).
Proof.
  intros a b x y A B HA HB. destruct (amp_square a x A HA) as [_ EA]. destruct (amp_square b y B HB) as [_ EB].
  assert (N : mulTy a b <> TDub). { destruct HA as (f & Hf & _), HB as (g & Hg & _). destruct a; try discriminate Hf; destruct b; try discriminate Hg; discriminate. }
  destruct (amp_exists _ (mul a b x y) N) as [Z HZ]. destruct (amp_square _ _ Z HZ) as [_ EZ].
  assert (S : ceq (gp (den TCplx Z) (den TCplx Z)) (gp (den TCplx (mul TCplx TCplx A B)) (den TCplx (mul TCplx TCplx A B)))).
  { change (den TCplx (mul TCplx TCplx A B)) with (den (mulTy TCplx TCplx) (mul TCplx TCplx A B)). rewrite EZ, (mul_den a b x y), amp_mult, <- EA, <- EB, !(mul_den TCplx TCplx A B).
    rewrite !gp_assoc. rewrite <- (gp_assoc (den TCplx B) (den TCplx A)), (den_cplx_central B (den TCplx A)), (gp_assoc (den TCplx A) (den TCplx B)). reflexivity. }
  apply same_square in S. destruct S as [<-|S]; [left; exact HZ|right]. rewrite <- S. exact HZ.
Qed.
(** ** Zero divisors *)
Lemma amp_zero : forall m : MultiVector R, amplitude_is TMvec m (zero TCplx) <-> zero_divisor m.
Proof.
  intros m. assert (Z0 : ceq (den TCplx (zero TCplx)) czero) by (intro k; dblade k; dring). assert (Zm : ceq (den TMvec (zero TMvec)) czero) by (intro k; dblade k; dring).
  assert (G0 : forall a, ceq (gp a czero) czero) by (intro a; intro k; dblade k; dring). assert (G1 : forall a, ceq (gp czero a) czero) by (intro a; intro k; dblade k; dring).
  split.
  - intros H. destruct (amp_square _ _ _ H) as [_ E]. rewrite Z0, G0 in E.
    destruct (Req_dec (magSq TMvec m) 0) as [K|K].
    + apply magSq_zero_iff in K. subst m. exists (one TMvec). split; [intros O; apply (f_equal (fun q : MultiVector R => sca_0 (mvSca q))) in O; cbv -[R R0 R1 IZR] in O; lra|].
      apply (den_inj TMvec). rewrite (mul_den TMvec TMvec), Zm, G1. reflexivity.
    + exists (dirverse TMvec m). split.
      * intros O. apply K. apply magSq_zero_iff. apply (den_inj TMvec). rewrite <- (cdir_cdir (den TMvec m)), <- (dirverse_den TMvec m), O. rewrite Zm. intro k. dblade k; dring.
      * apply (den_inj TMvec). rewrite (mul_den TMvec TMvec), (dirverse_den TMvec), Zm. symmetry. exact E.
  - intros (y & Hy & E). apply amp_unique; [discriminate|right; split; [reflexivity|change (0 <= 0); lra]|]. rewrite Z0, G0.
    destruct (ampSq_Mvec_exact m) as (w & _ & W). rewrite <- W.
    assert (P : ceq (gp (den TCplx w) (den TMvec y)) czero).
    { rewrite W, gp_cdir_comm, gp_assoc, <- (mul_den TMvec TMvec m y), E. rewrite Zm. apply G0. }
    destruct (Req_dec (cnorm2 (den TCplx w)) 0) as [K|K].
    + rewrite <- magSq_den in K. apply magSq_zero_iff in K. rewrite K. symmetry. exact Z0.
    + exfalso. apply Hy. apply (den_inj TMvec). rewrite Zm.
      assert (Q : cnorm2 (gp (den TCplx w) (den TMvec y)) = cnorm2 (den TCplx w) * cnorm2 (den TMvec y)) by (apply cnorm2_gp_l, (unmixed_rev TCplx w eq_refl)).
      rewrite (cnorm2_ceq _ _ P) in Q. replace (cnorm2 czero) with 0 in Q by dring. symmetry in Q. apply Rmult_integral in Q. destruct Q as [Q|Q]; [contradiction|].
      rewrite <- magSq_den in Q. apply magSq_zero_iff in Q. rewrite Q. exact Zm.
Qed.
(** ** Cases *)
Lemma polar_example : let M := mkMvec (Sca 2) (Vec 1 0 0) (Biv 0 0 0) (Tri 0) in let Z := mkMvec (Sca 1) (Vec 1 0 0) (Biv 0 0 0) (Tri 0) in
  amplitude_is TMvec M (complex (sqrt 3) 0) /\ dmin < magSq TCplx (complex (sqrt 3) 0) /\ amplitude_is TMvec Z (zero TCplx) /\ Z <> zero TMvec.
Proof.
  assert (Q : sqrt 3 * sqrt 3 = 3) by (apply sqrt_sqrt; lra). assert (P : 0 < sqrt 3) by (apply sqrt_lt_R0; lra). revert Q P. generalize (sqrt 3). intros q Q P.
  intros M Z. split; [|split; [|split]].
  - apply amp_unique; [discriminate|left; exact P|]. intro k; dblade k; cbv -[Rplus Rminus Rmult Ropp R R0 R1 IZR]; lra.
  - rewrite magSq_den. replace (cnorm2 (den TCplx (complex q 0))) with 3 by (cbv -[Rplus Rminus Rmult Ropp R R0 R1 IZR]; nra). assert (dmin < 1) by (unfold dmin; change 1 with (bpow radix2 0); apply bpow_lt; lia). lra.
  - apply amp_unique; [discriminate|right; split; [reflexivity|change (0 <= 0); lra]|]. intro k; dblade k; dring.
  - intros O. apply (f_equal (fun q : MultiVector R => sca_0 (mvSca q))) in O. cbv -[R R0 R1 IZR] in O. lra.
Qed.
Lemma amp_sign : exists (x y : Vector R) A B, amplitude_is TVec x A /\ amplitude_is TVec y B /\ ~ amplitude_is TSpin (mul TVec TVec x y) (mul TCplx TCplx A B).
Proof.
  assert (N : forall x : Vector R, cnorm2 (den TVec x) = 1 -> amplitude_is TVec x (complex 0 1)).
  { intros x H. pose proof (proj1 (proj2 amp_table) x) as T. unfold cnorm in T. rewrite H, sqrt_1 in T. exact T. }
  exists (Vec 1 0 0), (Vec 0 1 0), (complex 0 1), (complex 0 1). split; [apply N; dring|]. split; [apply N; dring|].
  intros H. apply amp_square in H. destruct H as [[H|[H _]] _]; revert H; cbv -[Rplus Rminus Rmult Ropp Rlt R R0 R1 IZR]; lra.
Qed.
