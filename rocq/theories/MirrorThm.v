(** * Functions under reflections and negation: proofs. *)

Require Import Reals ZArith List Bool Lia.
From Flocq Require Import Core BinarySingleNaN.
Require Import Verif.Num Verif.Types Verif.Priv Verif.OpsUni Verif.OpsAdd Verif.OpsSub
  Verif.OpsMul Verif.Const Verif.Validity Verif.Compare Verif.Func Verif.SpecCl Verif.Rel Verif.B64 Verif.B64Facts
  Verif.SpecValid Verif.ValidFacts Verif.SpecCompare Verif.SpecSame Verif.SpecMirror Verif.CommFacts Verif.CompareFacts Verif.SameFacts Verif.MirrorFacts.
Import ListNotations.

(** ** Functions

    [pm a b]: the same number up to its sign. *)
Definition pm (a b : f64) : Prop := zr a b \/ zr (Bopp a) b.
Lemma pm_sq : forall a b, pm a b -> Bmult mode_NE a a = Bmult mode_NE b b.
Proof.
  assert (K : forall a b, zr a b -> Bmult mode_NE a a = Bmult mode_NE b b) by (intros a b []; [reflexivity|destruct s, s'; reflexivity]).
  intros a b [H|H]; [apply K, H|]. rewrite <- (K _ _ H), bmult_opp_l, bmult_opp_r, opp_opp. reflexivity.
Qed.
Lemma pm_valid : forall a b, pm a b -> isValid_Dub a = isValid_Dub b.
Proof.
  intros a b [H|H]; [apply zr_valid, H|]. rewrite <- (zr_valid _ _ H). unfold isValid_Dub. cbn [nisnormal neqb Arith_B].
  change (f64_isnormal a || Beqb (B754_zero false) a = f64_isnormal (Bopp a) || Beqb (B754_zero false) (Bopp a)).
  rewrite isnormal_opp, eqb_zero_opp. reflexivity.
Qed.
Lemma mirrored_pm : forall s t (x x' : val f64 t), mirrored s t x x' -> Forall2 pm (elems t x) (elems t x').
Proof.
  intros s t x x' H. unfold mirrored in H.
  assert (K : forall c a b, same (if c : bool then Bopp a else a) b -> pm a b).
  { intros [] a b E; apply same_zr in E; [right|left]; exact E. }
  destruct t; dvs; cbv -[same Bopp] in H; cbv -[pm]; inv2; f2; eapply K; eassumption.
Qed.
Lemma magSq_pm : forall t (x x' : val f64 t), Forall2 pm (elems t x) (elems t x') -> magSq t x = magSq t x'.
Proof.
  intros t x x' H.
  assert (Q : forall a b, pm a b -> @nmul f64 Ring0_B a a = nmul b b) by exact pm_sq.
  destruct t; dvs; cbv -[pm f64 Ring0_B nadd nmul nsub nopp nzero none_] in H; cbv -[f64 Ring0_B nadd nmul nsub nopp nzero none_]; inv2;
    repeat match goal with E : pm ?a ?b |- _ => rewrite (Q a b E); clear E end; reflexivity.
Qed.
Lemma valid_pm : forall t (x x' : val f64 t), Forall2 pm (elems t x) (elems t x') -> isValid t x = isValid t x'.
Proof.
  intros t x x' H. destruct t; dvs; cbv -[pm f64] in H; inv2;
    unfold isValid, isValid_Spin, isValid_Imsp, isValid_Cplx, isValid_Dplx, isValid_Mvec, isValid_Sca, isValid_Vec, isValid_Biv, isValid_Tri,
      sca_0, vec_0, biv_0, tri_0;
    cbn [at0 at30 scaData vecData bivData triData spinSca spinBiv imspVec imspTri cplxSca cplxTri dplxVec dplxBiv mvSca mvVec mvBiv mvTri];
    repeat match goal with E : pm ?a ?b |- _ => rewrite ?(pm_valid a b E); clear E end; reflexivity.
Qed.
Lemma magSq_mirror : forall s t (x x' : val f64 t), mirrored s t x x' -> magSq t x = magSq t x' /\ magnitude t x = magnitude t x'.
Proof.
  intros s t x x' H. assert (E : magSq t x = magSq t x') by (apply magSq_pm, (mirrored_pm s), H).
  split; [exact E|]. unfold magnitude. f_equal. exact E.
Qed.
Lemma valid_mirror : forall s t (x x' : val f64 t), mirrored s t x x' -> isValid t x = isValid t x'.
Proof. intros s t x x' H. apply valid_pm, (mirrored_pm s), H. Qed.
Lemma scale_tags : forall s t, Forall2 tle (elems t (scale t (Tt false) (tagv s t))) (map s (comps t)).
Proof.
  intros s t. assert (K : forall b, tle (Tt (if b : bool then true else false)) b) by (intros []; right; reflexivity).
  destruct t; cbv -[tle]; f2; apply K || (right; reflexivity).
Qed.
Lemma scale_mirror : forall s t (r : f64) (x x' : val f64 t), mirrored s t x x' -> mirrored s t (scale t r x) (scale t r x').
Proof.
  intros s t r x x' H. eapply from_tags; [| | |apply scale_tags].
  - apply (scale_rel rel_holds) with (r := (Tt false, r)); [exact (zr_refl r)|apply tagged_holds, H].
  - apply (scale_rel rel_fst); [reflexivity|apply tagged_fst].
  - apply (scale_rel rel_snd); [reflexivity|apply tagged_snd].
Qed.
Lemma null_mirror : forall s t, t <> TMvec -> mirrored s t (null t) (null t).
Proof.
  intros s t T. assert (K : forall b, same (if b : bool then B754_nan else B754_nan) B754_nan) by (intros []; left; reflexivity).
  unfold mirrored. destruct t; try congruence; cbv -[same f64]; f2; apply K.
Qed.

Section Fun.
Variable s : blade -> bool.
Lemma direction_mirror : forall t (x x' : val f64 t), t <> TMvec -> mirrored s t x x' -> mirrored s t (direction t x) (direction t x').
Proof.
  intros t x x' T H. unfold direction, pairMagDirFrom. cbn [snd].
  destruct (magSq_mirror s t x x' H) as [_ <-].
  destruct (nltb lim_denorm_min (magnitude t x)); [apply scale_mirror, H|apply null_mirror, T].
Qed.
Lemma inverse_mirror :
  (forall x x' : Scalar f64, mirrored s TSca x x' -> mirrored s TSca (inverse_Sca x) (inverse_Sca x')) /\
  (forall x x' : Vector f64, mirrored s TVec x x' -> mirrored s TVec (inverse_Vec x) (inverse_Vec x')) /\
  (forall x x' : BiVector f64, mirrored s TBiv x x' -> mirrored s TBiv (inverse_Biv x) (inverse_Biv x')) /\
  (forall x x' : TriVector f64, mirrored s TTri x x' -> mirrored s TTri (inverse_Tri x) (inverse_Tri x')).
Proof.
  repeat apply conj; intros x x' H.
  - unfold inverse_Sca. destruct (magSq_mirror s TSca x x' H) as [E _]. cbn [magSq] in E. 
    change (@magSq_Sca f64 (@narith_ring f64 Arith_B)) with (@magSq_Sca f64 Ring0_B). rewrite <- E.
    apply (scale_mirror s TSca). apply (uni_mirror s TSca x x' H).
  - unfold inverse_Vec. destruct (magSq_mirror s TVec x x' H) as [E _]. cbn [magSq] in E. 
    change (@magSq_Vec f64 (@narith_ring f64 Arith_B)) with (@magSq_Vec f64 Ring0_B). rewrite <- E.
    apply (scale_mirror s TVec). apply (uni_mirror s TVec x x' H).
  - unfold inverse_Biv. destruct (magSq_mirror s TBiv x x' H) as [E _]. cbn [magSq] in E. 
    change (@magSq_Biv f64 (@narith_ring f64 Arith_B)) with (@magSq_Biv f64 Ring0_B). rewrite <- E.
    apply (scale_mirror s TBiv). apply (uni_mirror s TBiv x x' H).
  - unfold inverse_Tri. destruct (magSq_mirror s TTri x x' H) as [E _]. cbn [magSq] in E. 
    change (@magSq_Tri f64 (@narith_ring f64 Arith_B)) with (@magSq_Tri f64 Ring0_B). rewrite <- E.
    apply (scale_mirror s TTri). apply (uni_mirror s TTri x x' H).
Qed.
Lemma pairdir_mirror : forall t (x x' : val f64 t), t <> TMvec -> mirrored s t x x' ->
  mirrored s t (snd (pairMagDirFrom t x)) (snd (pairMagDirFrom t x')).
Proof. exact direction_mirror. Qed.
Lemma scale_Biv_mirror : forall r (b b' : BiVector f64), mirrored s TBiv b b' ->
  mirrored s TBiv (@mul_Dub_Biv f64 (@narith_ring f64 Arith_B) r b) (@mul_Dub_Biv f64 (@narith_ring f64 Arith_B) r b').
Proof. exact (scale_mirror s TBiv). Qed.
Lemma spin_mirror : forall a a' b b', s bS = false -> mirrored s TBiv b b' -> same a a' ->
  mirrored s TSpin (mkSpin (Sca a) b) (mkSpin (Sca a') b').
Proof.
  intros a a' b b' S H E. unfold mirrored in *. dvs. cbv -[same Bopp f64 bS] in H |- *. rewrite S. constructor; assumption.
Qed.
Lemma spin_parts : forall x x' : Spinor f64, s bS = false -> mirrored s TSpin x x' ->
  same (sca_0 (spinSca x)) (sca_0 (spinSca x')) /\ mirrored s TBiv (spinBiv x) (spinBiv x').
Proof.
  intros x x' S H. unfold mirrored in *. dvs. cbv -[same Bopp f64 bS] in H |- *. rewrite S in H. inversion H; subst. split; assumption.
Qed.
Context (L : Libm f64) (S0 : s bS = false).
Lemma exp_Biv_mirror : forall x x' : BiVector f64, mirrored s TBiv x x' -> mirrored s TSpin (exp_Biv x) (exp_Biv x').
Proof.
  intros x x' H. unfold exp_Biv.
  pose proof (valid_mirror s TBiv x x' H) as V. cbn [isValid] in V. rewrite <- V.
  destruct (isValid_Biv x); [|apply (null_mirror s TSpin); discriminate].
  pose proof (pairdir_mirror TBiv x x' ltac:(discriminate) H) as D.
  pose proof (valid_mirror s TBiv _ _ D) as V'. cbn [isValid] in V'. cbv zeta. rewrite <- V'.
  destruct (magSq_mirror s TBiv x x' H) as [_ M].
  assert (M' : fst (pairMagDirFrom TBiv x) = fst (pairMagDirFrom TBiv x')) by exact M. rewrite <- M'.
  destruct (isValid_Biv (snd (pairMagDirFrom TBiv x))).
  - apply spin_mirror; [exact S0|apply scale_Biv_mirror, D|left; reflexivity].
  - apply spin_mirror; [exact S0| |left; reflexivity]. 
    assert (K : forall b, same (if b : bool then B754_zero true else B754_zero false) (B754_zero false)) by (intros []; right; do 2 eexists; split; reflexivity).
    unfold mirrored. cbv -[same f64]. f2; apply K.
Qed.
Lemma image_mirrored : forall t (x x' : val f64 t), image s t x x' -> mirrored s t x x'.
Proof.
  intros t x x' H. unfold mirrored. unfold image in H. rewrite H. clear. induction (map _ _); constructor; [left; reflexivity|assumption].
Qed.
Lemma image_spin : forall x x' : Spinor f64, image s TSpin x x' -> spinSca x = spinSca x' /\ mirrored s TBiv (spinBiv x) (spinBiv x').
Proof.
  intros x x' H. pose proof (image_mirrored TSpin x x' H) as M. apply spin_parts in M as [_ M]; [|exact S0]. split; [|exact M].
  unfold image in H. dvs. cbv -[same Bopp f64 bS] in H. rewrite S0 in H. inversion H; subst. reflexivity.
Qed.
Lemma exp_Spin_mirror' : forall x x' : Spinor f64, spinSca x = spinSca x' -> mirrored s TBiv (spinBiv x) (spinBiv x') ->
  mirrored s TSpin (exp_Spin x) (exp_Spin x').
Proof.
  intros x x' E M. unfold exp_Spin. rewrite <- E. apply (scale_mirror s TSpin), exp_Biv_mirror, M.
Qed.
Lemma log_mirror' : forall (x x' : Spinor f64) (p p' : BiVector f64), spinSca x = spinSca x' -> mirrored s TBiv (spinBiv x) (spinBiv x') ->
  mirrored s TBiv p p' ->
  spinSca (logG2 x p) = spinSca (logG2 x' p') /\ mirrored s TBiv (spinBiv (logG2 x p)) (spinBiv (logG2 x' p')).
Proof.
  intros x x' p p' E M P.
  assert (MX : mirrored s TSpin x x').
  { destruct x as [[[a]] b], x' as [[[a']] b']. cbn [spinSca spinBiv] in *. apply (spin_mirror a a'); [exact S0|exact M|]. left. congruence. }
  pose proof (valid_mirror s TSpin x x' MX) as V. cbn [isValid] in V.
  destruct (magSq_mirror s TSpin x x' MX) as [_ MG].
  unfold logG2. rewrite <- V.
  assert (N : spinSca (null_Spin : Spinor f64) = spinSca null_Spin /\ mirrored s TBiv (spinBiv (null_Spin : Spinor f64)) (spinBiv null_Spin)).
  { split; [reflexivity|]. apply (null_mirror s TBiv). discriminate. }
  destruct (isValid_Spin x); [|exact N]. cbv zeta. rewrite <- MG.
  destruct (nltb lim_epsilon (magnitude TSpin x)); [|exact N].
  set (i := ndiv _ (magnitude TSpin x)).
  assert (C : sca_0 (spinSca (@mul_Dub_Spin f64 (@narith_ring f64 Arith_B) i x')) = sca_0 (spinSca (@mul_Dub_Spin f64 (@narith_ring f64 Arith_B) i x))).
  { unfold mul_Dub_Spin. cbn [spinSca]. rewrite E. reflexivity. }
  rewrite C. destruct (nltb _ _); [|destruct (nltb _ _)].
  - split; [reflexivity|]. cbn [spinBiv].
    assert (K : forall b, same (if b : bool then B754_zero true else B754_zero false) (B754_zero false)) by (intros []; right; do 2 eexists; split; reflexivity).
    unfold mirrored. cbv -[same f64]. f2; apply K.
  - split; [reflexivity|]. cbn [spinBiv]. apply scale_Biv_mirror, (direction_mirror TBiv); [discriminate|exact P].
  - assert (D : mirrored s TBiv (spinBiv (@mul_Dub_Spin f64 (@narith_ring f64 Arith_B) i x)) (spinBiv (@mul_Dub_Spin f64 (@narith_ring f64 Arith_B) i x'))) by exact (scale_mirror s TBiv i _ _ M).
    destruct (magSq_mirror s TBiv _ _ D) as [_ F].
    assert (F' : fst (pairMagDirFrom TBiv (spinBiv (@mul_Dub_Spin f64 (@narith_ring f64 Arith_B) i x'))) = fst (pairMagDirFrom TBiv (spinBiv (@mul_Dub_Spin f64 (@narith_ring f64 Arith_B) i x)))) by (symmetry; exact F).
    rewrite F'. split; [reflexivity|]. cbn [spinBiv]. apply scale_Biv_mirror. apply (pairdir_mirror TBiv); [discriminate|exact D].
Qed.
Lemma sqrt_mirror' : forall (x x' : Spinor f64) (p p' : BiVector f64), spinSca x = spinSca x' -> mirrored s TBiv (spinBiv x) (spinBiv x') ->
  mirrored s TBiv p p' -> mirrored s TSpin (sqrtG2 x p) (sqrtG2 x' p').
Proof.
  intros x x' p p' E M P.
  assert (MX : mirrored s TSpin x x').
  { destruct x as [[[a]] b], x' as [[[a']] b']. cbn [spinSca spinBiv] in *. apply (spin_mirror a a'); [exact S0|exact M|]. left. congruence. }
  unfold sqrtG2. pose proof (valid_mirror s TSpin x x' MX) as V. cbn [isValid] in V. rewrite <- V.
  destruct (isValid_Spin x); [|apply (null_mirror s TSpin); discriminate]. cbv zeta. destruct (magSq_mirror s TSpin x x' MX) as [_ <-].
  destruct (nltb _ _).
  - assert (K : forall b, same (if b : bool then B754_zero true else B754_zero false) (B754_zero false)) by (intros []; right; do 2 eexists; split; reflexivity).
    unfold mirrored. cbv -[same f64]. f2; apply K.
  - destruct (log_mirror' x x' p p' E M P) as [A B]. apply exp_Spin_mirror'.
    + unfold mul_Dub_Spin. cbn [spinSca]. rewrite A. reflexivity.
    + exact (scale_mirror s TBiv _ _ _ B).
Qed.
Lemma spin_functions_mirror : forall (x x' : Spinor f64) (p p' : BiVector f64), image s TSpin x x' -> image s TBiv p p' ->
  mirrored s TSpin (exp_Spin x) (exp_Spin x') /\ mirrored s TSpin (logG2 x p) (logG2 x' p') /\ mirrored s TSpin (sqrtG2 x p) (sqrtG2 x' p').
Proof.
  intros x x' p p' X P. apply image_spin in X as [E M]. apply image_mirrored in P.
  split; [apply exp_Spin_mirror'; assumption|]. split; [|apply sqrt_mirror'; assumption].
  destruct (log_mirror' x x' p p' E M P) as [A B]. destruct (logG2 x p) as [[[a]] b], (logG2 x' p') as [[[a']] b'].
  cbn [spinSca spinBiv] in *. apply spin_mirror; [exact S0|exact B|]. left. congruence.
Qed.
End Fun.

Lemma exp_reverse : forall (L : Libm f64) (x : Spinor f64),
  samev TSpin (reverse TSpin (exp_Spin x)) (exp_Spin (reverse TSpin x)).
Proof.
  intros L x. pose (s := fun k => (2 <=? grade k)%nat).
  assert (I' : image s TSpin x (reverse TSpin x)) by (unfold image; dvs; reflexivity).
  destruct (spin_functions_mirror s L eq_refl x (reverse TSpin x) (Biv (B754_zero false) (B754_zero false) (B754_zero false))
    (Biv (B754_zero true) (B754_zero true) (B754_zero true)) I' eq_refl) as [H _].
  unfold samev. unfold mirrored in H. revert H. generalize (exp_Spin (reverse TSpin x)) (exp_Spin x). intros u v H. dvs. exact H.
Qed.
