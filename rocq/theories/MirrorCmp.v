(** * Comparison under changes of signs: proofs. *)

Require Import ZArith List Bool.
From Flocq Require Import Core BinarySingleNaN.
Require Import Verif.Num Verif.Types Verif.Priv Verif.OpsUni Verif.Const Verif.Validity Verif.Compare Verif.SpecCl Verif.Rel Verif.B64 Verif.B64Facts
  Verif.ValidFacts Verif.ArrFacts Verif.SpecCompare Verif.SpecSame Verif.SpecMirror Verif.CommFacts Verif.SameFacts Verif.MirrorFacts Verif.MirrorThm.
Import ListNotations.

Lemma chs_valid : forall c a, isValid_Dub (chs c a) = isValid_Dub a.
Proof. intros [] a; [|reflexivity]. symmetry. apply pm_valid. right. apply zr_refl. Qed.
Lemma chs_small : forall c a t, isSmallAbs (chs c a) t = isSmallAbs a t.
Proof.
  intros [] a t; [|reflexivity]. unfold isSmallAbs. 
  assert (K : @nabs f64 Arith_B (Bopp a) = nabs a) by (destruct a as [[]|[]| |[] m e H]; reflexivity).
  cbn [chs]. rewrite K. reflexivity.
Qed.
Lemma chs_smalldiff : forall c a b t, isSmallAbsDiff (chs c a) (chs c b) t = isSmallAbsDiff a b t.
Proof.
  intros c a b t. unfold isSmallAbsDiff. cbv zeta. rewrite <- (chs_small c (@nsub f64 _ a b) t). symmetry. apply small_zr. exact (chs_sub c a b).
Qed.
Lemma chs_sqdiff : forall c a b, Bmult mode_NE (Bminus mode_NE (chs c a) (chs c b)) (Bminus mode_NE (chs c a) (chs c b))
  = Bmult mode_NE (Bminus mode_NE a b) (Bminus mode_NE a b).
Proof.
  intros c a b. symmetry. apply pm_sq. pose proof (chs_sub c a b) as H. destruct c; [right|left]; exact H.
Qed.
Lemma bdiv_opp : forall a b : f64, Bdiv mode_NE (Bopp a) (Bopp b) = Bdiv mode_NE a b.
Proof.
  intros a b. destruct a as [s|s| |s m e H], b as [p|p| |p n g K]; try reflexivity; try (destruct s, p; reflexivity).
  apply B2SF_inj. unfold Bdiv. cbn [Bopp]. rewrite !B2SF_SF2B. rewrite !xorb_negb_negb. reflexivity.
Qed.

(** Triples: change the sign?, first number, second number. *)
Definition trip := (bool * (f64 * f64))%type.
Definition tl1 (l : list trip) := map (fun p => fst (snd p)) l.
Definition tl2 (l : list trip) := map (fun p => snd (snd p)) l.
Definition tc1 (l : list trip) := map (fun p => chs (fst p) (fst (snd p))) l.
Definition tc2 (l : list trip) := map (fun p => chs (fst p) (snd (snd p))) l.
Lemma inner_chs : forall l i, inner_product (tc2 l) (tc2 l) i = inner_product (tl2 l) (tl2 l) i :> f64.
Proof.
  induction l as [|[c [a b]] l IH]; intros i; [reflexivity|]. cbn [tc2 tl2 map inner_product fst snd].
  fold (tc2 l) (tl2 l). rewrite IH. f_equal. f_equal.
  change (Bmult mode_NE (chs c b) (chs c b) = Bmult mode_NE b b). symmetry. apply pm_sq. destruct c; [right|left]; apply zr_refl.
Qed.
Lemma sumsq_chs : forall l i, sumSqDif (tc1 l) (tc2 l) i = sumSqDif (tl1 l) (tl2 l) i :> f64.
Proof.
  induction l as [|[c [a b]] l IH]; intros i; [reflexivity|]. cbn [tc1 tc2 tl1 tl2 map sumSqDif fst snd].
  fold (tc1 l) (tc2 l) (tl1 l) (tl2 l). rewrite IH. f_equal. f_equal. exact (chs_sqdiff c a b).
Qed.
Lemma allsmall_chs : forall l t s, allSmallDiff (tc1 l) (tc2 l) t s = allSmallDiff (tl1 l) (tl2 l) t s.
Proof.
  induction l as [|[c [a b]] l IH]; intros t s; [reflexivity|]. cbn [tc1 tc2 tl1 tl2 map allSmallDiff fst snd].
  destruct s; [|reflexivity]. rewrite chs_smalldiff. apply IH.
Qed.
Lemma validarr_chs : forall l : list (bool * f64), isValid_arr (map (fun p => chs (fst p) (snd p)) l) = isValid_arr (map snd l).
Proof.
  intros [|[c a] l]; [reflexivity|]. unfold isValid_arr. cbn [map fst snd]. rewrite chs_valid.
  generalize (isValid_Dub a). induction l as [|[d b] l IH]; intros v; [reflexivity|]. cbn [map fold_left fst snd]. rewrite chs_valid. apply IH.
Qed.
Lemma arr_chs : forall l t, nearlyEquals_arr (tc1 l) (tc2 l) t = nearlyEquals_arr (tl1 l) (tl2 l) t.
Proof.
  intros l t. unfold nearlyEquals_arr.
  pose proof (validarr_chs (map (fun p : trip => (fst p, fst (snd p))) l)) as V1.
  pose proof (validarr_chs (map (fun p : trip => (fst p, snd (snd p))) l)) as V2.
  rewrite !map_map in V1, V2. cbn [fst snd] in V1, V2.
  change (isValid_arr (tc1 l) = isValid_arr (tl1 l)) in V1. change (isValid_arr (tc2 l) = isValid_arr (tl2 l)) in V2.
  rewrite V1, V2. destruct (isValid_arr (tl1 l) && isValid_arr (tl2 l)); [|reflexivity]. cbv zeta.
  rewrite inner_chs, sumsq_chs. destruct (nltb _ _); [|reflexivity].
  destruct l as [|[c [a b]] l]; [reflexivity|]. cbn [tc1 tc2 tl1 tl2 map fst snd].
  fold (tc1 l) (tc2 l) (tl1 l) (tl2 l). rewrite allsmall_chs. f_equal. unfold nearlyEqualsAbs, bothAreValid.
  rewrite !chs_valid, chs_smalldiff. reflexivity.
Qed.
Lemma rel_chs : forall c a b t, nearlyEqualsRel (chs c a) (chs c b) t = nearlyEqualsRel a b t.
Proof.
  intros c a b t. unfold nearlyEqualsRel, bothAreValid. rewrite !chs_valid, chs_smalldiff. cbv zeta.
  assert (D : @ndiv f64 Arith_B (chs c a) (chs c b) = ndiv a b) by (destruct c; [exact (bdiv_opp a b)|reflexivity]). rewrite D.
  assert (K : @nabs f64 Arith_B (chs c b) = nabs b) by (destruct c, b as [[]|[]| |[] m e H]; reflexivity). rewrite K. reflexivity.
Qed.
Lemma arr_m : forall (l : list trip) c d t, Forall2 zr (tc1 l) c -> Forall2 zr (tc2 l) d ->
  nearlyEquals_arr (tl1 l) (tl2 l) t = nearlyEquals_arr c d t.
Proof. intros l c d t A B. rewrite <- arr_chs. apply arr_zr; assumption. Qed.
Lemma arr1_m : forall k a b a' b' t, zr (chs k a) a' -> zr (chs k b) b' ->
  nearlyEquals_arr [a] [b] t = nearlyEquals_arr [a'] [b'] t.
Proof. intros k a b a' b' t A B. apply (arr_m [(k, (a, b))]); constructor; auto. Qed.
Lemma arr3_m : forall k0 k1 k2 a0 a1 a2 b0 b1 b2 a0' a1' a2' b0' b1' b2' t,
  zr (chs k0 a0) a0' -> zr (chs k1 a1) a1' -> zr (chs k2 a2) a2' ->
  zr (chs k0 b0) b0' -> zr (chs k1 b1) b1' -> zr (chs k2 b2) b2' ->
  nearlyEquals_arr [a0; a1; a2] [b0; b1; b2] t = nearlyEquals_arr [a0'; a1'; a2'] [b0'; b1'; b2'] t.
Proof. intros. apply (arr_m [(k0, (a0, b0)); (k1, (a1, b1)); (k2, (a2, b2))]); repeat constructor; auto. Qed.
Lemma rel_m : forall k a b a' b' t, zr (chs k a) a' -> zr (chs k b) b' -> nearlyEqualsRel a b t = nearlyEqualsRel a' b' t.
Proof. intros k a b a' b' t A B. rewrite <- (rel_chs k). apply rel_zr; assumption. Qed.
Lemma eqb_m : forall k a b a' b', zr (chs k a) a' -> zr (chs k b) b' -> Beqb a b = Beqb a' b'.
Proof.
  assert (Z : forall a b a' b', zr a a' -> zr b b' -> Beqb a b = Beqb a' b').
  { intros a b a' b' [x|p q] [y|u v]; [reflexivity|..].
    - destruct x as [[]|[]| |[] m e H], u, v; reflexivity.
    - destruct y as [[]|[]| |[] m e H], p, q; reflexivity.
    - destruct p, q, u, v; reflexivity. }
  intros k a b a' b' A B. rewrite <- (Z _ _ _ _ A B). destruct k; [|reflexivity]. cbn [chs]. unfold Beqb. rewrite !b2sf_opp.
  destruct (B2SF a) as [p|p| |p m e], (B2SF b) as [q|q| |q n g]; try reflexivity; try (destruct p, q; reflexivity); try (destruct p; reflexivity); try (destruct q; reflexivity).
  unfold SpecFloat.SFeqb. cbn [SpecFloat.SFopp SpecFloat.SFcompare].
  destruct p, q; cbn [negb]; try reflexivity; destruct (Z.compare e g); try reflexivity; destruct (Pos.compare_cont Eq m n); reflexivity.
Qed.
Lemma nearly_mirror : forall s t (x x' y y' : val f64 t) tol, mirrored s t x x' -> mirrored s t y y' ->
  nearlyEquals t x y tol = nearlyEquals t x' y' tol.
Proof.
  intros s t x x' y y' tol A B. unfold mirrored in A, B.
  assert (T : t = TDub \/ t <> TDub) by (destruct t; auto; right; discriminate).
  destruct T as [->|T].
  - inversion A as [|? ? ? ? A1 _]; inversion B as [|? ? ? ? B1 _]; subst. exact (rel_m (s bS) _ _ _ _ tol (proj1 (same_zr _ _) A1) (proj1 (same_zr _ _) B1)).
  - rewrite !nearly_grades by exact T.
    destruct t; [now elim T|..]; dvs; cbv -[nearlyEquals_arr same Bopp f64 andb Arith_B] in A, B |- *; inv2;
    repeat match goal with H : same _ _ |- _ => apply same_zr in H end;
    repeat match goal with |- andb _ _ = andb _ _ => apply (f_equal2 andb) end;
    first [eapply arr1_m; eassumption | eapply arr3_m; eassumption | reflexivity].
Qed.
Lemma eqeq_mirror : forall s t f (x x' y y' : val f64 t), eqeq t = Some f -> mirrored s t x x' -> mirrored s t y y' -> f x y = f x' y'.
Proof.
  intros s t f x x' y y' E A B. unfold mirrored in A, B.
  destruct t; inversion E; subst f; clear E; dvs; cbv -[same Bopp Beqb f64 andb] in A, B |- *; inv2;
    repeat match goal with H : same _ _ |- _ => apply same_zr in H end;
    repeat match goal with |- andb _ _ = andb _ _ => apply (f_equal2 andb) end; eapply eqb_m; eassumption.
Qed.
