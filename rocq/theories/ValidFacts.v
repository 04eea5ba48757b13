(** * Validity and null objects on binary64: proofs. *)

Require Import Reals ZArith List Bool Lra.
From Flocq Require Import Core BinarySingleNaN.
Require Import Verif.Num Verif.Types Verif.Priv Verif.OpsUni Verif.OpsAdd Verif.OpsSub
  Verif.OpsMul Verif.Const Verif.Validity Verif.Compare Verif.Func Verif.Rel Verif.B64
  Verif.B64Facts Verif.Taint Verif.SpecCl Verif.SpecValid.
Import ListNotations.

Lemma neqb_zero : forall x : f64, Beqb (B754_zero false) x = true <-> fin x = true /\ b2r x = 0%R.
Proof.
  intros [s|s| |s m e H].
  - cbn. tauto.
  - split; [destruct s; discriminate|intros [E _]; discriminate].
  - split; [discriminate|intros [E _]; discriminate].
  - split; [destruct s; discriminate|intros [_ E]; exfalso].
    cbn [B2R] in E. apply eq_0_F2R in E. destruct s; discriminate.
Qed.

Lemma isValid_number : forall x : f64, isValid_Dub x = true <-> valid_number x.
Proof.
  intros x. unfold isValid_Dub, valid_number. rewrite orb_true_iff.
  change (nisnormal x) with (f64_isnormal x). change (neqb nzero x) with (Beqb (B754_zero false) x).
  rewrite isnormal_spec, neqb_zero. tauto.
Qed.
Lemma isValid_nonfin : forall x : f64, fin x = false -> isValid_Dub x = false.
Proof.
  intros x H. destruct (isValid_Dub x) eqn:E; auto. apply isValid_number in E.
  destruct E as [E _]. congruence.
Qed.
Lemma nan_nonfin : forall x : f64, is_nan x = true -> fin x = false.
Proof. intros [s|s| |s m e H]; try discriminate; reflexivity. Qed.
Lemma isValid_nan : forall x : f64, is_nan x = true -> isValid_Dub x = false.
Proof. intros x H. apply isValid_nonfin, nan_nonfin, H. Qed.

Lemma isnormal_opp : forall x : f64, f64_isnormal (Bopp x) = f64_isnormal x.
Proof. intros [s|s| |s m e H]; reflexivity. Qed.
Lemma eqb_zero_opp : forall x : f64, Beqb (B754_zero false) (Bopp x) = Beqb (B754_zero false) x.
Proof. intros [[]|[]| |[] m e H]; reflexivity. Qed.
Lemma isValid_opp : forall x : f64, isValid_Dub (nopp x) = isValid_Dub x.
Proof.
  intros x. unfold isValid_Dub. f_equal; [apply isnormal_opp|apply eqb_zero_opp].
Qed.

Section Gen.
Context {F : Type} {AF : Arith F} (d : F).
Hypothesis Hopp : forall x : F, isValid_Dub (nopp x) = isValid_Dub x.
Lemma first_gen : forall t (x : val F t),
  isValid t x = forallb isValid_Dub (map (fun i => nth i (elems t x) d) (first_of_grade t)).
Proof.
  intros t x; destruct t; dvs; cbv -[isValid_Dub];
    repeat match goal with |- context [isValid_Dub ?a] => destruct (isValid_Dub a) end; reflexivity.
Qed.
Lemma signs_gen : forall t (x : val F t),
  isValid t (neg t x) = isValid t x /\ isValid t (reverse t x) = isValid t x /\
  isValid t (oddverse t x) = isValid t x /\ isValid t (dirverse t x) = isValid t x /\
  isValid (dualTy t) (dual t x) = isValid t x.
Proof.
  intros t x; destruct t; dvs; cbv -[isValid_Dub nopp]; rewrite ?Hopp; repeat split;
    repeat match goal with |- context [isValid_Dub ?a] => destruct (isValid_Dub a) end; reflexivity.
Qed.
End Gen.
Lemma first_ok : forall t (x : val f64 t),
  isValid t x = forallb isValid_Dub (map (fun i => nth i (elems t x) (B754_nan : f64)) (first_of_grade t)).
Proof. exact (first_gen _). Qed.
Lemma isValid_signs : forall t (x : val f64 t),
  isValid t (neg t x) = isValid t x /\ isValid t (reverse t x) = isValid t x /\
  isValid t (oddverse t x) = isValid t x /\ isValid t (dirverse t x) = isValid t x /\
  isValid (dualTy t) (dual t x) = isValid t x.
Proof. exact (signs_gen isValid_opp). Qed.

Lemma all_valid_isValid : forall t (x : val f64 t), all_valid t x -> isValid t x = true.
Proof.
  intros t x H. unfold all_valid in H.
  assert (A : Forall (fun v => isValid_Dub v = true) (elems t x)).
  { eapply Forall_impl; [|exact H]. intros v Hv. apply isValid_number. exact Hv. }
  rewrite first_ok. apply forallb_forall. intros v Hv. apply in_map_iff in Hv.
  destruct Hv as (i & <- & Hi). rewrite Forall_forall in A. apply A. apply nth_In.
  destruct t; dvs; cbn in Hi |- *; intuition (subst; repeat constructor).
Qed.

Lemma isValid_all_single : forall t (x : val f64 t),
  t = TDub \/ t = TSca \/ t = TTri \/ t = TCplx -> (isValid t x = true <-> all_valid t x).
Proof.
  intros t x H. split; [|apply all_valid_isValid].
  rewrite first_ok, forallb_forall. intros E. apply Forall_forall. intros v Hv.
  apply isValid_number, E. apply in_map_iff.
  destruct H as [->|[->|[->| ->]]]; dvs; cbn in Hv |- *; intuition (subst; first [exists 0%nat; tauto|exists 1%nat; tauto]).
Qed.

(** Objects spoilt at the first component of some grade are invalid. *)
Definition anyfirst (t : ty) (b : val bool t) : bool :=
  existsb (fun i => nth i (elems t b) false) (first_of_grade t).
Definition anyfirsto (o : option ty) : oval bool o -> bool :=
  match o with Some t => anyfirst t | None => fun _ => true end.

Lemma first_invalid : forall t (x : val f64 t) (b : val bool t),
  relv (fun x b => b = true -> nonfin x = true) t x b -> anyfirst t b = true ->
  isValid t x = false.
Proof.
  intros t x b H E. rewrite first_ok. unfold anyfirst in E.
  apply existsb_exists in E. destruct E as (i & Hi & Ei).
  destruct (forallb _ _) eqn:A; auto. rewrite forallb_forall in A.
  specialize (A (nth i (elems t x) (B754_nan : f64))). cbv beta in A.
  rewrite isValid_nonfin in A; [discriminate A; apply in_map_iff; eauto|].
  apply nonfin_true. unfold relv in H. clear Hi A.
  revert i Ei. induction H as [|v w l l' Hv Hl IH]; intros [|i] Ei; cbn in *; try discriminate; auto.
Qed.

Lemma first_invalido : forall o (x : oval f64 o) (b : oval bool o),
  relo (fun x b => b = true -> nonfin x = true) o x b -> anyfirsto o b = true ->
  if_exists (fun t r => isValid t r = false) o x.
Proof. intros [t|] x b H E; cbn in *; [eapply first_invalid; eauto|exact I]. Qed.

(** ** Null operands *)
Definition nullpat (t : ty) : val bool t :=
  match t with
  | TDub => true
  | TSca => Sca true
  | TVec => Vec true true true
  | TBiv => Biv true true true
  | TTri => Tri true
  | TSpin => mkSpin (Sca true) (Biv true true true)
  | TImsp => mkImsp (Vec true true true) (Tri true)
  | TCplx => mkCplx (Sca true) (Tri true)
  | TDplx => mkDplx (Vec true true true) (Biv true true true)
  | TMvec => mkMvec (Sca true) (Vec false false false) (Biv false false false) (Tri false)
  end.
Lemma null_rel : forall t, relv (fun x b => b = true -> nonfin x = true) t (null t) (nullpat t).
Proof.
  intros t; unfold relv; destruct t; cbn; repeat (apply Forall2_cons; [reflexivity||discriminate|]);
    apply Forall2_nil.
Qed.

Notation TR := (taint_rel nonfin spoils_nonfin).
Lemma null_mul_l : forall a b (y : val f64 b), isValid (mulTy a b) (mul a b (null a) y) = false.
Proof.
  intros a b y. eapply first_invalid; [apply (mul_rel TR); [apply null_rel|apply clean_rel]|].
  destruct a, b; reflexivity.
Qed.
Lemma null_mul_r : forall a b (x : val f64 a), isValid (mulTy a b) (mul a b x (null b)) = false.
Proof.
  intros a b y. eapply first_invalid; [apply (mul_rel TR); [apply clean_rel|apply null_rel]|].
  destruct a, b; reflexivity.
Qed.
Lemma null_add_l : forall a b (y : val f64 b),
  if_exists (fun t r => isValid t r = false) (addTy a b) (add a b (null a) y).
Proof.
  intros a b y. eapply first_invalido; [apply (add_rel TR); [apply null_rel|apply clean_rel]|].
  destruct a, b; reflexivity.
Qed.
Lemma null_add_r : forall a b (x : val f64 a),
  if_exists (fun t r => isValid t r = false) (addTy a b) (add a b x (null b)).
Proof.
  intros a b y. eapply first_invalido; [apply (add_rel TR); [apply clean_rel|apply null_rel]|].
  destruct a, b; reflexivity.
Qed.
Lemma null_sub_l : forall a b (y : val f64 b),
  if_exists (fun t r => isValid t r = false) (subTy a b) (sub a b (null a) y).
Proof.
  intros a b y. eapply first_invalido; [apply (sub_rel TR); [apply null_rel|apply clean_rel]|].
  destruct a, b; reflexivity.
Qed.
Lemma null_sub_r : forall a b (x : val f64 a),
  if_exists (fun t r => isValid t r = false) (subTy a b) (sub a b x (null b)).
Proof.
  intros a b y. eapply first_invalido; [apply (sub_rel TR); [apply clean_rel|apply null_rel]|].
  destruct a, b; reflexivity.
Qed.
Lemma null_uni : forall t,
  isValid t (null t : val f64 t) = false /\
  isValid t (neg t (null t : val f64 t)) = false /\ isValid t (reverse t (null t : val f64 t)) = false /\
  isValid t (oddverse t (null t : val f64 t)) = false /\ isValid t (dirverse t (null t : val f64 t)) = false /\
  isValid (dualTy t) (dual t (null t : val f64 t)) = false /\
  isValid_Dub (magSq t (null t : val f64 t)) = false.
Proof.
  intros t.
  assert (H : isValid t (null t : val f64 t) = false).
  { eapply first_invalid; [apply null_rel|]. destruct t; reflexivity. }
  destruct (isValid_signs t (null t)) as (A & B & C & D & E).
  rewrite A, B, C, D, E. repeat split; auto.
  apply isValid_nonfin. apply nonfin_true. apply (magSq_rel TR t _ _ (null_rel t)).
  destruct t; reflexivity.
Qed.

(** ** Nothing is lost *)
Lemma keep_rel : forall P (SP : spoils P) t x,
  Exists (fun v => P v = true) (elems t x) -> anyb t (pat P t x) = true.
Proof. intros P SP t x H. apply anyb_Exists, pat_Exists, H. Qed.

Lemma keep_mul : forall P, spoils P -> forall a b (x : val f64 a) (y : val f64 b),
  Exists (fun v => P v = true) (elems a x) \/ Exists (fun v => P v = true) (elems b y) ->
  Exists (fun v => P v = true) (elems (mulTy a b) (mul a b x y)).
Proof.
  intros P SP a b x y [H|H]; (eapply rel_Forall; [apply (mul_rel (taint_rel P SP))|apply anyb_Exists]).
  - apply pat_rel.
  - apply clean_rel.
  - apply mul_taint_l, keep_rel; auto.
  - apply clean_rel.
  - apply pat_rel.
  - apply mul_taint_r, keep_rel; auto.
Qed.
Lemma rel_Forallo : forall P o (x : oval f64 o) (b : oval bool o),
  relo (fun x b => b = true -> P x = true) o x b -> anybo o b = true ->
  if_exists (fun t r => Exists (fun v => P v = true) (elems t r)) o x.
Proof.
  intros P [t|] x b H E; cbn in *; [|exact I]. eapply rel_Forall; [exact H|]. apply anyb_Exists, E.
Qed.
Lemma keep_add : forall P, spoils P -> forall a b (x : val f64 a) (y : val f64 b),
  Exists (fun v => P v = true) (elems a x) \/ Exists (fun v => P v = true) (elems b y) ->
  if_exists (fun t r => Exists (fun v => P v = true) (elems t r)) (addTy a b) (add a b x y).
Proof.
  intros P SP a b x y [H|H]; (eapply rel_Forallo; [apply (add_rel (taint_rel P SP))|]).
  - apply pat_rel.
  - apply clean_rel.
  - apply add_taint_l, keep_rel; auto.
  - apply clean_rel.
  - apply pat_rel.
  - apply add_taint_r, keep_rel; auto.
Qed.
Lemma keep_sub : forall P, spoils P -> forall a b (x : val f64 a) (y : val f64 b),
  Exists (fun v => P v = true) (elems a x) \/ Exists (fun v => P v = true) (elems b y) ->
  if_exists (fun t r => Exists (fun v => P v = true) (elems t r)) (subTy a b) (sub a b x y).
Proof.
  intros P SP a b x y [H|H]; (eapply rel_Forallo; [apply (sub_rel (taint_rel P SP))|]).
  - apply pat_rel.
  - apply clean_rel.
  - apply sub_taint_l, keep_rel; auto.
  - apply clean_rel.
  - apply pat_rel.
  - apply sub_taint_r, keep_rel; auto.
Qed.
Lemma magSq_taint : forall t (x : val bool t), anyb t x = true -> magSq t x = true.
Proof. intros t x; destruct t; bools. Qed.
Lemma keep_magSq : forall P, spoils P -> forall t (x : val f64 t),
  Exists (fun v => P v = true) (elems t x) -> P (magSq t x) = true.
Proof.
  intros P SP t x H. apply (magSq_rel (taint_rel P SP) t x _ (pat_rel P t x)).
  apply magSq_taint, keep_rel; auto.
Qed.
