(** * Validity, null objects and NaN: final forms (proofs only). *)

Require Import Reals ZArith List Bool Lra.
From Flocq Require Import Core BinarySingleNaN.
Require Import Verif.Num Verif.Types Verif.Priv Verif.OpsUni Verif.OpsAdd Verif.OpsSub
  Verif.OpsMul Verif.Const Verif.Validity Verif.Compare Verif.Func Verif.Rel Verif.B64
  Verif.B64Facts Verif.SpecCl Verif.SpecValid Verif.Taint Verif.ValidFacts Verif.NullFacts
  Verif.CompareFacts Verif.ArrFacts.
Import ListNotations.

Lemma zero_one_valid : forall t,
  isValid t (zero t : val f64 t) = true /\ isValid t (one t : val f64 t) = true.
Proof. intros t; destruct t; split; vm_compute; reflexivity. Qed.
Lemma basis_valid :
  isValid TSca (c_e0 : Scalar f64) = true /\
  isValid TVec (c_e1 : Vector f64) = true /\ isValid TVec (c_e2 : Vector f64) = true /\
  isValid TVec (c_e3 : Vector f64) = true /\
  isValid TBiv (c_e23 : BiVector f64) = true /\ isValid TBiv (c_e31 : BiVector f64) = true /\
  isValid TBiv (c_e12 : BiVector f64) = true /\ isValid TTri (c_e123 : TriVector f64) = true.
Proof. repeat split; vm_compute; reflexivity. Qed.

Lemma null_all_nan : forall t, t <> TMvec -> all_nan t (null t : val f64 t).
Proof. intros t H; destruct t; try (now elim H); repeat constructor. Qed.
Lemma null_Mvec_elems : elems TMvec (null TMvec : MultiVector f64) =
  (B754_nan : f64) :: repeat (B754_zero false : f64) 7.
Proof. reflexivity. Qed.
Lemma null_all_nan_refuted : ~ (forall t, all_nan t (null t : val f64 t)).
Proof.
  intros H. specialize (H TMvec). unfold all_nan in H. inversion H as [|? ? _ H1]; subst.
  inversion H1 as [|? ? H2 _]; subst. discriminate H2.
Qed.
Lemma null_not_valid : forall t, ~ all_valid t (null t : val f64 t).
Proof.
  intros t H. apply all_valid_isValid in H. rewrite (proj1 (null_uni t)) in H. discriminate.
Qed.
Lemma null_never_near : forall t (y : val f64 t) tol,
  nearlyEquals t (null t) y tol = false /\ nearlyEquals t y (null t) tol = false.
Proof. intros t y tol. split; apply nearly_invalid; [left|right]; apply null_not_valid. Qed.
Lemma null_elems_nan : forall t, exists l, elems t (null t : val f64 t) = (B754_nan : f64) :: l.
Proof. intros t; destruct t; eexists; reflexivity. Qed.
Lemma null_never_equal : forall t f (y : val f64 t), eqeq t = Some f ->
  f (null t) y = false /\ f y (null t) = false.
Proof.
  intros t f y E. rewrite !(eqeq_elems t f) by exact E.
  destruct (null_elems_nan t) as [l Hl]. rewrite Hl.
  split; [destruct (elems t y); reflexivity|].
  destruct (elems t y) as [|v m]; [reflexivity|]. cbn [all2].
  replace (neqb v (B754_nan : f64)) with false; [reflexivity|]. destruct v as [[]|[]| |[] ? ? ?]; reflexivity.
Qed.

Lemma isValid_first : forall t (x : val f64 t),
  isValid t x = true <->
  Forall (fun i => valid_number (nth i (elems t x) B754_nan)) (first_of_grade t).
Proof.
  intros t x. rewrite first_ok, forallb_forall, Forall_forall. split.
  - intros H i Hi. apply isValid_number, H. apply (in_map (fun i => nth i (elems t x) (B754_nan : f64))), Hi.
  - intros H v Hv. apply in_map_iff in Hv. destruct Hv as (i & <- & Hi). apply isValid_number, H, Hi.
Qed.
Lemma isValid_refuted : ~ (forall t (x : val f64 t), isValid t x = true <-> all_valid t x).
Proof.
  intros H. specialize (H TVec (Vec (B754_zero false : f64) B754_nan (B754_zero false))).
  assert (E : all_valid TVec (Vec (B754_zero false : f64) B754_nan (B754_zero false))) by (apply H; reflexivity).
  unfold all_valid in E. inversion E as [|? ? _ E1]; subst. inversion E1 as [|? ? [E2 _] _]; subst. discriminate E2.
Qed.

Lemma null_has_nan : forall t, has_nan t (null t : val f64 t).
Proof. intros t; destruct t; left; reflexivity. Qed.
Lemma null_inverse :
  isValid TSca (inverse_Sca (null_Sca : Scalar f64)) = false /\
  isValid TVec (inverse_Vec (null_Vec : Vector f64)) = false /\
  isValid TBiv (inverse_Biv (null_Biv : BiVector f64)) = false /\
  isValid TTri (inverse_Tri (null_Tri : TriVector f64)) = false /\
  (forall L : Libm f64, cmul_keeps_nan L ->
     isValid TCplx (inverse_Cplx (null_Cplx : ComPlex f64)) = false /\
     isValid TMvec (inverse_Mvec (null_Mvec : MultiVector f64)) = false).
Proof.
  split; [apply inverse_Sca_nan, (null_has_nan TSca)|].
  split; [apply inverse_Vec_nan, (null_has_nan TVec)|].
  split; [apply inverse_Biv_nan, (null_has_nan TBiv)|].
  split; [apply inverse_Tri_nan, (null_has_nan TTri)|].
  intros L HL. split; [apply inverse_Cplx_nan, (null_has_nan TCplx); exact HL|apply inverse_Mvec_nan, (null_has_nan TMvec); exact HL].
Qed.
Lemma inverse_nan :
  (forall x : Scalar f64, has_nan TSca x -> isValid TSca (inverse_Sca x) = false) /\
  (forall x : Vector f64, has_nan TVec x -> isValid TVec (inverse_Vec x) = false) /\
  (forall x : BiVector f64, has_nan TBiv x -> isValid TBiv (inverse_Biv x) = false) /\
  (forall x : TriVector f64, has_nan TTri x -> isValid TTri (inverse_Tri x) = false) /\
  (forall L : Libm f64, cmul_keeps_nan L ->
     (forall x : ComPlex f64, has_nan TCplx x -> isValid TCplx (inverse_Cplx x) = false) /\
     (forall x : MultiVector f64, has_nan TMvec x -> isValid TMvec (inverse_Mvec x) = false)).
Proof.
  split; [exact inverse_Sca_nan|]. split; [exact inverse_Vec_nan|]. split; [exact inverse_Biv_nan|].
  split; [exact inverse_Tri_nan|]. intros L HL. split; [exact (inverse_Cplx_nan HL)|exact (inverse_Mvec_nan HL)].
Qed.

Lemma nan_kept : forall a b (x : val f64 a) (y : val f64 b),
  has_nan a x \/ has_nan b y ->
  has_nan (mulTy a b) (mul a b x y) /\
  if_exists has_nan (addTy a b) (add a b x y) /\
  if_exists has_nan (subTy a b) (sub a b x y).
Proof.
  intros a b x y H. split; [apply (keep_mul is_nan spoils_nan), H|].
  split; [apply (keep_add is_nan spoils_nan), H|apply (keep_sub is_nan spoils_nan), H].
Qed.
Lemma nonfin_ex : forall l : list f64,
  Exists (fun v => nonfin v = true) l <-> Exists (fun v => is_finite v = false) l.
Proof. intros l. rewrite !Exists_exists. split; intros (v & A & B); exists v; split; auto; apply nonfin_true; auto. Qed.
Lemma nonfin_exo : forall o (x : oval f64 o),
  if_exists (fun t r => Exists (fun v => nonfin v = true) (elems t r)) o x -> if_exists has_nonfinite o x.
Proof. intros [t|] x; cbn; auto. apply nonfin_ex. Qed.
Lemma nonfinite_kept : forall a b (x : val f64 a) (y : val f64 b),
  has_nonfinite a x \/ has_nonfinite b y ->
  has_nonfinite (mulTy a b) (mul a b x y) /\
  if_exists has_nonfinite (addTy a b) (add a b x y) /\
  if_exists has_nonfinite (subTy a b) (sub a b x y).
Proof.
  intros a b x y H. unfold has_nonfinite in H. rewrite <- !nonfin_ex in H.
  split; [apply nonfin_ex, (keep_mul nonfin spoils_nonfin), H|].
  split; apply nonfin_exo; [apply (keep_add nonfin spoils_nonfin), H|apply (keep_sub nonfin spoils_nonfin), H].
Qed.

Lemma zero_valid_number : valid_number (B754_zero false : f64).
Proof. split; [reflexivity|left; reflexivity]. Qed.
(** A library returning NaN everywhere. *)
Definition nanlib : Libm f64 := {|
  mcos := fun _ => B754_nan; msin := fun _ => B754_nan; mexp := fun _ => B754_nan;
  mlog := fun _ => B754_nan; matan2 := fun _ _ => B754_nan; mcabs := fun _ => B754_nan;
  mcmul := fun _ _ => (B754_nan, B754_nan); mcdiv := fun _ _ => (B754_nan, B754_nan);
  mcsqrt := fun _ => (B754_nan, B754_nan) |}.
Lemma exp_Biv_refuted :
  ~ (forall (L : Libm f64) (b : BiVector f64), has_nan TBiv b -> isValid TSpin (exp_Biv b) = false).
Proof.
  intros H. specialize (H nanlib (Biv (B754_zero false : f64) B754_nan (B754_zero false))).
  rewrite exp_Biv_hidden in H; [|apply zero_valid_number|left; reflexivity].
  rewrite (proj2 (zero_one_valid TSpin)) in H. discriminate H. right; left; reflexivity.
Qed.
Lemma exp_Spin_nan : forall L : Libm f64, exp_keeps_nan L -> forall s : Spinor f64,
  is_nan (sca_0 (spinSca s)) = true \/ is_nan (biv_0 (spinBiv s)) = true ->
  isValid TSpin (exp_Spin s) = false.
Proof. intros L HL s [H|H]; [apply exp_Spin_sca|apply exp_Spin_biv]; auto. Qed.
Lemma logG2_invalid : forall (L : Libm f64) (s : Spinor f64) plane, has_nan TSpin s ->
  isValid TSpin (logG2 s plane) = false.
Proof. intros L s plane H. rewrite logG2_nan by exact H. apply (null_uni TSpin). Qed.
(** The same with operations keeping NaN on real arguments: products of
    complex numbers by the textbook formula. *)
Definition textlib : Libm f64 := {|
  mcos := fun x => x; msin := fun x => x; mexp := fun x => nadd none_ x;
  mlog := fun x => nsub x none_; matan2 := fun y _ => y; mcabs := fun z => nabs (fst z);
  mcmul := fun z w => (nsub (nmul (fst z) (fst w)) (nmul (snd z) (snd w)),
                       nadd (nmul (fst z) (snd w)) (nmul (snd z) (fst w)));
  mcdiv := fun z w => (ndiv (fst z) (fst w), nzero); mcsqrt := fun z => (nsqrt (fst z), nzero) |}.
Lemma some_library : exists L : Libm f64, cmul_keeps_nan L /\ exp_keeps_nan L /\ cos_keeps_nan L.
Proof.
  exists textlib. pose proof spoils_nan as S. repeat split.
  - intros z w [H|H]; left; apply nan_nonfin; [apply (sp_sub_l _ S), (sp_mul_l _ S), H|apply (sp_sub_r _ S), (sp_mul_l _ S), H].
  - intros x H. apply (sp_add_r _ S), H.
  - intros x H. exact H.
Qed.
Lemma one_valid : valid_number (f64_lit 1 0).
Proof. apply isValid_number. vm_compute. reflexivity. Qed.
Lemma hidden_example : forall L : Libm f64,
  exp_Biv (Biv (f64_lit 1 0) B754_nan (B754_zero false)) = one TSpin /\
  isValid TVec (direction TVec (Vec (f64_lit 1 0) B754_nan (f64_lit 2 0))) = false.
Proof.
  intros L. split; [apply (exp_Biv_hidden (f64_lit 1 0)); [apply one_valid|left; reflexivity]|].
  apply direction_nan. right; left; reflexivity.
Qed.

Lemma inverse_zero_nan : forall s1 s2 s3 : bool,
  all_nan TSca (inverse_Sca (Sca (B754_zero s1 : f64))) /\
  all_nan TVec (inverse_Vec (Vec (B754_zero s1 : f64) (B754_zero s2) (B754_zero s3))) /\
  all_nan TBiv (inverse_Biv (Biv (B754_zero s1 : f64) (B754_zero s2) (B754_zero s3))) /\
  all_nan TTri (inverse_Tri (Tri (B754_zero s1 : f64))).
Proof. intros [] [] []; unfold all_nan; repeat split; repeat constructor. Qed.

Lemma vec_eq : forall a b c a' b' c' : f64, B2SF a = B2SF a' -> B2SF b = B2SF b' -> B2SF c = B2SF c' ->
  Vec a b c = Vec a' b' c'.
Proof. intros a b c a' b' c' A B C. apply B2SF_inj in A, B, C. subst. reflexivity. Qed.
Lemma vec_eta : forall v : Vector f64, v = Vec (vec_0 v) (vec_1 v) (vec_2 v).
Proof. intros [[? ? ?]]; reflexivity. Qed.
Lemma direction_extremes :
  direction TVec (Vec (f64_lit 1 600) (B754_zero false) (B754_zero false))
    = Vec (B754_zero false) (B754_zero false) (B754_zero false) /\
  direction TVec (Vec (f64_lit 1 (-600)) (B754_zero false) (B754_zero false)) = null TVec.
Proof.
  split.
  - rewrite (vec_eta (direction TVec _)). apply vec_eq; vm_compute; reflexivity.
  - rewrite (vec_eta (direction TVec _)). apply vec_eq; vm_compute; reflexivity.
Qed.
