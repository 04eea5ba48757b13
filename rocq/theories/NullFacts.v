(** * NaN arguments of the functions on binary64: proofs. *)

Require Import Reals ZArith List Bool Lra.
From Flocq Require Import Core BinarySingleNaN.
Require Import Verif.Num Verif.Types Verif.Priv Verif.OpsUni Verif.OpsAdd Verif.OpsSub
  Verif.OpsMul Verif.Const Verif.Validity Verif.Compare Verif.Func Verif.Rel Verif.B64
  Verif.B64Facts Verif.Taint Verif.SpecCl Verif.SpecValid Verif.ValidFacts.
Import ListNotations.

Lemma bltb_nan_l : forall x y : f64, is_nan x = true -> Bltb x y = false.
Proof. intros x y H. apply nan_iff in H. subst. reflexivity. Qed.
Lemma bltb_nan_r : forall x y : f64, is_nan y = true -> Bltb x y = false.
Proof. intros x y H. apply nan_iff in H. subst. destruct x as [[]|[]| |[] m e H]; reflexivity. Qed.

Lemma bsqrt_nan : forall x : f64, is_nan x = true -> is_nan (Bsqrt mode_NE x) = true.
Proof. intros x H. apply nan_iff in H. subst. reflexivity. Qed.

Lemma magnitude_nan : forall t (x : val f64 t), has_nan t x -> is_nan (magnitude t x) = true.
Proof. intros t x H. apply bsqrt_nan. apply (keep_magSq is_nan spoils_nan). exact H. Qed.

Lemma pair_nan : forall t (x : val f64 t), has_nan t x -> snd (pairMagDirFrom t x) = null t.
Proof.
  intros t x H. unfold pairMagDirFrom. cbv zeta. cbn [snd].
  change (nltb lim_denorm_min (magnitude t x)) with (Bltb (lim_denorm_min : f64) (magnitude t x)).
  rewrite bltb_nan_r by (apply magnitude_nan, H). reflexivity.
Qed.
Lemma direction_nan : forall t (x : val f64 t), has_nan t x -> isValid t (direction t x) = false.
Proof. intros t x H. unfold direction. rewrite pair_nan by exact H. apply null_uni. Qed.

(** Scaling by NaN. *)
Definition full (t : ty) : val bool t := mapv (fun _ => true) t (clean t).
Lemma scale_full : forall P, spoils P -> forall t (r : f64) (x : val f64 t), P r = true ->
  Forall (fun v => P v = true) (elems t (scale t r x)).
Proof.
  intros P SP t r x Hr.
  assert (A : relv (fun x b => b = true -> P x = true) t (scale t r x) (scale t true (clean t))).
  { apply (scale_rel (taint_rel P SP)); [intros _; exact Hr|apply clean_rel]. }
  assert (B : Forall (fun v => v = true) (elems t (scale t true (clean t)))).
  { destruct t; repeat constructor. }
  unfold relv in A. revert B. induction A as [|v w l l' Hv Hl IH]; intros B; constructor.
  - apply Hv. inversion B; auto.
  - apply IH. inversion B; auto.
Qed.
Lemma full_invalid : forall t (x : val f64 t), Forall (fun v => nonfin v = true) (elems t x) -> isValid t x = false.
Proof.
  intros t x H. eapply (first_invalid t x (full t)).
  - unfold relv. assert (E : length (elems t x) = length (elems t (full t))) by (destruct t; dvs; reflexivity).
    revert E. generalize (elems t (full t)). induction H as [|v l Hv Hl IH]; intros [|w l'] E; try discriminate E.
    + constructor.
    + constructor; [intros _; exact Hv|apply IH; cbn in E; congruence].
  - destruct t; reflexivity.
Qed.
Lemma scale_nan_invalid : forall t (r : f64) (x : val f64 t), is_nan r = true -> isValid t (scale t r x) = false.
Proof.
  intros t r x H. apply full_invalid, (scale_full nonfin spoils_nonfin).
  apply nonfin_true, nan_nonfin, H.
Qed.

Lemma inv_blade_nan : forall t (x : val f64 t) (d : val f64 t), has_nan t x ->
  isValid t (scale t (none_ / magSq t x)%num d) = false.
Proof.
  intros t x d H. apply scale_nan_invalid. apply bdiv_nan_r. apply (keep_magSq is_nan spoils_nan), H.
Qed.
Lemma inverse_Sca_nan : forall x : Scalar f64, has_nan TSca x -> isValid TSca (inverse_Sca x) = false.
Proof. intros x H. exact (inv_blade_nan TSca x (reverse_Sca x) H). Qed.
Lemma inverse_Vec_nan : forall x : Vector f64, has_nan TVec x -> isValid TVec (inverse_Vec x) = false.
Proof. intros x H. exact (inv_blade_nan TVec x (reverse_Vec x) H). Qed.
Lemma inverse_Biv_nan : forall x : BiVector f64, has_nan TBiv x -> isValid TBiv (inverse_Biv x) = false.
Proof. intros x H. exact (inv_blade_nan TBiv x (reverse_Biv x) H). Qed.
Lemma inverse_Tri_nan : forall x : TriVector f64, has_nan TTri x -> isValid TTri (inverse_Tri x) = false.
Proof. intros x H. exact (inv_blade_nan TTri x (reverse_Tri x) H). Qed.

Section L.
Context {L : Libm f64}.

Lemma inverse_Cplx_shape : cmul_keeps_nan L -> forall x : ComPlex f64, has_nan TCplx x ->
  fin (sca_0 (cplxSca (inverse_Cplx x))) = false \/ fin (tri_0 (cplxTri (inverse_Cplx x))) = false.
Proof.
  intros HL x H. unfold inverse_Cplx. cbv zeta.
  destruct (nltb _ _); [|left; reflexivity].
  cbn [cplxSca cplxTri sca_0 tri_0 Sca Tri scaData triData at0].
  apply HL. unfold std_conj. cbn [fst snd].
  unfold has_nan in H. dvs. cbn in H |- *. rewrite is_nan_Bopp.
  inversion H as [? ? A|? ? A]; subst; [left; exact A|]. inversion A as [? ? A'|? ? A']; subst; [right; exact A'|].
  inversion A'.
Qed.
Lemma inverse_Cplx_nan : cmul_keeps_nan L -> forall x : ComPlex f64, has_nan TCplx x ->
  isValid TCplx (inverse_Cplx x) = false.
Proof.
  intros HL x H. destruct (inverse_Cplx_shape HL x H) as [E|E].
  - cbn [isValid]. unfold isValid_Cplx, isValid_Sca. rewrite isValid_nonfin by exact E. reflexivity.
  - cbn [isValid]. unfold isValid_Cplx, isValid_Tri. rewrite (isValid_nonfin (tri_0 _)) by exact E.
    apply andb_false_r.
Qed.

(** The scalar part of ampSq(MultiVector) depends on all components. *)
Definition ampsca {F} `{Ring0 F} (mv : MultiVector F) : F :=
  nadd (nsub (nsub (magSq_Sca (mvSca mv)) (magSq_Vec (mvVec mv))) (nopp (magSq_Biv (mvBiv mv))))
       (nopp (magSq_Tri (mvTri mv))).
Lemma ampsca_eq : forall mv : MultiVector f64, sca_0 (cplxSca (ampSq_Mvec mv)) = ampsca mv.
Proof. reflexivity. Qed.
Lemma ampsca_rel : forall P (SP : spoils P) (x : MultiVector f64) (b : MultiVector bool),
  relv (fun x b => b = true -> P x = true) TMvec x b -> ampsca b = true -> P (ampsca x) = true.
Proof.
  intros P SP x b H. pose proof (taint_rel P SP) as HR. unfold relv in H. unfold ampsca.
  pose proof (magSq_rel HR) as M.
  assert (E : relv (fun x b => b = true -> P x = true) TSca (mvSca x) (mvSca b) /\
              relv (fun x b => b = true -> P x = true) TVec (mvVec x) (mvVec b) /\
              relv (fun x b => b = true -> P x = true) TBiv (mvBiv x) (mvBiv b) /\
              relv (fun x b => b = true -> P x = true) TTri (mvTri x) (mvTri b)).
  { unfold relv. dvs. cbn in H |- *. unfold arr1_list, arr3_list in *. cbn in H |- *. inv2. repeat split; repeat (apply Forall2_cons; [assumption|]); apply Forall2_nil. }
  destruct E as (E1 & E2 & E3 & E4).
  exact (rr_add _ _ _ HR _ _ _ _ (rr_sub _ _ _ HR _ _ _ _ (rr_sub _ _ _ HR _ _ _ _ (M _ _ _ E1) (M _ _ _ E2))
    (rr_opp _ _ _ HR _ _ (M _ _ _ E3))) (rr_opp _ _ _ HR _ _ (M _ _ _ E4))).
Qed.
Lemma ampsca_taint : forall b : MultiVector bool, anyb TMvec b = true -> ampsca b = true.
Proof. intros b; bools. Qed.

Lemma inverse_Mvec_nan : cmul_keeps_nan L -> forall x : MultiVector f64, has_nan TMvec x ->
  isValid TMvec (inverse_Mvec x) = false.
Proof.
  intros HL x H.
  assert (A : has_nan TCplx (ampSq_Mvec x)).
  { unfold has_nan. assert (is_nan (sca_0 (cplxSca (ampSq_Mvec x))) = true).
    { rewrite ampsca_eq. apply (ampsca_rel is_nan spoils_nan x (pat is_nan TMvec x)); [apply pat_rel|].
      apply ampsca_taint, keep_rel; [apply spoils_nan|exact H]. }
    destruct (ampSq_Mvec x) as [s t]; dvs. left. assumption. }
  pose proof (inverse_Cplx_shape HL _ A) as S. unfold inverse_Mvec. cbv zeta.
  set (c := inverse_Cplx (ampSq_Mvec x)) in *. clearbody c. clear A H.
  pose proof (taint_rel nonfin spoils_nonfin) as HR.
  set (d := dirverse_Mvec x). clearbody d.
  change (isValid TMvec (add TMvec TMvec (mul TSca TMvec (cplxSca c) d) (mul TTri TMvec (cplxTri c) d)) = false).
  destruct S as [S|S]; apply nonfin_true in S.
  - apply (first_invalid TMvec) with (b := add TMvec TMvec (mul TSca TMvec (Sca true) (clean TMvec)) (mul TTri TMvec (clean TTri) (clean TMvec)));
      [|reflexivity].
    apply (add_rel HR TMvec TMvec); [apply (mul_rel HR TSca TMvec)|apply (mul_rel HR TTri TMvec)].
    + unfold relv. destruct c as [s t]; dvs. cbn in S |- *. apply Forall2_cons; [intros _; exact S|apply Forall2_nil].
    + apply clean_rel.
    + apply clean_rel.
    + apply clean_rel.
  - apply (first_invalid TMvec) with (b := add TMvec TMvec (mul TSca TMvec (clean TSca) (clean TMvec)) (mul TTri TMvec (Tri true) (clean TMvec)));
      [|reflexivity].
    apply (add_rel HR TMvec TMvec); [apply (mul_rel HR TSca TMvec)|apply (mul_rel HR TTri TMvec)].
    + apply clean_rel.
    + apply clean_rel.
    + unfold relv. destruct c as [s t]; dvs. cbn in S |- *. apply Forall2_cons; [intros _; exact S|apply Forall2_nil].
    + apply clean_rel.
Qed.

(** ** exp *)
Lemma exp_Biv_first : forall b : BiVector f64, is_nan (biv_0 b) = true -> exp_Biv b = null TSpin.
Proof.
  intros b H. unfold exp_Biv. unfold isValid_Biv. rewrite isValid_nan by exact H. reflexivity.
Qed.
Lemma exp_Biv_hidden : forall x y z : f64, valid_number x -> is_nan y = true \/ is_nan z = true ->
  exp_Biv (Biv x y z) = one TSpin.
Proof.
  intros x y z Hx H. unfold exp_Biv.
  assert (V : isValid_Biv (Biv x y z) = true) by (apply (proj2 (isValid_number x)); exact Hx).
  rewrite V. cbv zeta. rewrite pair_nan; [reflexivity|].
  unfold has_nan. cbn. destruct H as [H|H]; [right; left|right; right; left]; exact H.
Qed.
Lemma exp_Spin_sca : exp_keeps_nan L -> forall s : Spinor f64, is_nan (sca_0 (spinSca s)) = true ->
  isValid TSpin (exp_Spin s) = false.
Proof.
  intros HL s H. unfold exp_Spin. apply (scale_nan_invalid TSpin). apply HL, H.
Qed.
Lemma scale_null_spin : forall r : f64, isValid TSpin (mul_Dub_Spin r (null_Spin : Spinor f64)) = false.
Proof. intros r. exact (null_mul_r TDub TSpin r). Qed.
Lemma exp_Spin_biv : forall s : Spinor f64, is_nan (biv_0 (spinBiv s)) = true ->
  isValid TSpin (exp_Spin s) = false.
Proof.
  intros s H. unfold exp_Spin. rewrite exp_Biv_first by exact H. apply scale_null_spin.
Qed.

(** ** logG2 and sqrtG2 *)
Lemma logG2_nan : forall (s : Spinor f64) d, has_nan TSpin s -> logG2 s d = null TSpin.
Proof.
  intros s d H. unfold logG2. destruct (isValid_Spin s); [|reflexivity]. cbv zeta.
  change (nltb lim_epsilon (magnitude TSpin s)) with (Bltb (lim_epsilon : f64) (magnitude TSpin s)).
  rewrite bltb_nan_r by (apply magnitude_nan; exact H). reflexivity.
Qed.
Lemma sqrtG2_nan : forall (s : Spinor f64) d, has_nan TSpin s -> isValid TSpin (sqrtG2 s d) = false.
Proof.
  intros s d H. unfold sqrtG2. destruct (isValid_Spin s); [|apply (null_uni TSpin)]. cbv zeta.
  match goal with |- context [nltb ?m ?t] => change (nltb m t) with (Bltb m t) end.
  rewrite bltb_nan_l by (apply magnitude_nan; exact H).
  rewrite logG2_nan by exact H. apply exp_Spin_biv. reflexivity.
Qed.
(** The reference plane is used for a spinor of opposite direction only. *)
Lemma direction_null_biv : forall d : BiVector f64, has_nan TBiv d -> direction TBiv d = null_Biv.
Proof. intros d H. unfold direction. exact (pair_nan TBiv d H). Qed.

(** ** exp(MultiVector) *)
Lemma exp_Mvec_checked : forall m : MultiVector f64, isValid TMvec m = false -> exp_Mvec m = null TMvec.
Proof. intros m H. unfold exp_Mvec, exp_Mvec_io. cbn [isValid] in H. rewrite H. reflexivity. Qed.

Definition apos2 {F} `{Ring0 F} (m : MultiVector F) : F :=
  let a1 := vec_0 (mvVec m) in
  let a2 := vec_1 (mvVec m) in
  let a3 := vec_2 (mvVec m) in
  let a12 := biv_2 (mvBiv m) in
  let a13 := nopp (biv_1 (mvBiv m)) in
  let a23 := biv_0 (mvBiv m) in
  nadd (nadd (sq_Dub (nsub a3 a12)) (sq_Dub (nadd a2 a13))) (sq_Dub (nsub a1 a23)).
Lemma apos2_nan : forall m : MultiVector f64,
  has_nan TVec (mvVec m) \/ has_nan TBiv (mvBiv m) -> is_nan (apos2 m) = true.
Proof.
  intros m H. pose proof spoils_nan as S. unfold has_nan in H. dvs.
  unfold apos2, sq_Dub. cbn -[nadd nsub nmul nopp] in *.
  repeat match goal with H : _ \/ _ |- _ => destruct H as [H|H] | H : Exists _ _ |- _ => inversion H; clear H; subst end;
  let rec go := first [assumption
    | apply (sp_add_l _ S); go | apply (sp_add_r _ S); go | apply (sp_sub_l _ S); go
    | apply (sp_sub_r _ S); go | apply (sp_mul_l _ S); go | apply (sp_opp _ S); go ] in go.
Qed.
Lemma mv8_nan : forall h b0 b1 b2 b3 b4 b5 b6 b7 : f64, is_nan b0 = true ->
  isValid TMvec (mul_Dub_Mvec h (mv_of_8 b0 b1 b2 b3 b4 b5 b6 b7)) = false.
Proof.
  intros h b0 b1 b2 b3 b4 b5 b6 b7 B. rewrite first_ok. cbn [forallb map first_of_grade].
  apply andb_false_iff. left. apply isValid_nan. exact (sp_mul_r _ spoils_nan h b0 B).
Qed.
Lemma exp_Mvec_nan : cos_keeps_nan L -> forall m : MultiVector f64, has_nan TMvec m ->
  isValid TMvec (exp_Mvec m) = false.
Proof.
  intros HL m H. destruct (isValid TMvec m) eqn:V;
    [|rewrite exp_Mvec_checked by exact V; apply (null_uni TMvec)].
  assert (A : is_nan (apos2 m) = true).
  { apply apos2_nan. rewrite first_ok in V. cbn [forallb map first_of_grade] in V.
    rewrite !andb_true_iff in V. destruct V as (V0 & V1 & V2 & V3 & _).
    unfold has_nan in *. dvs. cbn in H |- *. cbn -[isValid_Dub] in V0, V1, V2, V3.
    repeat match goal with H : Exists _ _ |- _ => inversion H; clear H; subst end;
      try (match goal with H : is_nan ?x = true, K : isValid_Dub ?x = true |- _ =>
        rewrite (isValid_nan x H) in K; discriminate K end);
      first [left; left; assumption | left; right; left; assumption | left; right; right; left; assumption
           | right; left; assumption | right; right; left; assumption | right; right; right; left; assumption]. }
  pose proof spoils_nan as S.
  unfold exp_Mvec, exp_Mvec_io. cbn [isValid] in V. rewrite V. cbv zeta. cbn [snd].
  apply mv8_nan. apply (sp_add_l _ S), (sp_mul_r _ S), HL, bsqrt_nan. exact A.
Qed.
End L.

(** ** Comparisons *)
Lemma isValid_arr_false : forall l : list f64, Exists (fun v => isValid_Dub v = false) l -> isValid_arr l = false.
Proof.
  intros [|x l] H; [reflexivity|]. unfold isValid_arr.
  assert (A : forall (l : list f64) b, b = false \/ Exists (fun v => isValid_Dub v = false) l ->
    fold_left (fun okay y => okay && isValid_Dub y) l b = false).
  { clear. induction l as [|y l IH]; intros b [Hb|Hb]; cbn; auto.
    - inversion Hb.
    - apply IH. left. subst; reflexivity.
    - inversion Hb; subst; apply IH; [left; rewrite H0; apply andb_false_r|right; assumption]. }
  apply A. inversion H; subst; auto.
Qed.
Lemma isValid_arr_true : forall l : list f64, l <> [] -> Forall (fun v => isValid_Dub v = true) l -> isValid_arr l = true.
Proof.
  intros [|x l] N H; [congruence|]. unfold isValid_arr. inversion H; subst. rewrite H2.
  clear -H3. induction H3 as [|y l Hy Hl IH]; [reflexivity|]. cbn. rewrite Hy. exact IH.
Qed.
