(** * Client expressions of any size: proofs. *)

Require Import Reals ZArith List Bool Lra Lia.
From Flocq Require Import Core BinarySingleNaN.
Require Import Verif.Num Verif.Types Verif.Priv Verif.OpsUni Verif.OpsAdd Verif.OpsSub
  Verif.OpsMul Verif.Const Verif.Func Verif.SpecCl Verif.RealInst Verif.AlgTac Verif.AlgMul Verif.AlgFacts Verif.AlgThm Verif.SpecFunc Verif.FuncFacts Verif.Rel
  Verif.B64 Verif.B64Facts Verif.Taint Verif.SpecValid Verif.ValidFacts Verif.ValidThm Verif.SpecRound Verif.ArrErr Verif.IntFacts Verif.ErrFacts Verif.RoundThm Verif.BoundFacts Verif.AccFacts Verif.NormFacts
  Verif.SpecSame Verif.SameFacts Verif.SpecMirror Verif.MirrorFacts Verif.MirrorThm Verif.SpecAcc Verif.BoundFacts Verif.SpecProg.
Import ListNotations.
Local Open Scope R_scope.

(** ** Induction along an evaluation *)
Section Induction.
Context {F : Type} {RF : Ring0 F}.
Variable Inv : prog F -> forall t, val F t -> Prop.
Hypothesis leaf : forall t x, Inv (PLeaf t x) t x.
Hypothesis unary : forall u p t x, typ p = Some t -> Inv p t x -> Inv (PUni u p) (uniTy u t) (uni u t x).
Hypothesis product : forall p q a b x y, typ p = Some a -> typ q = Some b -> Inv p a x -> Inv q b y -> Inv (PMul p q) (mulTy a b) (mul a b x y).
Hypothesis sum : forall p q a b x y, typ p = Some a -> typ q = Some b -> Inv p a x -> Inv q b y ->
  if_exists (Inv (PAdd p q)) (addTy a b) (add a b x y).
Hypothesis difference : forall p q a b x y, typ p = Some a -> typ q = Some b -> Inv p a x -> Inv q b y ->
  if_exists (Inv (PSub p q)) (subTy a b) (sub a b x y).
Lemma some_val_inv : forall o (x : oval F o) v (Q : forall t, val F t -> Prop), some_val o x = Some v -> if_exists Q o x ->
  o = Some (projT1 v) /\ Q (projT1 v) (projT2 v).
Proof. intros [t|] x v Q H; [|discriminate H]. injection H as <-. cbn. auto. Qed.
Lemma eval_ind : forall p v, eval p = Some v -> typ p = Some (projT1 v) /\ Inv p (projT1 v) (projT2 v).
Proof.
  induction p as [t x|u p IH|p IHp q IHq|p IHp q IHq|p IHp q IHq]; intros v H; cbn [eval] in H.
  - injection H as <-. split; [reflexivity|apply leaf].
  - destruct (eval p) as [x|]; [|discriminate H]. injection H as <-. destruct (IH x eq_refl) as [T Ix]. cbn [typ projT1 projT2].
    rewrite T. split; [reflexivity|]. apply unary; auto.
  - destruct (eval p) as [x|], (eval q) as [y|]; try discriminate H. cbn [bind2] in H. injection H as <-.
    destruct (IHp x eq_refl) as [T1 I1], (IHq y eq_refl) as [T2 I2]. cbn [typ projT1 projT2]. rewrite T1, T2. split; [reflexivity|]. apply product; auto.
  - destruct (eval p) as [x|], (eval q) as [y|]; try discriminate H. cbn [bind2] in H.
    destruct (IHp x eq_refl) as [T1 I1], (IHq y eq_refl) as [T2 I2]. cbn [typ]. rewrite T1, T2. cbn [bind2].
    exact (some_val_inv _ _ _ _ H (sum p q _ _ _ _ T1 T2 I1 I2)).
  - destruct (eval p) as [x|], (eval q) as [y|]; try discriminate H. cbn [bind2] in H.
    destruct (IHp x eq_refl) as [T1 I1], (IHq y eq_refl) as [T2 I2]. cbn [typ]. rewrite T1, T2. cbn [bind2].
    exact (some_val_inv _ _ _ _ H (difference p q _ _ _ _ T1 T2 I1 I2)).
Qed.
End Induction.
Lemma if_exists_mono : forall F (P Q : forall t, val F t -> Prop) o (x : oval F o),
  (forall t v, o = Some t -> P t v -> Q t v) -> if_exists P o x -> if_exists Q o x.
Proof. intros F P Q [t|] x H; cbn; auto. Qed.
Lemma if_exists_imp : forall F (K : Prop) (Q : forall t, val F t -> Prop) o (x : oval F o),
  (K -> if_exists Q o x) -> if_exists (fun t v => K -> Q t v) o x.
Proof. intros F K Q [t|] x H; cbn in *; auto. Qed.
(** An expression has a value exactly if it has a type. *)
Lemma some_val_ty : forall F o (x : oval F o), match some_val o x with Some v => o = Some (projT1 v) | None => o = None end.
Proof. intros F [t|] x; reflexivity. Qed.
Lemma eval_typ : forall F (RF : Ring0 F) (p : prog F), typ p = match eval p with Some v => Some (projT1 v) | None => None end.
Proof.
  intros F RF p. induction p as [t x|u p IH|p IHp q IHq|p IHp q IHq|p IHp q IHq]; cbn [eval typ].
  - reflexivity.
  - rewrite IH. destruct (eval p); reflexivity.
  - rewrite IHp, IHq. destruct (eval p), (eval q); reflexivity.
  - rewrite IHp, IHq. destruct (eval p) as [x|], (eval q) as [y|]; try reflexivity. cbn [bind2].
    pose proof (some_val_ty _ _ (add _ _ (projT2 x) (projT2 y))) as E. destruct (some_val _ _); exact E.
  - rewrite IHp, IHq. destruct (eval p) as [x|], (eval q) as [y|]; try reflexivity. cbn [bind2].
    pose proof (some_val_ty _ _ (sub _ _ (projT2 x) (projT2 y))) as E. destruct (some_val _ _); exact E.
Qed.
Lemma mapp_typ : forall F G (f : F -> G) p, typ (mapp f p) = typ p.
Proof. intros F G f p. induction p as [t x|u p IH|p IHp q IHq|p IHp q IHq|p IHp q IHq]; cbn [typ mapp]; rewrite ?IH, ?IHp, ?IHq; reflexivity. Qed.
Lemma mapp_sign : forall F G (f : F -> G) p, no_wrong_sign p -> no_wrong_sign (mapp f p).
Proof.
  intros F G f p. induction p as [t x|u p IH|p IHp q IHq|p IHp q IHq|p IHp q IHq]; cbn [no_wrong_sign mapp]; try tauto.
  intros (A & B & C). split; [auto|]. split; [auto|]. rewrite !mapp_typ. exact C.
Qed.

(** ** Exact arithmetic *)
Lemma cuni_ceq : forall u a b, ceq a b -> ceq (cuni u a) (cuni u b).
Proof.
  intros u a b H k. destruct u; cbn [cuni].
  - unfold copp. rewrite (H k). reflexivity.
  - unfold crev. rewrite (H k). reflexivity.
  - unfold codd. rewrite (H k). reflexivity.
  - unfold cdir. rewrite (H k). reflexivity.
  - apply gp_ceq; [intros ?; reflexivity|exact H].
  - apply H.
  - unfold cscale. rewrite (cnorm2_ceq a b H). reflexivity.
Qed.
Lemma uni_den : forall u t (x : val R t), ceq (den _ (uni u t x)) (cuni u (den t x)).
Proof.
  intros u t x. destruct u; cbn [uniTy uni cuni].
  - apply neg_den.
  - apply reverse_den.
  - apply oddverse_den.
  - apply dirverse_den.
  - apply dual_den.
  - apply to_mv_den.
  - rewrite magSq_den. intros k. set (c := cnorm2 (den t x)). dblade k; unfold cscale, cone, cbasis; cbn; ring.
Qed.
Lemma prog_exact : forall p v, no_wrong_sign p -> eval p = Some v -> ceq (den (projT1 v) (projT2 v)) (meaning p).
Proof.
  intros p v W E.
  refine (proj2 (eval_ind (fun p t x => no_wrong_sign p -> ceq (den t x) (meaning p)) _ _ _ _ _ p v E) W); clear; cbn [meaning no_wrong_sign].
  - intros t x _. apply ceq_refl.
  - intros u p t x _ H W. eapply ceq_trans; [apply uni_den|]. apply cuni_ceq, H, W.
  - intros p q a b x y _ _ H1 H2 [W1 W2]. eapply ceq_trans; [apply mul_den|]. apply gp_ceq; auto.
  - intros p q a b x y _ _ H1 H2. eapply if_exists_mono; [|apply add_den]. intros t z _ Hz [W1 W2] k. rewrite (Hz k). unfold cadd. rewrite (H1 W1 k), (H2 W2 k). reflexivity.
  - intros p q a b x y T1 T2 H1 H2. eapply if_exists_mono; [|apply sub_den]. intros t z _ Hz (W1 & W2 & W) k. rewrite (Hz k).
    specialize (W a b T1 T2). rewrite wrong_back in W. destruct (backward_sub a b); [exfalso; auto|]. unfold csub. rewrite (H1 W1 k), (H2 W2 k). reflexivity.
Qed.

(** ** Nothing is lost *)
Lemma uni_keep : forall (P : f64 -> bool) (SP : spoils P), (forall v, P (Bopp v) = P v) -> forall u t (x : val f64 t),
  Exists (fun v => P v = true) (elems t x) -> Exists (fun v => P v = true) (elems _ (uni u t x)).
Proof.
  intros P SP Ho u t x H. destruct u; [| | | | | |constructor; apply (keep_magSq P SP t x H)];
    cbn [uniTy uni]; destruct t; dvs; cbv -[Bopp] in *;
    repeat match goal with H : Exists _ (_ :: _) |- _ => apply Exists_cons in H; destruct H as [H|H] | H : Exists _ [] |- _ => inversion H end;
    repeat first [apply Exists_cons_hd; rewrite ?Ho; assumption | apply Exists_cons_tl].
Qed.
Lemma prog_keep : forall P, spoils P -> (forall v, P (Bopp v) = P v) -> forall p v, eval p = Some v ->
  some_leaf (fun t (x : val f64 t) => Exists (fun v => P v = true) (elems t x)) p -> Exists (fun v => P v = true) (elems (projT1 v) (projT2 v)).
Proof.
  intros P SP Ho p v E. set (Q := fun t (x : val f64 t) => Exists (fun v => P v = true) (elems t x)).
  refine (proj2 (eval_ind (fun p t x => some_leaf Q p -> Q t x) _ _ _ _ _ p v E)); clear p v E; cbn [some_leaf].
  - auto.
  - intros u p t x _ H L. apply uni_keep; auto. apply H, L.
  - intros p q a b x y _ _ H1 H2 L. apply (keep_mul P SP). destruct L; [left; apply H1|right; apply H2]; assumption.
  - intros p q a b x y _ _ H1 H2. apply if_exists_imp. intros L.
    apply (keep_add P SP). destruct L; [left; apply H1|right; apply H2]; assumption.
  - intros p q a b x y _ _ H1 H2. apply if_exists_imp. intros L.
    apply (keep_sub P SP). destruct L; [left; apply H1|right; apply H2]; assumption.
Qed.
Lemma prog_nan : forall p v, eval p = Some v -> some_leaf has_nan p -> has_nan (projT1 v) (projT2 v).
Proof. intros p v E L. exact (prog_keep is_nan spoils_nan (is_nan_Bopp 53 1024) p v E L). Qed.

Lemma nonfin_opp : forall v : f64, nonfin (Bopp v) = nonfin v.
Proof. intros v. unfold nonfin. rewrite is_finite_Bopp. reflexivity. Qed.
Lemma prog_nonfinite : forall p v, eval p = Some v -> some_leaf has_nonfinite p -> has_nonfinite (projT1 v) (projT2 v).
Proof.
  intros p v E L. apply nonfin_ex. apply (prog_keep nonfin spoils_nonfin nonfin_opp p v E).
  clear E v. induction p as [t x|u p IH|p IHp q IHq|p IHp q IHq|p IHp q IHq]; cbn [some_leaf] in *; try tauto. apply nonfin_ex, L.
Qed.
Lemma fin_not : forall t (x : val f64 t), all_finite t x <-> ~ has_nonfinite t x.
Proof. intros t x. rewrite not_spoilt. unfold has_nonfinite. rewrite nonfin_ex. tauto. Qed.
Lemma mul_fin : forall a b (x : val f64 a) (y : val f64 b), all_finite _ (mul a b x y) -> all_finite a x /\ all_finite b y.
Proof.
  intros a b x y. rewrite !fin_not. intros H. split; intros N; apply H; apply (nonfinite_kept a b x y); auto.
Qed.
Lemma add_fin : forall a b (x : val f64 a) (y : val f64 b), if_exists (fun t r => all_finite t r -> all_finite a x /\ all_finite b y) (addTy a b) (add a b x y).
Proof.
  intros a b x y. pose proof (nonfinite_kept a b x y) as K.
  assert (K' : has_nonfinite a x \/ has_nonfinite b y -> if_exists has_nonfinite (addTy a b) (add a b x y)) by (intros N; apply K, N). clear K.
  apply if_exists_imp in K'. eapply if_exists_mono; [|exact K']. cbv beta. intros t r _ H. rewrite !fin_not. tauto.
Qed.
Lemma sub_fin : forall a b (x : val f64 a) (y : val f64 b), if_exists (fun t r => all_finite t r -> all_finite a x /\ all_finite b y) (subTy a b) (sub a b x y).
Proof.
  intros a b x y. pose proof (nonfinite_kept a b x y) as K.
  assert (K' : has_nonfinite a x \/ has_nonfinite b y -> if_exists has_nonfinite (subTy a b) (sub a b x y)) by (intros N; apply K, N). clear K.
  apply if_exists_imp in K'. eapply if_exists_mono; [|exact K']. cbv beta. intros t r _ H. rewrite !fin_not. tauto.
Qed.
Lemma uni_fin : forall u t (x : val f64 t), all_finite _ (uni u t x) -> all_finite t x.
Proof.
  intros u t x. rewrite !fin_not. unfold has_nonfinite. rewrite <- !nonfin_ex. intros H N. apply H, uni_keep; auto using spoils_nonfin, nonfin_opp.
Qed.
Lemma prog_finite : forall p v, eval p = Some v -> all_finite (projT1 v) (projT2 v) -> every_leaf all_finite p.
Proof.
  intros p v E F.
  refine (proj2 (eval_ind (fun p t x => all_finite t x -> every_leaf all_finite p) _ _ _ _ _ p v E) F); clear; cbn [every_leaf].
  - auto.
  - intros u p t x _ H F. apply H, (uni_fin u), F.
  - intros p q a b x y _ _ H1 H2 F. apply mul_fin in F. tauto.
  - intros p q a b x y _ _ H1 H2. eapply if_exists_mono; [|apply add_fin]. cbv beta. intros t r _ H F. specialize (H F). tauto.
  - intros p q a b x y _ _ H1 H2. eapply if_exists_mono; [|apply sub_fin]. cbv beta. intros t r _ H F. specialize (H F). tauto.
Qed.

(** ** Errors *)
Lemma size_nonneg : forall p, 0 <= size p.
Proof.
  assert (S : forall a b, 0 <= stretch a b).
  { intros [a|] [b|]; cbn; try apply sqrt_pos. destruct (unmixed a || unmixed b); [lra|apply sqrt_pos]. }
  induction p as [t x|u p IH|p IHp q IHq|p IHp q IHq|p IHp q IHq]; cbn [size].
  - apply cnorm_nonneg.
  - destruct u; auto. apply Rmult_le_pos; auto.
  - apply Rmult_le_pos; [apply S|]. apply Rmult_le_pos; auto.
  - lra.
  - lra.
Qed.
Lemma error_nonneg : forall p, 0 <= error p.
Proof.
  pose proof u53_pos as U. pose proof eta_pos as T. change u53 with unit_roundoff in U. change eta with underflow_unit in T.
  assert (S : forall a b, 0 <= stretch a b).
  { intros [a|] [b|]; cbn; try apply sqrt_pos. destruct (unmixed a || unmixed b); [lra|apply sqrt_pos]. }
  induction p as [t x|u p IH|p IHp q IHq|p IHp q IHq|p IHp q IHq]; cbn [error].
  - lra.
  - destruct u; auto. pose proof (size_nonneg p). cbv zeta.
    assert (0 <= error p * (2 * size p + error p)) by (apply Rmult_le_pos; lra).
    assert (0 <= 9 * unit_roundoff * ((size p + error p) * (size p + error p))) by (apply Rmult_le_pos; [lra|apply Rmult_le_pos; lra]). lra.
  - pose proof (size_nonneg p). pose proof (size_nonneg q).
    assert (0 <= size p * error q) by (apply Rmult_le_pos; auto). assert (0 <= error p * (size q + error q)) by (apply Rmult_le_pos; lra).
    assert (0 <= stretch (typ p) (typ q) * (size p * error q + error p * (size q + error q))) by (apply Rmult_le_pos; [apply S|lra]).
    assert (0 <= 26 * unit_roundoff * ((size p + error p) * (size q + error q))) by (apply Rmult_le_pos; [lra|apply Rmult_le_pos; lra]). lra.
  - pose proof (size_nonneg p). pose proof (size_nonneg q).
    assert (0 <= unit_roundoff * (size p + error p + (size q + error q))) by (apply Rmult_le_pos; lra). lra.
  - pose proof (size_nonneg p). pose proof (size_nonneg q).
    assert (0 <= unit_roundoff * (size p + error p + (size q + error q))) by (apply Rmult_le_pos; lra). lra.
Qed.
Definition has_type (t : ty) (A : clf) : Prop := exists x : val R t, ceq A (den t x).
Lemma has_type_sub : forall t A B, has_type t A -> has_type t B -> has_type t (csub A B).
Proof.
  intros t A B [x Hx] [y Hy].
  assert (H : exists z : val R t, ceq (csub (den t x) (den t y)) (den t z)).
  { destruct t; [exists (x - y : R); intros k; dblade k; dring|..];
      match goal with |- exists z : val R ?t, _ => exists (sub t t x y) end; intros k;
      match goal with |- _ = den ?t _ _ => exact (eq_sym (sub_den t t x y k)) end. }
  destruct H as [z Hz]. exists z. intros k. rewrite <- (Hz k). unfold csub. rewrite (Hx k), (Hy k). reflexivity.
Qed.
Lemma stretch_gp : forall a b A B, has_type a A -> has_type b B ->
  cnorm (gp A B) <= stretch (Some a) (Some b) * (cnorm A * cnorm B).
Proof.
  intros a b A B [x Hx] [y Hy]. rewrite (cnorm_ceq _ _ (gp_ceq _ _ _ _ Hx Hy)), (cnorm_ceq _ _ Hx), (cnorm_ceq _ _ Hy). clear A B Hx Hy.
  set (A := den a x). set (B := den b y). cbn [stretch].
  destruct (unmixed a) eqn:Ua; [cbn [orb]; rewrite norm_gp_l by (apply unmixed_rev, Ua); lra|].
  destruct (unmixed b) eqn:Ub; [cbn [orb]; rewrite norm_gp_r by (apply unmixed_rev, Ub); lra|]. cbn [orb].
  pose proof (gp_norm_bound A B) as G. unfold cnorm at 1. rewrite <- (sqrt_square (cnorm A * cnorm B)) by (apply Rmult_le_pos; apply cnorm_nonneg).
  rewrite <- sqrt_mult by (try lra; apply Rle_0_sqr). apply sqrt_le_1_alt.
  replace (cnorm A * cnorm B * (cnorm A * cnorm B)) with ((cnorm A * cnorm A) * (cnorm B * cnorm B)) by ring. rewrite !cnorm_sq. lra.
Qed.
Lemma stretch_pos : forall a b, 0 <= stretch a b.
Proof. intros [a|] [b|]; cbn; try apply sqrt_pos. destruct (unmixed a || unmixed b); [lra|apply sqrt_pos]. Qed.
Lemma exactly_type : forall t (x : val f64 t), has_type t (exactly t x).
Proof. intros t x. exists (exactv t x). apply ceq_refl. Qed.
Lemma uni_exactly : forall u t (x : val f64 t), u <> UMagSq -> ceq (exactly _ (uni u t x)) (cuni u (exactly t x)).
Proof.
  intros u t x Hu. unfold exactly. assert (E : mapv (fun v : f64 => b2r v) _ (uni u t x) = uni u t (mapv (fun v : f64 => b2r v) t x)).
  { destruct u; try congruence; cbn [uniTy uni]; destruct t; dvs; cbv -[B2R Bopp Ropp R0 IZR]; rewrite ?B2R_Bopp; reflexivity. }
  rewrite E. apply uni_den.
Qed.
Lemma cuni_norm : forall u a, u <> UMagSq -> cnorm (cuni u a) = cnorm a.
Proof.
  intros u a Hu. destruct u; try congruence; cbn [cuni]; unfold cnorm; try (f_equal; dring).
Qed.
Lemma cuni_sub : forall u a b, u <> UMagSq -> ceq (cuni u (csub a b)) (csub (cuni u a) (cuni u b)).
Proof. intros u a b Hu k. destruct u; try congruence; cbn [cuni]; dblade k; dring. Qed.
Lemma cuni_type : forall u t A, has_type t A -> has_type (uniTy u t) (cuni u A).
Proof.
  intros u t A [x Hx]. exists (uni u t x). eapply ceq_trans; [apply cuni_ceq, Hx|]. apply ceq_sym, uni_den.
Qed.
Lemma exactly_fmt : forall t (x : val f64 t) k, exists v : f64, exactly t x k = b2r v.
Proof.
  intros t x k. unfold exactly. destruct t; dvs; dblade k; cbv -[B2R Ropp R0 IZR];
    first [eexists; reflexivity | exists (B754_zero false); reflexivity | exists (B754_zero false); exact Ropp_0 | match goal with |- exists v, - b2r ?w = _ => exists (Bopp w); symmetry; apply B2R_Bopp end].
Qed.
Lemma sum_norm : forall a b t (x : val f64 a) (y : val f64 b) (r : val f64 t),
  (forall k, exactly t r k = nearest64 (exactly a x k + exactly b y k)) ->
  cnorm (csub (exactly t r) (cadd (exactly a x) (exactly b y))) <= u53 * cnorm (cadd (exactly a x) (exactly b y)).
Proof.
  intros a b t x y r H. pose proof u53_pos.
  eapply Rle_trans; [apply (norm_of_rel _ (cadd (exactly a x) (exactly b y)) u53 0); try lra|lra].
  intros k. unfold csub, cadd. rewrite H. destruct (exactly_fmt a x k) as [v Ev], (exactly_fmt b y k) as [w Ew]. rewrite Ev, Ew, Rplus_0_r. apply err_plus.
Qed.

Lemma rsum2 : forall a b c d e, a <= b -> c <= d -> b + d = e -> a + c <= e.
Proof. intros. lra. Qed.
Definition inv_err (p : prog f64) (t : ty) (x : val f64 t) : Prop :=
  no_wrong_sign p -> all_finite t x ->
  has_type t (meant p) /\ cnorm (meant p) <= size p /\ cnorm (csub (exactly t x) (meant p)) <= error p.
Lemma err_uni : forall u p t x, u <> UMagSq -> inv_err p t x -> inv_err (PUni u p) (uniTy u t) (uni u t x).
Proof.
  intros u p t x Hu H W F. destruct (H W (uni_fin u t x F)) as (T & S & E). change (meant (PUni u p)) with (cuni u (meant p)).
  split; [apply cuni_type, T|]. rewrite cuni_norm by exact Hu.
  assert (C : ceq (csub (exactly _ (uni u t x)) (cuni u (meant p))) (cuni u (csub (exactly t x) (meant p)))).
  { intros k. rewrite (cuni_sub u _ _ Hu k). unfold csub. rewrite (uni_exactly u t x Hu k). reflexivity. }
  rewrite (cnorm_ceq _ _ C), cuni_norm by exact Hu. destruct u; try congruence; cbn [size error]; auto.
Qed.
Lemma err_magSq : forall p t x, inv_err p t x -> inv_err (PUni UMagSq p) TDub (magSq t x).
Proof.
  intros p t x H W F. pose proof (uni_fin UMagSq t x F) as Fx. destruct (H W Fx) as (T & S & E).
  change (meant (PUni UMagSq p)) with (cscale (cnorm2 (meant p)) cone).
  split; [apply (cuni_type UMagSq t), T|]. cbn [size error]. cbv zeta. change unit_roundoff with u53. change underflow_unit with eta.
  pose proof (size_nonneg p) as P1. pose proof (error_nonneg p) as P2. pose proof u53_pos as U. pose proof eta_pos as Te.
  set (A := meant p) in *. set (X := exactly t x) in *. pose proof (cnorm_nonneg A) as PA. pose proof (cnorm_nonneg X) as PX.
  assert (C1 : cnorm cone = 1) by (unfold cnorm; replace (cnorm2 cone) with (1 * 1) by dring; apply sqrt_square; lra).
  pose proof (cnorm2_nonneg A) as NA. pose proof (cnorm2_nonneg X) as NX.
  split.
  - rewrite cnorm_scale, C1, Rabs_pos_eq, <- cnorm_sq by exact NA. rewrite Rmult_1_r. apply Rmult_le_compat; auto.
  - inversion F as [|? ? Fm _]; subst. pose proof (magSq_error t x Fm) as M. fold X in M.
    assert (Q : ceq (csub (exactly TDub (magSq t x)) (cscale (cnorm2 A) cone)) (cscale (b2r (magSq t x) - cnorm2 A) cone)).
    { intros k. unfold exactly. set (m := b2r (magSq t x)). change (mapv _ TDub (magSq t x)) with m. set (c := cnorm2 A). dblade k; unfold csub, cscale, cone, cbasis; cbn; ring. }
    rewrite (cnorm_ceq _ _ Q), cnorm_scale, C1, Rmult_1_r. rewrite <- !cnorm_sq in *.
    pose proof (norm_le_sub X A) as L1. set (d := cnorm (csub X A)) in *.
    assert (L2 : cnorm A <= cnorm X + d).
    { eapply Rle_trans; [apply (norm_le_sub A X)|]. apply Rplus_le_compat_l. right. unfold d.
      rewrite <- (Rmult_1_l (cnorm (csub X A))), <- Rabs_R1, <- (Rabs_Ropp 1), <- cnorm_scale. apply cnorm_ceq. intros k. unfold csub, cscale. ring. }
    replace (b2r (magSq t x) - cnorm A * cnorm A) with ((b2r (magSq t x) - cnorm X * cnorm X) + (cnorm X - cnorm A) * (cnorm X + cnorm A)) by ring.
    eapply Rle_trans; [apply Rabs_triang|].
    assert (K1 : Rabs ((cnorm X - cnorm A) * (cnorm X + cnorm A)) <= error p * (2 * size p + error p)).
    { rewrite Rabs_mult. apply Rmult_le_compat; try apply Rabs_pos.
      - apply Rabs_le. lra.
      - rewrite Rabs_pos_eq by lra. lra. }
    assert (K2 : u53 * (cnorm X * cnorm X) <= u53 * ((size p + error p) * (size p + error p))).
    { apply Rmult_le_compat_l; [lra|]. apply Rmult_le_compat; lra. }
    lra.
Qed.
Lemma err_mul : forall p q a b x y, typ p = Some a -> typ q = Some b -> inv_err p a x -> inv_err q b y ->
  inv_err (PMul p q) (mulTy a b) (mul a b x y).
Proof.
  intros p q a b x y Tp Tq Hp Hq [W1 W2] F. destruct (mul_fin a b x y F) as [Fx Fy].
  destruct (Hp W1 Fx) as (T1 & S1 & E1). destruct (Hq W2 Fy) as (T2 & S2 & E2).
  change (meant (PMul p q)) with (gp (meant p) (meant q)). cbn [size error]. rewrite Tp, Tq. change unit_roundoff with u53. change underflow_unit with eta.
  pose proof (size_nonneg p) as P1. pose proof (error_nonneg p) as P2. pose proof (size_nonneg q) as P3. pose proof (error_nonneg q) as P4.
  pose proof u53_pos as U. pose proof eta_pos as Te. pose proof (stretch_pos (Some a) (Some b)) as PC.
  pose proof (mul_norm_error a b x y F) as M. pose proof (exactly_type a x) as TX. pose proof (exactly_type b y) as TY.
  set (A := meant p) in *. set (B := meant q) in *. set (X := exactly a x) in *. set (Y := exactly b y) in *. set (c := stretch (Some a) (Some b)) in *.
  pose proof (cnorm_nonneg A) as PA. pose proof (cnorm_nonneg B) as PB. pose proof (cnorm_nonneg X) as PX. pose proof (cnorm_nonneg Y) as PY.
  split; [|split].
  - destruct T1 as [xr Hx], T2 as [yr Hy]. exists (mul a b xr yr). eapply ceq_trans; [apply gp_ceq; eassumption|]. apply ceq_sym, mul_den.
  - eapply Rle_trans; [apply (stretch_gp a b); assumption|]. apply Rmult_le_compat_l; [exact PC|]. apply Rmult_le_compat; auto.
  - eapply Rle_trans; [apply (norm_sub_le _ (gp X Y))|].
    pose proof (norm_le_sub X A) as LX. pose proof (norm_le_sub Y B) as LY.
    assert (D : cnorm (csub (gp X Y) (gp A B)) <= c * (cnorm A * cnorm (csub Y B)) + c * (cnorm (csub X A) * cnorm Y)).
    { eapply Rle_trans; [apply (norm_sub_le _ (gp A Y))|]. rewrite Rplus_comm. apply Rplus_le_compat.
      - rewrite (cnorm_ceq _ (gp A (csub Y B))) by (apply ceq_sym, gp_sub_r). apply (stretch_gp a b); auto using has_type_sub, exactly_type.
      - rewrite (cnorm_ceq _ (gp (csub X A) Y)) by (apply ceq_sym, gp_sub_l). apply (stretch_gp a b); auto using has_type_sub, exactly_type. }
    assert (K1 : cnorm A * cnorm (csub Y B) <= size p * error q) by (apply Rmult_le_compat; auto using cnorm_nonneg).
    assert (K2 : cnorm (csub X A) * cnorm Y <= error p * (size q + error q)) by (apply Rmult_le_compat; auto using cnorm_nonneg; lra).
    assert (K3 : cnorm X * cnorm Y <= (size p + error p) * (size q + error q)) by (apply Rmult_le_compat; auto; lra).
    apply (Rmult_le_compat_l c) in K1; [|exact PC]. apply (Rmult_le_compat_l c) in K2; [|exact PC]. apply (Rmult_le_compat_l u53) in K3; [|lra].
    lra.
Qed.
Lemma sum_error : forall X Y A B Z sp ep sq eq, cnorm (csub Z (cadd X Y)) <= u53 * cnorm (cadd X Y) ->
  cnorm A <= sp -> cnorm B <= sq -> cnorm (csub X A) <= ep -> cnorm (csub Y B) <= eq ->
  cnorm (cadd A B) <= sp + sq /\ cnorm (csub Z (cadd A B)) <= ep + eq + u53 * (sp + ep + (sq + eq)).
Proof.
  intros X Y A B Z sp ep sq eq M SA SB EX EY. pose proof u53_pos as U.
  pose proof (cnorm_triangle A B). split; [lra|].
  pose proof (norm_le_sub X A). pose proof (norm_le_sub Y B). pose proof (cnorm_triangle X Y) as T.
  assert (T' : u53 * cnorm (cadd X Y) <= u53 * (sp + ep + (sq + eq))) by (apply Rmult_le_compat_l; lra).
  eapply Rle_trans; [apply (norm_sub_le _ (cadd X Y))|].
  assert (D : cnorm (csub (cadd X Y) (cadd A B)) <= cnorm (csub X A) + cnorm (csub Y B)).
  { rewrite (cnorm_ceq _ (cadd (csub X A) (csub Y B))) by (intros k; unfold csub, cadd; ring). apply cnorm_triangle. }
  lra.
Qed.
Lemma if_exists_ty : forall F (P : ty -> Prop) o (x : oval F o) t, if_exists (fun t _ => P t) o x -> o = Some t -> P t.
Proof. intros F P [t|] x t' H E; inversion E; subst. exact H. Qed.
Lemma has_type_add : forall a b A B t, has_type a A -> has_type b B -> addTy a b = Some t -> has_type t (cadd A B).
Proof.
  intros a b A B t [x Hx] [y Hy] E. refine (if_exists_ty R (fun t => has_type t (cadd A B)) _ (add a b x y) t _ E).
  eapply if_exists_mono; [|apply (add_den a b x y)]. cbv beta. intros t' v _ H. exists v. intros k. rewrite (H k). unfold cadd. rewrite (Hx k), (Hy k). reflexivity.
Qed.
Lemma has_type_dif : forall a b A B t, backward_sub a b = false -> has_type a A -> has_type b B -> subTy a b = Some t -> has_type t (csub A B).
Proof.
  intros a b A B t W [x Hx] [y Hy] E. refine (if_exists_ty R (fun t => has_type t (csub A B)) _ (sub a b x y) t _ E).
  eapply if_exists_mono; [|apply (sub_den a b x y)]. cbv beta. rewrite W. intros t' v _ H. exists v. intros k. rewrite (H k). unfold csub. rewrite (Hx k), (Hy k). reflexivity.
Qed.
Lemma if_exists_and : forall F (P Q S : forall t, val F t -> Prop) o (x : oval F o),
  (forall t v, o = Some t -> P t v -> Q t v -> S t v) -> if_exists P o x -> if_exists Q o x -> if_exists S o x.
Proof. intros F P Q S [t|] x H; cbn; auto. Qed.
Lemma err_add : forall p q a b x y, typ p = Some a -> typ q = Some b -> inv_err p a x -> inv_err q b y ->
  if_exists (inv_err (PAdd p q)) (addTy a b) (add a b x y).
Proof.
  intros p q a b x y Tp Tq Hp Hq. eapply if_exists_and; [|apply (add_fin a b x y)|apply (add_near a b x y)].
  cbv beta. intros t r E Hf Hn [W1 W2] F. destruct (Hf F) as [Fx Fy]. specialize (Hn F).
  destruct (Hp W1 Fx) as (T1 & S1 & E1). destruct (Hq W2 Fy) as (T2 & S2 & E2). split; [exact (has_type_add a b _ _ t T1 T2 E)|].
  exact (sum_error _ _ _ _ _ _ _ _ _ (sum_norm a b t x y r Hn) S1 S2 E1 E2).
Qed.
Lemma cnorm_opp : forall a, cnorm (copp a) = cnorm a.
Proof. intros a. apply (cuni_norm UNeg). discriminate. Qed.
Lemma err_sub : forall p q a b x y, typ p = Some a -> typ q = Some b -> inv_err p a x -> inv_err q b y ->
  if_exists (inv_err (PSub p q)) (subTy a b) (sub a b x y).
Proof.
  intros p q a b x y Tp Tq Hp Hq. destruct (backward_sub a b) eqn:B.
  { assert (G : forall o (z : oval f64 o), if_exists (inv_err (PSub p q)) o z); [|apply G].
    intros [t|] z; [|exact I]. intros (_ & _ & W) _. exfalso. apply (W a b Tp Tq). apply wrong_back, B. }
  assert (W : ~ wrong_sign_pair a b) by (rewrite wrong_back, B; discriminate).
  eapply if_exists_and; [|apply (sub_fin a b x y)|apply (sub_near a b x y W)].
  cbv beta. intros t r E Hf Hn (W1 & W2 & _) F. destruct (Hf F) as [Fx Fy]. specialize (Hn F).
  destruct (Hp W1 Fx) as (T1 & S1 & E1). destruct (Hq W2 Fy) as (T2 & S2 & E2). split; [exact (has_type_dif a b _ _ t B T1 T2 E)|].
  assert (N : ceq (exactly b (neg b y)) (copp (exactly b y))) by exact (uni_exactly UNeg b y ltac:(discriminate)).
  assert (Hn' : forall k, exactly t r k = nearest64 (exactly a x k + exactly b (neg b y) k)).
  { intros k. rewrite Hn, (N k). reflexivity. }
  assert (C : forall A B', ceq (csub A B') (cadd A (copp B'))) by (intros A B' k; unfold csub, cadd, copp; ring).
  change (meant (PSub p q)) with (csub (meant p) (meant q)).
  rewrite <- (cnorm_opp (meant q)) in S2.
  assert (E2' : cnorm (csub (exactly b (neg b y)) (copp (meant q))) <= error q).
  { rewrite (cnorm_ceq _ (copp (csub (exactly b y) (meant q)))), cnorm_opp; [exact E2|].
    intros k. unfold csub. rewrite (N k). unfold copp. ring. }
  rewrite (cnorm_ceq _ _ (C (meant p) (meant q))).
  rewrite (cnorm_ceq (csub (exactly t r) _) (csub (exactly t r) (cadd (meant p) (copp (meant q))))) by (intros k; unfold csub, cadd, copp; ring).
  exact (sum_error _ _ _ _ _ _ _ _ _ (sum_norm a b t x (neg b y) r Hn') S1 S2 E1 E2').
Qed.
Lemma prog_error : forall p v, no_wrong_sign p -> eval p = Some v -> all_finite (projT1 v) (projT2 v) ->
  cnorm (meant p) <= size p /\ cnorm (csub (exactly (projT1 v) (projT2 v)) (meant p)) <= error p.
Proof.
  intros p v W E F. refine (proj2 (proj2 (eval_ind inv_err _ _ _ _ _ p v E) W F)); clear.
  - intros t x _ _. split; [apply exactly_type|]. change (meant (PLeaf t x)) with (exactly t x). cbn [size error]. split; [right; reflexivity|].
    right. rewrite (cnorm_ceq _ (cscale 0 cone)) by (intros k; unfold csub, cscale; ring). rewrite cnorm_scale, Rabs_R0. ring.
  - intros u p t x _ H. assert (D : u = UMagSq \/ u <> UMagSq) by (destruct u; (right; discriminate) || (left; reflexivity)). destruct D as [->|N].
    + exact (err_magSq p t x H).
    + exact (err_uni u p t x N H).
  - intros p q a b x y Tp Tq H1 H2. exact (err_mul p q a b x y Tp Tq H1 H2).
  - intros p q a b x y Tp Tq H1 H2. exact (err_add p q a b x y Tp Tq H1 H2).
  - intros p q a b x y Tp Tq H1 H2. exact (err_sub p q a b x y Tp Tq H1 H2).
Qed.
Lemma prog_same : forall p q v w, no_wrong_sign p -> no_wrong_sign q -> ceq (meant p) (meant q) ->
  eval p = Some v -> eval q = Some w -> all_finite (projT1 v) (projT2 v) -> all_finite (projT1 w) (projT2 w) ->
  cnorm (csub (exactly (projT1 v) (projT2 v)) (exactly (projT1 w) (projT2 w))) <= error p + error q.
Proof.
  intros p q v w Wp Wq C Ep Eq Fp Fq. destruct (prog_error p v Wp Ep Fp) as [_ H1], (prog_error q w Wq Eq Fq) as [_ H2].
  eapply Rle_trans; [apply (norm_sub_le _ (meant p))|]. apply Rplus_le_compat; [exact H1|].
  eapply Rle_trans; [right|exact H2]. rewrite <- (cnorm_opp (csub (exactly _ (projT2 w)) _)). apply cnorm_ceq. intros k. unfold copp, csub. rewrite (C k). ring.
Qed.
(** ** Integers *)
Lemma mul_const : forall a b (A B : Z), (1 <= A)%Z -> (1 <= B)%Z ->
  Forall (fun z => (z <= 8 * (A * B))%Z) (elems (mulTy a b) (@mul Z Ring0_bound a b (constv A a) (constv B b))).
Proof.
  intros a b A B HA HB. assert (H1 : (A <= A * B)%Z) by nia. assert (H2 : (B <= A * B)%Z) by nia.
  destruct a, b; cbv -[Z.mul Z.add Z.le]; repeat constructor; lia.
Qed.
Lemma add_const : forall a b (A B : Z), (1 <= A)%Z -> (1 <= B)%Z ->
  if_exists (fun t r => Forall (fun z => (z <= A + B)%Z) (elems t r)) (addTy a b) (@add Z Ring0_bound a b (constv A a) (constv B b)).
Proof.
  intros a b A B HA HB. destruct a, b; try exact I; cbv -[Z.mul Z.add Z.le]; repeat constructor; lia.
Qed.
Lemma sub_const : forall a b (A B : Z), (1 <= A)%Z -> (1 <= B)%Z ->
  if_exists (fun t r => Forall (fun z => (z <= A + B)%Z) (elems t r)) (subTy a b) (@sub Z Ring0_bound a b (constv A a) (constv B b)).
Proof.
  intros a b A B HA HB. destruct a, b; try exact I; cbv -[Z.mul Z.add Z.le]; repeat constructor; lia.
Qed.
Lemma magSq_const : forall t (A : Z), (1 <= A)%Z -> (@magSq Z Ring0_bound t (constv A t) <= 10 * (A * A))%Z.
Proof.
  intros t A HA. assert (H1 : (A <= A * A)%Z) by nia. destruct t; cbv -[Z.mul Z.add Z.le]; lia.
Qed.
Definition tagged (N : Z) (t : ty) (x : val f64 t) : val RZ t := mapv (fun v : f64 => (b2r v, N)) t x.
Lemma tagged_good : forall N t x, (1 <= N)%Z -> integers N t x -> relv good t x (tagged N t x).
Proof.
  intros N t x HN H. unfold relv, tagged. rewrite elems_mapv. unfold integers in H.
  induction H as [|v l (F & n & B & E) Hl IH]; cbn [map]; constructor; auto.
  split; cbn [fst snd]; [lia|]. intros _. split; [exact F|]. exists n. auto.
Qed.
Lemma tagged_fst : forall N t x, relv isfst t (tagged N t x) (exactv t x).
Proof.
  intros N t x. unfold relv, tagged, exactv. rewrite !elems_mapv. induction (elems t x); cbn [map]; constructor; auto. reflexivity.
Qed.
Lemma tagged_snd : forall N t x, relv issnd t (tagged N t x) (constv N t).
Proof.
  intros N t x. rewrite <- (mapv_const f64 Z N t x). unfold relv, tagged. rewrite !elems_mapv. induction (elems t x); cbn [map]; constructor; auto. reflexivity.
Qed.
Lemma ints_list : forall N (l : list f64) (m : list RZ) (z : list Z), (N <= 2 ^ 53)%Z ->
  Forall2 good l m -> Forall2 issnd m z -> Forall (fun b => (b <= N)%Z) z ->
  Forall (fun v : f64 => is_finite v = true /\ exists n : Z, (Z.abs n <= N)%Z /\ B2R v = IZR n) l.
Proof.
  intros N l m z HN G. revert z. induction G as [|v p l m Gv G IH]; intros z B C; inversion B; subst; constructor.
  - destruct Gv as [_ Gv]. unfold issnd in *. subst. inversion C; subst. destruct Gv as (F & n & E1 & E3 & E2); [lia|].
    split; [exact F|]. exists n. split; [lia|]. congruence.
  - inversion C; subst. eapply IH; eauto.
Qed.
Lemma ints_and : forall N t (x : val f64 t) (m : val RZ t) (r : val R t) (z : val Z t), (N <= 2 ^ 53)%Z ->
  relv good t x m -> relv isfst t m r -> relv issnd t m z -> Forall (fun b => (b <= N)%Z) (elems t z) ->
  integers N t x /\ exactv t x = r.
Proof.
  intros N t x m r z HN G P1 P2 B. split.
  - exact (ints_list N _ _ _ HN G P2 B).
  - assert (B' : Forall (fun b => (b <= 2 ^ 53)%Z) (elems t z)) by (eapply Forall_impl; [|exact B]; cbv beta; lia).
    exact (proj2 (exact_val _ _ _ (exact_list _ _ _ _ G P1 P2 B'))).
Qed.
Lemma int_mul : forall A B a b (x : val f64 a) (y : val f64 b), (1 <= A)%Z -> (1 <= B)%Z -> (8 * (A * B) <= 2 ^ 53)%Z ->
  integers A a x -> integers B b y ->
  integers (8 * (A * B)) _ (mul a b x y) /\ ceq (exactly _ (mul a b x y)) (gp (exactly a x) (exactly b y)).
Proof.
  intros A B a b x y HA HB HN Hx Hy.
  destruct (ints_and (8 * (A * B)) _ _ _ _ _ HN
    (mul_rel good_rel a b _ _ _ _ (tagged_good A a x HA Hx) (tagged_good B b y HB Hy))
    (mul_rel fst_rel a b _ _ _ _ (tagged_fst A a x) (tagged_fst B b y))
    (mul_rel snd_rel a b _ _ _ _ (tagged_snd A a x) (tagged_snd B b y)) (mul_const a b A B HA HB)) as [H1 H2].
  split; [exact H1|]. intros k. unfold exactly. fold (exactv (mulTy a b) (mul a b x y)). rewrite H2. apply mul_den.
Qed.
Lemma int_add : forall A B a b (x : val f64 a) (y : val f64 b), (1 <= A)%Z -> (1 <= B)%Z -> (A + B <= 2 ^ 53)%Z ->
  integers A a x -> integers B b y ->
  if_exists (fun t r => integers (A + B) t r /\ ceq (exactly t r) (cadd (exactly a x) (exactly b y))) (addTy a b) (add a b x y).
Proof.
  intros A B a b x y HA HB HN Hx Hy.
  pose proof (add_rel good_rel a b _ _ _ _ (tagged_good A a x HA Hx) (tagged_good B b y HB Hy)) as G.
  pose proof (add_rel fst_rel a b _ _ _ _ (tagged_fst A a x) (tagged_fst B b y)) as P1.
  pose proof (add_rel snd_rel a b _ _ _ _ (tagged_snd A a x) (tagged_snd B b y)) as P2.
  pose proof (add_const a b A B HA HB) as C. pose proof (add_den a b (exactv a x) (exactv b y)) as D.
  revert G P1 P2 C D. generalize (add a b x y), (@add RZ Ring0_RZ a b (tagged A a x) (tagged B b y)),
    (@add R Ring0_R a b (exactv a x) (exactv b y)), (@add Z Ring0_bound a b (constv A a) (constv B b)).
  destruct (addTy a b) as [t|]; cbn [relo if_exists oval]; [|trivial]. intros r p q z G P1 P2 C D.
  destruct (ints_and (A + B) t r p q z HN G P1 P2 C) as [H1 H2]. split; [exact H1|].
  intros k. unfold exactly. fold (exactv t r). rewrite H2. apply D.
Qed.
Lemma int_sub : forall A B a b (x : val f64 a) (y : val f64 b), (1 <= A)%Z -> (1 <= B)%Z -> (A + B <= 2 ^ 53)%Z ->
  backward_sub a b = false -> integers A a x -> integers B b y ->
  if_exists (fun t r => integers (A + B) t r /\ ceq (exactly t r) (csub (exactly a x) (exactly b y))) (subTy a b) (sub a b x y).
Proof.
  intros A B a b x y HA HB HN W Hx Hy.
  pose proof (sub_rel good_rel a b _ _ _ _ (tagged_good A a x HA Hx) (tagged_good B b y HB Hy)) as G.
  pose proof (sub_rel fst_rel a b _ _ _ _ (tagged_fst A a x) (tagged_fst B b y)) as P1.
  pose proof (sub_rel snd_rel a b _ _ _ _ (tagged_snd A a x) (tagged_snd B b y)) as P2.
  pose proof (sub_const a b A B HA HB) as C. pose proof (sub_den a b (exactv a x) (exactv b y)) as D. rewrite W in D. clear W.
  revert G P1 P2 C D. generalize (sub a b x y), (@sub RZ Ring0_RZ a b (tagged A a x) (tagged B b y)),
    (@sub R Ring0_R a b (exactv a x) (exactv b y)), (@sub Z Ring0_bound a b (constv A a) (constv B b)).
  destruct (subTy a b) as [t|]; cbn [relo if_exists oval]; [|trivial]. intros r p q z G P1 P2 C D.
  destruct (ints_and (A + B) t r p q z HN G P1 P2 C) as [H1 H2]. split; [exact H1|].
  intros k. unfold exactly. fold (exactv t r). rewrite H2. apply D.
Qed.
Lemma int_magSq : forall A t (x : val f64 t), (1 <= A)%Z -> (10 * (A * A) <= 2 ^ 53)%Z -> integers A t x ->
  integers (10 * (A * A)) TDub (magSq t x) /\ ceq (exactly TDub (magSq t x)) (cscale (cnorm2 (exactly t x)) cone).
Proof.
  intros A t x HA HN Hx.
  pose proof (magSq_rel good_rel t _ _ (tagged_good A t x HA Hx)) as G.
  pose proof (magSq_rel fst_rel t _ _ (tagged_fst A t x)) as P1.
  pose proof (magSq_rel snd_rel t _ _ (tagged_snd A t x)) as P2.
  destruct (ints_and (10 * (A * A)) TDub (magSq t x) (@magSq RZ Ring0_RZ t (tagged A t x)) (@magSq R Ring0_R t (exactv t x)) (@magSq Z Ring0_bound t (constv A t)) HN) as [H1 H2];
    try (apply Forall2_cons; [assumption|constructor]).
  - apply Forall_cons; [|constructor]. apply magSq_const, HA.
  - split; [exact H1|]. intros k. unfold exactly at 1. fold (exactv TDub (magSq t x)). rewrite H2. rewrite (magSq_den t).
    change (den t (exactv t x)) with (exactly t x). set (c := cnorm2 (exactly t x)). dblade k; unfold cscale, cone, cbasis; cbn; ring.
Qed.
Definition isint (N : Z) (v : f64) : Prop := is_finite v = true /\ exists n : Z, (Z.abs n <= N)%Z /\ B2R v = IZR n.
Lemma int_opp : forall N (v : f64), isint N v -> isint N (Bopp v).
Proof.
  intros N v (F & n & B & E). unfold isint. rewrite is_finite_Bopp. split; [exact F|]. exists (- n)%Z. rewrite B2R_Bopp, E, opp_IZR. split; [lia|reflexivity].
Qed.
Lemma int_zero : forall N, (0 <= N)%Z -> isint N (B754_zero false).
Proof. intros N HN. split; [reflexivity|]. exists 0%Z. split; [lia|reflexivity]. Qed.
Lemma int_uni : forall N u t (x : val f64 t), (0 <= N)%Z -> u <> UMagSq -> integers N t x -> integers N _ (uni u t x).
Proof.
  intros N u t x HN Hu H. change (Forall (isint N) (elems t x)) in H. change (Forall (isint N) (elems _ (uni u t x))).
  pose proof (int_zero N HN) as Z0. pose proof (int_opp N) as O. revert H Z0 O. generalize (isint N). clear N HN.
  intros P H Z0 O. destruct u; try congruence; cbn [uniTy uni]; destruct t; dvs; cbv -[Bopp] in H |- *;
    repeat match goal with H : Forall _ (_ :: _) |- _ => apply Forall_cons_iff in H; destruct H as [? H] end; repeat apply Forall_cons; try apply Forall_nil; auto.
Qed.
Lemma ibound_pos : forall M F (p : prog F), (1 <= M)%Z -> (1 <= integer_bound M p)%Z.
Proof.
  intros M F p HM. induction p as [t x|u p IH|p IHp q IHq|p IHp q IHq|p IHp q IHq]; cbn [integer_bound]; try lia; try nia. destruct u; nia.
Qed.

Lemma prog_integers : forall M p v, (1 <= M)%Z -> no_wrong_sign p -> every_leaf (integers M) p -> (integer_bound M p <= 2 ^ 53)%Z -> eval p = Some v ->
  integers (integer_bound M p) (projT1 v) (projT2 v) /\ ceq (exactly (projT1 v) (projT2 v)) (meant p).
Proof.
  intros M p v HM W H B E.
  refine (proj2 (eval_ind (fun p t x => no_wrong_sign p -> every_leaf (integers M) p -> (integer_bound M p <= 2 ^ 53)%Z ->
    integers (integer_bound M p) t x /\ ceq (exactly t x) (meant p)) _ _ _ _ _ p v E) W H B); clear - HM; cbn [no_wrong_sign every_leaf].
  - intros t x _ H _. split; [exact H|]. apply ceq_refl.
  - intros u p t x _ H W Hl B. pose proof (ibound_pos M _ p HM) as Hp.
    assert (D : u = UMagSq \/ u <> UMagSq) by (destruct u; (right; discriminate) || (left; reflexivity)). destruct D as [->|N].
    + cbn [integer_bound] in *. destruct (H W Hl) as [H1 H2]; [nia|].
      destruct (int_magSq _ t x Hp B H1) as [K1 K2]. split; [exact K1|].
      eapply ceq_trans; [exact K2|]. intros k. change (meant (PUni UMagSq p)) with (cscale (cnorm2 (meant p)) cone).
      rewrite (cnorm2_ceq _ _ H2). reflexivity.
    + assert (Eb : integer_bound M (PUni u p) = integer_bound M p) by (destruct u; reflexivity || congruence). rewrite Eb in *.
      destruct (H W Hl B) as [H1 H2]. split; [apply int_uni; auto; lia|].
      eapply ceq_trans; [exact (uni_exactly u t x N)|]. apply (cuni_ceq u), H2.
  - intros p q a b x y _ _ Hp Hq [W1 W2] [L1 L2] B. cbn [integer_bound] in *.
    pose proof (ibound_pos M _ p HM) as Pp. pose proof (ibound_pos M _ q HM) as Pq.
    destruct (Hp W1 L1) as [H1 H2]; [nia|]. destruct (Hq W2 L2) as [H3 H4]; [nia|].
    destruct (int_mul _ _ a b x y Pp Pq B H1 H3) as [K1 K2]. split; [exact K1|]. eapply ceq_trans; [exact K2|]. apply gp_ceq; assumption.
  - intros p q a b x y _ _ Hp Hq. apply if_exists_imp. intros [W1 W2]. apply if_exists_imp. intros [L1 L2]. apply if_exists_imp. intros B. cbn [integer_bound] in *.
    pose proof (ibound_pos M _ p HM) as Pp. pose proof (ibound_pos M _ q HM) as Pq.
    destruct (Hp W1 L1) as [H1 H2]; [lia|]. destruct (Hq W2 L2) as [H3 H4]; [lia|].
    eapply if_exists_mono; [|exact (int_add _ _ a b x y Pp Pq B H1 H3)]. cbv beta. intros t r _ [K1 K2]. split; [exact K1|].
    intros k. rewrite (K2 k). unfold cadd. rewrite (H2 k), (H4 k). reflexivity.
  - intros p q a b x y Tp Tq Hp Hq. apply if_exists_imp. intros (W1 & W2 & W). apply if_exists_imp. intros [L1 L2]. apply if_exists_imp. intros B. cbn [integer_bound] in *.
    pose proof (ibound_pos M _ p HM) as Pp. pose proof (ibound_pos M _ q HM) as Pq.
    destruct (Hp W1 L1) as [H1 H2]; [lia|]. destruct (Hq W2 L2) as [H3 H4]; [lia|].
    assert (Wb : backward_sub a b = false).
    { specialize (W a b Tp Tq). rewrite wrong_back in W. destruct (backward_sub a b); congruence. }
    eapply if_exists_mono; [|exact (int_sub _ _ a b x y Pp Pq B Wb H1 H3)]. cbv beta. intros t r _ [K1 K2]. split; [exact K1|].
    intros k. rewrite (K2 k). unfold csub. rewrite (H2 k), (H4 k). reflexivity.
Qed.
Lemma ints_finite : forall N t x, integers N t x -> all_finite t x.
Proof. intros N t x H. unfold all_finite. eapply Forall_impl; [|exact H]. cbv beta. tauto. Qed.
(** ** Two expressions that differ in the values written *)
Section Alike.
Variable Q : forall t, val f64 t -> val f64 t -> Prop.
Variable ok : uop -> Prop.
Definition Qo (o : option ty) : oval f64 o -> oval f64 o -> Prop := match o with Some t => Q t | None => fun _ _ => True end.
Hypothesis Q_uni : forall u t x x', ok u -> Q t x x' -> Q _ (uni u t x) (uni u t x').
Hypothesis Q_mul : forall a b x x' y y', Q a x x' -> Q b y y' -> Q _ (mul a b x y) (mul a b x' y').
Hypothesis Q_add : forall a b x x' y y', Q a x x' -> Q b y y' -> Qo _ (add a b x y) (add a b x' y').
Hypothesis Q_sub : forall a b x x' y y', Q a x x' -> Q b y y' -> Qo _ (sub a b x y) (sub a b x' y').
Fixpoint every_op (p : prog f64) : Prop :=
  match p with
  | PLeaf _ _ => True
  | PUni u p => ok u /\ every_op p
  | PMul p q | PAdd p q | PSub p q => every_op p /\ every_op q
  end.
Lemma alike_oval : forall o x y, Qo o x y -> alike_result Q (some_val o x) (some_val o y).
Proof. intros [t|] x y H; cbn [some_val]; constructor. exact H. Qed.
Lemma alike_eval : forall p p', alike Q p p' -> every_op p -> alike_result Q (eval p) (eval p').
Proof.
  intros p p' H. induction H as [t x y Hxy|u p q H IH|p q p' q' Hp IHp Hq IHq|p q p' q' Hp IHp Hq IHq|p q p' q' Hp IHp Hq IHq];
    cbn [every_op eval].
  - intros _. constructor. exact Hxy.
  - intros [O1 O2]. destruct (IH O2) as [|t x y K]; constructor. apply Q_uni; assumption.
  - intros [O1 O2]. destruct (IHp O1) as [|a x x' K], (IHq O2) as [|b y y' K']; cbn [bind2]; constructor. apply Q_mul; assumption.
  - intros [O1 O2]. destruct (IHp O1) as [|a x x' K], (IHq O2) as [|b y y' K']; cbn [bind2]; try constructor. apply alike_oval, Q_add; assumption.
  - intros [O1 O2]. destruct (IHp O1) as [|a x x' K], (IHq O2) as [|b y y' K']; cbn [bind2]; try constructor. apply alike_oval, Q_sub; assumption.
Qed.
End Alike.
Lemma every_true : forall p, every_op (fun _ => True) p.
Proof. intros p. induction p; cbn [every_op]; auto. Qed.
Lemma every_nodual : forall p, no_dual p -> every_op (fun u => u <> UDual) p.
Proof.
  intros p. induction p as [t x|u p IH|p IHp q IHq|p IHp q IHq|p IHp q IHq]; cbn [every_op no_dual]; try tauto.
  destruct u; try tauto; intros H; split; try discriminate; auto.
Qed.
Lemma prog_zero_sign : forall p p', alike samev p p' -> alike_result samev (eval p) (eval p').
Proof.
  intros p p' H. apply (alike_eval samev (fun _ => True)); [..|exact H|apply every_true].
  - intros u t x x' _ K. destruct (uni_same t x x' K) as (K1 & K2 & K3 & K4 & K5 & K6).
    destruct u; cbn [uni uniTy]; try assumption.
    + apply relv_same. apply (@to_mv_rel _ _ _ _ _ zr_ring). apply relv_same, K.
    + apply Forall2_cons; [exact K6|constructor].
  - intros a b x x' y y' K K'. apply mul_same; assumption.
  - intros a b x x' y y' K K'. exact (proj1 (addsub_same a b x x' y y' K K')).
  - intros a b x x' y y' K K'. exact (proj2 (addsub_same a b x x' y y' K K')).
Qed.
Lemma prog_mirror : forall r1 r2 r3 p p', alike (mirrored (mirror false r1 r2 r3)) p p' -> no_dual p ->
  alike_result (mirrored (mirror false r1 r2 r3)) (eval p) (eval p').
Proof.
  intros r1 r2 r3 p p' H N. apply (alike_eval _ (fun u => u <> UDual)); [..|exact H|apply every_nodual, N].
  - intros u t x x' O K. destruct (uni_mirror _ t x x' K) as (K1 & K2 & K3 & K4 & K5 & K6).
    destruct u; cbn [uni uniTy]; try assumption; [congruence|].
    destruct (magSq_mirror _ t x x' K) as [-> _]. apply Forall2_cons; [|constructor].
    cbn [fst snd]. replace (mirror false r1 r2 r3 bS) with false by (destruct r1, r2, r3; reflexivity). left. reflexivity.
  - intros a b x x' y y' K K'. exact (mul_mirror r1 r2 r3 false false a b x x' y y' K K').
  - intros a b x x' y y' K K'. exact (proj1 (addsub_mirror _ a b x x' y y' K K')).
  - intros a b x x' y y' K K'. exact (proj2 (addsub_mirror _ a b x x' y y' K K')).
Qed.
(** ** Products of any number of values *)
Lemma chain_snoc : forall F (x : tval F) l v, chain x (l ++ [v]) = PMul (chain x l) (PLeaf (projT1 v) (projT2 v)).
Proof. intros F x l v. unfold chain. rewrite fold_left_app. reflexivity. Qed.
Lemma chain_sign : forall F (x : tval F) l, no_wrong_sign (chain x l).
Proof. intros F x l. induction l as [|v l IH] using rev_ind; [exact I|]. rewrite chain_snoc. split; [exact IH|exact I]. Qed.
Lemma stretch_r : forall a b, unmixed b = true -> a <> None -> stretch a (Some b) = 1.
Proof. intros [a|] b H N; [|congruence]. cbn [stretch]. rewrite H, orb_true_r. reflexivity. Qed.
Lemma chain_typ : forall F (x : tval F) l, typ (chain x l) <> None.
Proof.
  intros F x l. induction l as [|v l IH] using rev_ind; [discriminate|]. rewrite chain_snoc. cbn [typ]. destruct (typ (chain x l)); [discriminate|congruence].
Qed.
Section Chain.
Variable L : R.
Hypothesis HL : 1 <= L.
Let short (v : tval f64) : Prop := unmixed (projT1 v) = true /\ cnorm (exactly (projT1 v) (projT2 v)) <= L.
Let e := 26 * u53.
Lemma chain_bounds : forall x l, cnorm (exactly (projT1 x) (projT2 x)) <= L -> Forall short l ->
  size (chain x l) <= L ^ S (length l) /\
  error (chain x l) <= ((1 + e) ^ length l - 1) * L ^ S (length l) + 26 * eta * (INR (length l) * ((1 + e) * L) ^ length l).
Proof.
  intros x l Hx. pose proof u53_pos as U. pose proof eta_pos as T. assert (He : 0 < e) by (unfold e; lra).
  induction l as [|v l IH] using rev_ind; intros H.
  - change (chain x []) with (PLeaf (projT1 x) (projT2 x)). cbn [size error length pow INR]. split; [rewrite Rmult_1_r; exact Hx|]. right. ring.
  - apply Forall_app in H. destruct H as [Hl Hv]. inversion Hv as [|? ? [Uv Nv] _]; subst. destruct (IH Hl) as [S1 E1]. clear IH.
    rewrite chain_snoc, app_length, Nat.add_1_r. cbn [size error typ]. rewrite stretch_r by (assumption || apply chain_typ).
    change unit_roundoff with u53. change underflow_unit with eta.
    pose proof (size_nonneg (chain x l)) as P1. pose proof (error_nonneg (chain x l)) as P2.
    set (s := size (chain x l)) in *. set (r := error (chain x l)) in *. set (w := cnorm (exactly (projT1 v) (projT2 v))) in *.
    assert (Pw : 0 <= w) by apply cnorm_nonneg. set (n := length l) in *. rewrite S_INR.
    assert (PL : 1 <= L ^ n) by (apply pow_R1_Rle, HL). assert (PE : 1 <= (1 + e) ^ n) by (apply pow_R1_Rle; lra).
    change (L ^ S (S n)) with (L * L ^ S n). change ((1 + e) ^ S n) with ((1 + e) * (1 + e) ^ n).
    rewrite !Rpow_mult_distr in *. set (a := (1 + e) ^ n) in *. change (L ^ S n) with (L * L ^ n) in *. set (b := L ^ n) in *.
    change ((1 + e) ^ S n) with ((1 + e) * a). set (k := INR n) in *. assert (Pk : 0 <= k) by apply pos_INR.
    assert (B0 : 0 <= b) by lra. assert (LB : 0 <= L * b) by (apply Rmult_le_pos; lra).
    split.
    + rewrite Rmult_1_l, Rmult_comm. apply Rmult_le_compat; assumption.
    + assert (X1 : r * w <= ((a - 1) * (L * b) + 26 * eta * (k * (a * b))) * L) by (apply Rmult_le_compat; assumption).
      assert (X2 : s * w <= L * b * L) by (apply Rmult_le_compat; assumption).
      assert (X3 : 1 <= (1 + e) * a * (L * b)).
      { assert (1 <= (1 + e) * a) by (rewrite <- (Rmult_1_l 1); apply Rmult_le_compat; lra).
        assert (1 <= L * b) by (rewrite <- (Rmult_1_l 1); apply Rmult_le_compat; lra).
        rewrite <- (Rmult_1_l 1). apply Rmult_le_compat; lra. }
      replace (1 * (s * 0 + r * (w + 0)) + 26 * u53 * ((s + r) * (w + 0)) + 26 * eta) with ((1 + e) * (r * w) + e * (s * w) + 26 * eta) by (unfold e; ring).
      apply (Rmult_le_compat_l (1 + e)) in X1; [|lra]. apply (Rmult_le_compat_l e) in X2; [|lra].
      apply (Rmult_le_compat_l (26 * eta)) in X3; [|lra].
      replace (((1 + e) * a - 1) * (L * (L * b)) + 26 * eta * ((k + 1) * ((1 + e) * a * (L * b)))) with
        ((1 + e) * (((a - 1) * (L * b) + 26 * eta * (k * (a * b))) * L) + e * (L * b * L) + 26 * eta * ((1 + e) * a * (L * b))) by ring.
      lra.
Qed.
Lemma prog_chain : forall x l v, cnorm (exactly (projT1 x) (projT2 x)) <= L -> Forall short l ->
  eval (chain x l) = Some v -> all_finite (projT1 v) (projT2 v) ->
  cnorm (csub (exactly (projT1 v) (projT2 v)) (meant (chain x l))) <=
    ((1 + 26 * u53) ^ length l - 1) * L ^ S (length l) + 26 * eta * (INR (length l) * ((1 + 26 * u53) * L) ^ length l).
Proof.
  intros x l v Hx Hl E F. eapply Rle_trans; [apply (prog_error _ _ (chain_sign _ x l) E F)|]. apply (chain_bounds x l Hx Hl).
Qed.
End Chain.
(** ** No overflow *)
Definition below (e : Z) (v : f64) : Prop := is_finite v = true /\ Rabs (B2R v) <= bpow radix2 e.
Lemma below_uni : forall e u t (x : val f64 t), u <> UMagSq -> within e t x -> within e _ (uni u t x).
Proof.
  intros e u t x Hu H. change (Forall (below e) (elems t x)) in H. change (Forall (below e) (elems _ (uni u t x))).
  assert (Z0 : below e (B754_zero false)) by (split; [reflexivity|]; cbn [B2R]; rewrite Rabs_R0; apply bpow_ge_0).
  assert (O : forall v, below e v -> below e (Bopp v)) by (intros v [F B]; split; [rewrite is_finite_Bopp; exact F|rewrite B2R_Bopp, Rabs_Ropp; exact B]).
  revert H Z0 O. generalize (below e). clear e.
  intros P H Z0 O. destruct u; try congruence; cbn [uniTy uni]; destruct t; dvs; cbv -[Bopp] in H |- *;
    repeat match goal with H : Forall _ (_ :: _) |- _ => apply Forall_cons_iff in H; destruct H as [? H] end; repeat apply Forall_cons; try apply Forall_nil; auto.
Qed.
Lemma within_mono : forall e e' t (x : val f64 t), (e <= e')%Z -> within e t x -> within e' t x.
Proof.
  intros e e' t x H K. unfold within in *. eapply Forall_impl; [|exact K]. cbv beta. intros v [F B]. split; [exact F|].
  eapply Rle_trans; [exact B|]. apply bpow_le, H.
Qed.
Lemma ebound_pos : forall e F (p : prog F), (0 <= e)%Z -> (0 <= exponent_bound e p)%Z.
Proof.
  intros e F p HM. induction p as [t x|u p IH|p IHp q IHq|p IHp q IHq|p IHp q IHq]; cbn [exponent_bound]; try lia. destruct u; lia.
Qed.
Lemma prog_within : forall e p v, (0 <= e)%Z -> every_leaf (within e) p -> (exponent_bound e p <= 1023)%Z -> eval p = Some v ->
  within (exponent_bound e p) (projT1 v) (projT2 v).
Proof.
  intros e p v He H B E.
  refine (proj2 (eval_ind (fun p t x => every_leaf (within e) p -> (exponent_bound e p <= 1023)%Z ->
    within (exponent_bound e p) t x) _ _ _ _ _ p v E) H B); clear - He; cbn [every_leaf].
  - intros t x H _. exact H.
  - intros u p t x _ H Hl B. pose proof (ebound_pos e _ p He) as Hp.
    assert (D : u = UMagSq \/ u <> UMagSq) by (destruct u; (right; discriminate) || (left; reflexivity)). destruct D as [->|N].
    + cbn [exponent_bound] in *. apply Forall_cons; [|constructor]. apply magSq_within; [lia|]. apply H; [exact Hl|lia].
    + assert (Eb : exponent_bound e (PUni u p) = exponent_bound e p) by (destruct u; reflexivity || congruence). rewrite Eb in *.
      apply below_uni; auto.
  - intros p q a b x y _ _ Hp Hq [L1 L2] B. cbn [exponent_bound] in *.
    pose proof (ebound_pos e _ p He) as Pp. pose proof (ebound_pos e _ q He) as Pq.
    apply mul_within; [lia|lia|apply Hp; [exact L1|lia]|apply Hq; [exact L2|lia]].
  - intros p q a b x y _ _ Hp Hq. apply if_exists_imp. intros [L1 L2]. apply if_exists_imp. intros B. cbn [exponent_bound] in *.
    pose proof (ebound_pos e _ p He) as Pp. pose proof (ebound_pos e _ q He) as Pq.
    apply add_within; [lia|eapply within_mono; [apply Z.le_max_l|apply Hp; [exact L1|lia]]|eapply within_mono; [apply Z.le_max_r|apply Hq; [exact L2|lia]]].
  - intros p q a b x y _ _ Hp Hq. apply if_exists_imp. intros [L1 L2]. apply if_exists_imp. intros B. cbn [exponent_bound] in *.
    pose proof (ebound_pos e _ p He) as Pp. pose proof (ebound_pos e _ q He) as Pq.
    apply sub_within; [lia|eapply within_mono; [apply Z.le_max_l|apply Hp; [exact L1|lia]]|eapply within_mono; [apply Z.le_max_r|apply Hq; [exact L2|lia]]].
Qed.
(** ** Rearranged expressions *)
Lemma prog_assoc : forall p q r v w, no_wrong_sign p -> no_wrong_sign q -> no_wrong_sign r ->
  eval (PMul (PMul p q) r) = Some v -> eval (PMul p (PMul q r)) = Some w ->
  all_finite (projT1 v) (projT2 v) -> all_finite (projT1 w) (projT2 w) ->
  cnorm (csub (exactly (projT1 v) (projT2 v)) (exactly (projT1 w) (projT2 w))) <= error (PMul (PMul p q) r) + error (PMul p (PMul q r)).
Proof.
  intros p q r v w Wp Wq Wr. apply prog_same; cbn [no_wrong_sign]; auto. apply gp_assoc.
Qed.
Lemma prog_dist : forall p q r v w, no_wrong_sign p -> no_wrong_sign q -> no_wrong_sign r ->
  eval (PMul p (PAdd q r)) = Some v -> eval (PAdd (PMul p q) (PMul p r)) = Some w ->
  all_finite (projT1 v) (projT2 v) -> all_finite (projT1 w) (projT2 w) ->
  cnorm (csub (exactly (projT1 v) (projT2 v)) (exactly (projT1 w) (projT2 w))) <= error (PMul p (PAdd q r)) + error (PAdd (PMul p q) (PMul p r)).
Proof.
  intros p q r v w Wp Wq Wr. apply prog_same; cbn [no_wrong_sign]; auto. apply gp_add_r.
Qed.
(** ** Examples *)
Definition ex_spin : Spinor f64 := mkSpin (Sca (f64_lit 3 0)) (Biv (f64_lit 2 0) (f64_lit (-1) 0) (f64_lit 1 0)).
Definition ex_vec : Vector f64 := Vec (f64_lit 1 0) (f64_lit 2 0) (f64_lit (-2) 0).
(** |s v reverse(s) - v| for these, squared. *)
Definition ex_prog : prog f64 :=
  PUni UMagSq (PSub (PMul (PMul (PLeaf TSpin ex_spin) (PLeaf TVec ex_vec)) (PUni URev (PLeaf TSpin ex_spin))) (PUni UMv (PLeaf TVec ex_vec))).
Lemma lit_isint : forall n, (Z.abs n <= 3)%Z -> is_finite (f64_lit n 0) = true /\ exists k : Z, (Z.abs k <= 3)%Z /\ B2R (f64_lit n 0) = IZR k.
Proof.
  intros n Hn. assert (K : (n = -3 \/ n = -2 \/ n = -1 \/ n = 0 \/ n = 1 \/ n = 2 \/ n = 3)%Z) by lia.
  repeat destruct K as [K|K]; subst n; (split; [vm_compute; reflexivity|]).
  - exists (-3)%Z. split; [lia|]. cbv; lra.
  - exists (-2)%Z. split; [lia|]. cbv; lra.
  - exists (-1)%Z. split; [lia|]. cbv; lra.
  - exists 0%Z. split; [lia|]. cbv; lra.
  - exists 1%Z. split; [lia|]. cbv; lra.
  - exists 2%Z. split; [lia|]. cbv; lra.
  - exists 3%Z. split; [lia|]. cbv; lra.
Qed.
Lemma ex_integers : typ ex_prog = Some TDub /\ no_wrong_sign ex_prog /\ every_leaf (integers 3) ex_prog /\ (integer_bound 3 ex_prog <= 2 ^ 53)%Z /\
  exists v, eval ex_prog = Some (existT _ TDub v).
Proof.
  split; [reflexivity|]. split; [|split; [|split]].
  - cbn. repeat split. intros a b Ha Hb. injection Ha as <-. injection Hb as <-. intros [H|H]; intuition congruence.
  - unfold ex_prog. cbn [every_leaf]. repeat split; repeat apply Forall_cons; try apply Forall_nil; apply lit_isint; lia.
  - vm_compute. discriminate.
  - eexists. reflexivity.
Qed.

Lemma mirrored_ext : forall s s' t (x y : val f64 t), (forall k, s k = s' k) -> mirrored s t x y -> mirrored s' t x y.
Proof.
  intros s s' t x y E. unfold mirrored. rewrite (map_ext _ (fun p => if s' (fst p) then Bopp (snd p) else snd p)); [auto|].
  intros [k v]. cbn [fst snd]. rewrite E. reflexivity.
Qed.
Lemma prog_mirror_even : forall r1 r2 r3 p p', xorb r1 (xorb r2 r3) = false -> alike (mirrored (mirror false r1 r2 r3)) p p' ->
  alike_result (mirrored (mirror false r1 r2 r3)) (eval p) (eval p').
Proof.
  intros r1 r2 r3 p p' Ev H. apply (alike_eval _ (fun _ => True)); [..|exact H|apply every_true].
  - intros u t x x' O K. destruct (uni_mirror _ t x x' K) as (K1 & K2 & K3 & K4 & K5 & K6).
    destruct u; cbn [uni uniTy]; try assumption.
    + eapply mirrored_ext; [|exact K5]. intros k. destruct k as [[] [] []]; destruct r1, r2, r3; try discriminate Ev; reflexivity.
    + destruct (magSq_mirror _ t x x' K) as [-> _]. apply Forall2_cons; [|constructor].
      cbn [fst snd]. replace (mirror false r1 r2 r3 bS) with false by (destruct r1, r2, r3; reflexivity). left. reflexivity.
  - intros a b x x' y y' K K'. exact (mul_mirror r1 r2 r3 false false a b x x' y y' K K').
  - intros a b x x' y y' K K'. exact (proj1 (addsub_mirror _ a b x x' y y' K K')).
  - intros a b x x' y y' K K'. exact (proj2 (addsub_mirror _ a b x x' y y' K K')).
Qed.
Lemma prog_mirrors : forall r1 r2 r3 p p', alike (mirrored (mirror false r1 r2 r3)) p p' -> no_dual p \/ xorb r1 (xorb r2 r3) = false ->
  alike_result (mirrored (mirror false r1 r2 r3)) (eval p) (eval p').
Proof. intros r1 r2 r3 p p' H [N|N]; [apply prog_mirror|apply prog_mirror_even]; assumption. Qed.
