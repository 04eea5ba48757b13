(** * The specification's product is the Clifford product, and the three
      involutions are fixed by their effect on products and vectors
      (proofs only). *)

Require Import Reals Lra Bool List Setoid Morphisms.
Require Import Verif.Num Verif.Types Verif.SpecCl Verif.RealInst Verif.AlgTac Verif.AlgFacts.
Import ListNotations.
Local Open Scope R_scope.

Global Instance ceq_equiv : Equivalence ceq.
Proof.
  split; [exact ceq_refl | exact ceq_sym | exact ceq_trans].
Qed.
Global Instance cadd_proper : Proper (ceq ==> ceq ==> ceq) cadd.
Proof. intros a a' Ha b b' Hb k; unfold cadd; rewrite (Ha k), (Hb k); reflexivity. Qed.
Global Instance csub_proper : Proper (ceq ==> ceq ==> ceq) csub.
Proof. intros a a' Ha b b' Hb k; unfold csub; rewrite (Ha k), (Hb k); reflexivity. Qed.
Global Instance copp_proper : Proper (ceq ==> ceq) copp.
Proof. intros a a' Ha k; unfold copp; rewrite (Ha k); reflexivity. Qed.
Global Instance cscale_proper : Proper (eq ==> ceq ==> ceq) cscale.
Proof. intros r r' <- a a' Ha k; unfold cscale; rewrite (Ha k); reflexivity. Qed.
Global Instance gp_proper : Proper (ceq ==> ceq ==> ceq) gp.
Proof. intros a a' Ha b b' Hb; apply gp_ceq; assumption. Qed.

Lemma gp_is_clifford : is_clifford_product gp.
Proof.
  split; try (intros; intro k; dblade k; dring).
  intros; apply gp_ceq; assumption.
Qed.

(** Expansion over the eight basis blades. *)
Definition expand (a : clf) : clf :=
  cadd (cscale (a bS) cone) (cadd (cscale (a bE1) (cbasis bE1)) (cadd (cscale (a bE2) (cbasis bE2))
 (cadd (cscale (a bE3) (cbasis bE3)) (cadd (cscale (a bE12) (cbasis bE12))
 (cadd (cscale (a bE13) (cbasis bE13)) (cadd (cscale (a bE23) (cbasis bE23))
       (cscale (a bE123) (cbasis bE123)))))))).
Lemma expand_eq a : ceq a (expand a).
Proof. intros k; dblade k; dring. Qed.

Lemma copp_scale a : ceq (copp a) (cscale (-1) a).
Proof. intros k; dblade k; dring. Qed.
Lemma copp_copp a : ceq (copp (copp a)) a.
Proof. intros k; dblade k; dring. Qed.

Section Unique.
Context (P : clf -> clf -> clf) (HP : is_clifford_product P).
Local Instance P_proper : Proper (ceq ==> ceq ==> ceq) P.
Proof. intros a a' Ha b b' Hb; apply (cp_ext _ HP); assumption. Qed.
Local Notation e1 := (cbasis bE1).
Local Notation e2 := (cbasis bE2).
Local Notation e3 := (cbasis bE3).

Lemma P_opp_r a b : ceq (P a (copp b)) (copp (P a b)).
Proof. rewrite (copp_scale b), (cp_scale_r _ HP), <- copp_scale; reflexivity. Qed.
Lemma P_opp_l a b : ceq (P (copp a) b) (copp (P a b)).
Proof. rewrite (copp_scale a), (cp_scale_l _ HP), <- copp_scale; reflexivity. Qed.

Lemma P11 x : ceq (P e1 (P e1 x)) x.
Proof. rewrite <- (cp_assoc _ HP), (cp_sq1 _ HP); apply (cp_one_l _ HP). Qed.
Lemma P22 x : ceq (P e2 (P e2 x)) x.
Proof. rewrite <- (cp_assoc _ HP), (cp_sq2 _ HP); apply (cp_one_l _ HP). Qed.
Lemma P33 x : ceq (P e3 (P e3 x)) x.
Proof. rewrite <- (cp_assoc _ HP), (cp_sq3 _ HP); apply (cp_one_l _ HP). Qed.
Lemma P21 x : ceq (P e2 (P e1 x)) (copp (P e1 (P e2 x))).
Proof.
  rewrite <- (cp_assoc _ HP), (cp_21 _ HP), P_opp_l, (cp_assoc _ HP); reflexivity.
Qed.
Lemma P31 x : ceq (P e3 (P e1 x)) (copp (P e1 (P e3 x))).
Proof.
  rewrite <- (cp_assoc _ HP), (cp_31 _ HP), P_opp_l, (cp_assoc _ HP); reflexivity.
Qed.
Lemma P32 x : ceq (P e3 (P e2 x)) (copp (P e2 (P e3 x))).
Proof.
  rewrite <- (cp_assoc _ HP), (cp_32 _ HP), P_opp_l, (cp_assoc _ HP); reflexivity.
Qed.

Ltac pnorm :=
  repeat first
   [ rewrite (cp_assoc _ HP) | rewrite P_opp_r | rewrite copp_copp
   | rewrite (cp_one_r _ HP) | rewrite (cp_one_l _ HP)
   | rewrite (cp_sq1 _ HP) | rewrite (cp_sq2 _ HP) | rewrite (cp_sq3 _ HP)
   | rewrite P11 | rewrite P22 | rewrite P33
   | rewrite P21 | rewrite P31 | rewrite P32
   | rewrite (cp_21 _ HP) | rewrite (cp_31 _ HP) | rewrite (cp_32 _ HP) ].
Ltac pback :=
  repeat first
   [ rewrite <- (cp_assoc _ HP e1 e2 e3) | rewrite <- (cp_e123 _ HP)
   | rewrite <- (cp_e12 _ HP) | rewrite <- (cp_e13 _ HP)
   | rewrite <- (cp_e23 _ HP) ].
Ltac pname := rewrite ?(cp_e123 _ HP), ?(cp_e12 _ HP), ?(cp_e13 _ HP), ?(cp_e23 _ HP).

Lemma P_gen g (Hg : g = bE1 \/ g = bE2 \/ g = bE3) b :
  ceq (P (cbasis g) b) (gp (cbasis g) b).
Proof.
  rewrite (expand_eq b); unfold expand.
  rewrite !(cp_add_r _ HP), !(cp_scale_r _ HP).
  rewrite !gp_add_r, !gp_scale_r.
  destruct Hg as [-> | [-> | ->]];
  repeat apply cadd_proper; (apply cscale_proper; [reflexivity|]);
  (pname; pnorm; pback; intro k; dblade k; dring).
Qed.

Lemma P_mul a a' : (forall b, ceq (P a b) (gp a b)) -> (forall b, ceq (P a' b) (gp a' b)) ->
  forall b, ceq (P (P a a') b) (gp (P a a') b).
Proof.
  intros Ha Ha' b. rewrite (cp_assoc _ HP), !Ha, !Ha', gp_assoc; reflexivity.
Qed.

Lemma clifford_unique a b : ceq (P a b) (gp a b).
Proof.
  assert (G1 : forall b, ceq (P e1 b) (gp e1 b)) by (apply P_gen; auto).
  assert (G2 : forall b, ceq (P e2 b) (gp e2 b)) by (apply P_gen; auto).
  assert (G3 : forall b, ceq (P e3 b) (gp e3 b)) by (apply P_gen; auto).
  assert (G0 : forall b, ceq (P cone b) (gp cone b))
    by (intro; rewrite gp_one_l; apply (cp_one_l _ HP)).
  rewrite (expand_eq a); unfold expand.
  rewrite !(cp_add_l _ HP), !(cp_scale_l _ HP), !gp_add_l, !gp_scale_l.
  repeat apply cadd_proper; (apply cscale_proper; [reflexivity|]); auto.
  - pname; auto using P_mul.
  - pname; auto using P_mul.
  - pname; auto using P_mul.
  - pname; auto using P_mul.
Qed.
End Unique.

(** ** Involutions: linear maps fixed by their effect on products and vectors. *)
Section InvUnique.
Context (f g : clf -> clf) (Lf : is_linear f) (Lg : is_linear g)
  (m : clf -> clf -> clf) (m_ext : forall a a' b b', ceq a a' -> ceq b b' -> ceq (m a b) (m a' b'))
  (Mf : forall a b, ceq (f (gp a b)) (m (f a) (f b)))
  (Mg : forall a b, ceq (g (gp a b)) (m (g a) (g b)))
  (Gen : forall i, grade i = 1%nat -> ceq (f (cbasis i)) (g (cbasis i))).
Local Instance f_proper : Proper (ceq ==> ceq) f.
Proof. intros a a' Ha; apply (lin_ext _ Lf); assumption. Qed.
Local Instance g_proper : Proper (ceq ==> ceq) g.
Proof. intros a a' Ha; apply (lin_ext _ Lg); assumption. Qed.
Local Instance m_proper : Proper (ceq ==> ceq ==> ceq) m.
Proof. intros a a' Ha b b' Hb; apply m_ext; assumption. Qed.

Lemma inv_mul a b c : ceq c (gp a b) -> ceq (f a) (g a) -> ceq (f b) (g b) -> ceq (f c) (g c).
Proof. intros Hc Ha Hb; rewrite Hc, Mf, Mg, Ha, Hb; reflexivity. Qed.

Lemma inv_unique a : ceq (f a) (g a).
Proof.
  assert (G1 := Gen bE1 eq_refl); assert (G2 := Gen bE2 eq_refl); assert (G3 := Gen bE3 eq_refl).
  assert (G12 : ceq (f (cbasis bE12)) (g (cbasis bE12)))
    by (eapply inv_mul; [apply (cp_e12 _ gp_is_clifford) | |]; assumption).
  rewrite (expand_eq a); unfold expand.
  rewrite !(lin_add _ Lf), !(lin_scale _ Lf), !(lin_add _ Lg), !(lin_scale _ Lg).
  repeat apply cadd_proper; (apply cscale_proper; [reflexivity|]); auto.
  - eapply inv_mul; [symmetry; apply (cp_sq1 _ gp_is_clifford) | |]; assumption.
  - eapply inv_mul; [apply (cp_e13 _ gp_is_clifford) | |]; assumption.
  - eapply inv_mul; [apply (cp_e23 _ gp_is_clifford) | |]; assumption.
  - apply inv_mul with (cbasis bE12) (cbasis bE3); auto.
    rewrite (cp_e123 _ gp_is_clifford), <- (cp_e12 _ gp_is_clifford); reflexivity.
Qed.
End InvUnique.

Lemma crev_linear : is_linear crev.
Proof.
  split; [intros a a' H k; unfold crev; rewrite (H k); reflexivity | |];
  intros; intro k; dblade k; dring.
Qed.
Lemma codd_linear : is_linear codd.
Proof.
  split; [intros a a' H k; unfold codd; rewrite (H k); reflexivity | |];
  intros; intro k; dblade k; dring.
Qed.
Lemma cdir_linear : is_linear cdir.
Proof.
  split; [intros a a' H k; unfold cdir; rewrite (H k); reflexivity | |];
  intros; intro k; dblade k; dring.
Qed.
