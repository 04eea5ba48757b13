(** * Properties of the type traits and of the overload sets they constrain.

    Only statements; proofs are in TraitFacts.v. *)

Require Import Reals List Bool Lra.
Require Import Verif.Num Verif.Types Verif.Traits Verif.SpecCl Verif.SpecFunc Verif.SpecTraits Verif.TraitFacts.
Import ListNotations.
Local Open Scope R_scope.

(** C59: the blade trait marks exactly the G3 types all of whose values are
    blades of one grade. *)
Theorem C59_blade : forall t, is_blade t = true <->
  t <> TDub /\ exists n, (n <= 3)%nat /\ forall x : val R t, blade_value n (den t x).
Proof. exact blade_trait. Qed.
Print Assumptions C59_blade.
Theorem C59_only : forall t,
  (is_Scalar t = true <-> t = TSca) /\ (is_Vector t = true <-> t = TVec) /\ (is_BiVector t = true <-> t = TBiv) /\
  (is_TriVector t = true <-> t = TTri) /\ (is_Spinor t = true <-> t = TSpin) /\ (is_ImSpin t = true <-> t = TImsp) /\
  (is_ComPlex t = true <-> t = TCplx) /\ (is_DirPlex t = true <-> t = TDplx) /\ (is_MultiVector t = true <-> t = TMvec).
Proof. exact only_type. Qed.
Print Assumptions C59_only.
(** No call is ambiguous, and which calls there are. *)
Theorem C59_unambiguous : forall f t, (length (candidates f t) <= 1)%nat.
Proof. exact unambiguous. Qed.
Print Assumptions C59_unambiguous.
Theorem C59_missing : forall f t, candidates f t = [] <->
  (t = TDub /\ (f = f_neg \/ f = f_add_same \/ f = f_sub_same \/ f = f_extract)) \/
  ((t = TCplx \/ t = TDplx) /\ (f = f_fixed \/ f = f_enote)).
Proof. exact offered. Qed.
Print Assumptions C59_missing.
Theorem C59_inverse : forall t,
  ((length (inverse_named t) <= 1)%nat /\ (length (inverse_deduced t) <= 1)%nat) /\
  (inverse_named t <> [] <-> t = TSca \/ t = TVec \/ t = TBiv \/ t = TTri \/ t = TCplx \/ t = TMvec) /\
  (inverse_deduced t <> [] <-> t = TSca \/ t = TVec \/ t = TBiv \/ t = TTri).
Proof. exact (fun t => conj (inverse_unambiguous t) (inverse_offered t)). Qed.
Print Assumptions C59_inverse.
Example C59_example : (* e12 + e23 is the product of e2 and e3 - e1 *)
  blade_value 2 (den TBiv (Biv 1 0 1)) /\ ~ blade_value 2 (den TSpin (mkSpin (Sca 1) (Biv 1 0 1))).
Proof.
  split; [exact (blade_types TBiv _ eq_refl)|].
  intros H. exact (R1_neq_R0 (homogeneous 2 _ H (le_S _ _ (le_n 2)) bS ltac:(discriminate))).
Qed.
