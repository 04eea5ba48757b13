(** * Traits and overload sets: proofs. *)

Require Import Reals List Bool Lra Lia.
Require Import Verif.Num Verif.Types Verif.Traits Verif.SpecCl Verif.RealInst Verif.AlgTac Verif.SpecFunc Verif.SpecTraits.
Import ListNotations.
Local Open Scope R_scope.

Lemma only_type : forall t,
  (is_Scalar t = true <-> t = TSca) /\ (is_Vector t = true <-> t = TVec) /\ (is_BiVector t = true <-> t = TBiv) /\
  (is_TriVector t = true <-> t = TTri) /\ (is_Spinor t = true <-> t = TSpin) /\ (is_ImSpin t = true <-> t = TImsp) /\
  (is_ComPlex t = true <-> t = TCplx) /\ (is_DirPlex t = true <-> t = TDplx) /\ (is_MultiVector t = true <-> t = TMvec).
Proof. destruct t; cbn; repeat split; intros H; first [reflexivity | discriminate H]. Qed.

(** ** Products of orthogonal vectors are homogeneous *)
Lemma product1 : forall v, ceq (vector_product [v]) (den TVec v).
Proof. intros [[x y z]] k. cbn [vector_product fold_right]. dblade k; dring. Qed.

Lemma homogeneous : forall n a, blade_value n a -> (n <= 3)%nat -> forall k, grade k <> n -> a k = 0.
Proof.
  intros n a (s & l & Hl & O & E) Hn k Hk. rewrite (E k). unfold cscale.
  assert (P : vector_product l k = 0); [|rewrite P; ring].
  clear E. unfold vector_product. subst n.
  destruct l as [|[[a1 a2 a3]] l].
  { cbn in Hk. cbn [fold_right]. dblade k; cbn in Hk; try (exfalso; apply Hk; reflexivity); dring. }
  destruct l as [|[[b1 b2 b3]] l].
  { cbn in Hk. cbn [fold_right]. dblade k; cbn in Hk; try (exfalso; apply Hk; reflexivity); dring. }
  destruct l as [|[[c1 c2 c3]] l].
  { inversion O as [|? ? H1 _]; subst. inversion H1 as [|? ? H2 _]; subst. unfold dot in H2; cbn in H2.
    cbn in Hk. cbn [fold_right]. dblade k; cbn in Hk; try (exfalso; apply Hk; reflexivity); try dring.
    transitivity (a1 * b1 + a2 * b2 + a3 * b3); [dring|exact H2]. }
  destruct l as [|? ?]; [|cbn in Hn; lia].
  inversion O as [|? ? H1 O2]; subst. inversion H1 as [|? ? H2 H1']; subst. inversion H1' as [|? ? H3 _]; subst.
  inversion O2 as [|? ? H4 _]; subst. inversion H4 as [|? ? H5 _]; subst.
  unfold dot in H2, H3, H5; cbn in H2, H3, H5. cbn in Hk. cbn [fold_right].
  dblade k; cbn in Hk; try (exfalso; apply Hk; reflexivity); try dring.
  - transitivity (a1 * (b1 * c1 + b2 * c2 + b3 * c3) - b1 * (a1 * c1 + a2 * c2 + a3 * c3) + c1 * (a1 * b1 + a2 * b2 + a3 * b3)); [dring|].
    rewrite H2, H3, H5; ring.
  - transitivity (a2 * (b1 * c1 + b2 * c2 + b3 * c3) - b2 * (a1 * c1 + a2 * c2 + a3 * c3) + c2 * (a1 * b1 + a2 * b2 + a3 * b3)); [dring|].
    rewrite H2, H3, H5; ring.
  - transitivity (a3 * (b1 * c1 + b2 * c2 + b3 * c3) - b3 * (a1 * c1 + a2 * c2 + a3 * c3) + c3 * (a1 * b1 + a2 * b2 + a3 * b3)); [dring|].
    rewrite H2, H3, H5; ring.
Qed.

(** ** Every value of a blade type is a blade *)
Lemma biv_factors : forall x y z : R, exists u v, dot u v = 0 /\ ceq (den TBiv (Biv x y z)) (vector_product [u; v]).
Proof.
  assert (G : forall x y z p q r : R, x * p + y * q + z * r = 0 -> 0 < p * p + q * q + r * r ->
    exists u v, dot u v = 0 /\ ceq (den TBiv (Biv x y z)) (vector_product [u; v])).
  { intros x y z p q r Ho Hp. set (n := p * p + q * q + r * r) in *. assert (Hn : n <> 0) by lra.
    exists (Vec p q r), (Vec ((y * r - z * q) / n) ((z * p - x * r) / n) ((x * q - y * p) / n)).
    split; [unfold dot; cbn; field; exact Hn|].
    assert (Hx : x * n = p * (x * p + y * q + z * r) + (q * (x * q - y * p) - r * (z * p - x * r))) by (unfold n; ring).
    assert (Hy : y * n = q * (x * p + y * q + z * r) + (r * (y * r - z * q) - p * (x * q - y * p))) by (unfold n; ring).
    assert (Hz : z * n = r * (x * p + y * q + z * r) + (p * (z * p - x * r) - q * (y * r - z * q))) by (unfold n; ring).
    rewrite Ho, Rmult_0_r, Rplus_0_l in Hx, Hy, Hz.
    assert (Ex : x = q * ((x * q - y * p) / n) - r * ((z * p - x * r) / n)) by (apply (Rmult_eq_reg_r n); [rewrite Hx at 1; field; exact Hn|exact Hn]).
    assert (Ey : y = r * ((y * r - z * q) / n) - p * ((x * q - y * p) / n)) by (apply (Rmult_eq_reg_r n); [rewrite Hy at 1; field; exact Hn|exact Hn]).
    assert (Ez : z = p * ((z * p - x * r) / n) - q * ((y * r - z * q) / n)) by (apply (Rmult_eq_reg_r n); [rewrite Hz at 1; field; exact Hn|exact Hn]).
    assert (E0 : p * ((y * r - z * q) / n) + q * ((z * p - x * r) / n) + r * ((x * q - y * p) / n) = 0) by (field; exact Hn).
    revert Ex Ey Ez E0. generalize ((y * r - z * q) / n) ((z * p - x * r) / n) ((x * q - y * p) / n).
    intros a b c Ex Ey Ez E0. clear - Ex Ey Ez E0. intro k. unfold vector_product. cbn [fold_right].
    dblade k; try dring.
    - transitivity z; [dring|]. rewrite Ez. dring.
    - transitivity (- y); [dring|]. rewrite Ey. dring.
    - transitivity x; [dring|]. rewrite Ex. dring.
    - transitivity (p * a + q * b + r * c); [rewrite E0; dring|dring]. }
  intros x y z. destruct (Req_dec x 0) as [Hx|Hx]; [destruct (Req_dec y 0) as [Hy|Hy]|].
  - apply (G x y z 1 0 0); [rewrite Hx; ring|lra].
  - apply (G x y z 1 0 0); [rewrite Hx; ring|lra].
  - apply (G x y z y (- x) 0); [ring|]. pose proof (Rsqr_pos_lt x Hx). unfold Rsqr in *. pose proof (Rle_0_sqr y). unfold Rsqr in *. lra.
Qed.

Definition grade_of (t : ty) : nat := match t with TVec => 1 | TBiv => 2 | TTri => 3 | _ => 0 end.
Lemma orthonormal : ForallOrdPairs (fun u v => dot u v = 0) [Vec 1 0 0; Vec 0 1 0; Vec 0 0 1].
Proof. repeat first [apply FOP_nil | apply FOP_cons | apply Forall_nil | apply Forall_cons]; unfold dot; cbn; ring. Qed.
Lemma blade_types : forall t (x : val R t), is_blade t = true -> blade_value (grade_of t) (den t x).
Proof.
  intros t x H. destruct t; try discriminate H.
  - destruct x as [[s]]. exists s, []. split; [reflexivity|]. split; [constructor|]. intro k; dblade k; dring.
  - exists 1, [x]. split; [reflexivity|]. split; [repeat constructor|]. intro k. unfold cscale. rewrite Rmult_1_l. symmetry. exact (product1 x k).
  - destruct x as [[p q r]]. destruct (biv_factors p q r) as (u & v & O & E). exists 1, [u; v].
    split; [reflexivity|]. split; [repeat constructor; exact O|]. intro k. unfold cscale. rewrite Rmult_1_l. exact (E k).
  - destruct x as [[s]]. exists s, [Vec 1 0 0; Vec 0 1 0; Vec 0 0 1]. split; [reflexivity|]. split; [exact orthonormal|].
    intro k; dblade k; dring.
Qed.

Lemma blade_trait : forall t, is_blade t = true <-> t <> TDub /\ exists n, (n <= 3)%nat /\ forall x : val R t, blade_value n (den t x).
Proof.
  intros t. split.
  - intros H. split; [intros ->; discriminate H|]. exists (grade_of t). split; [destruct t; cbn; lia|].
    intros x. apply blade_types, H.
  - intros (Ht & n & Hn & H).
    assert (G : forall k x, den t x k <> 0 -> grade k = n).
    { intros k x Hk. destruct (Nat.eq_dec (grade k) n) as [E|E]; [exact E|]. exfalso. apply Hk. exact (homogeneous n _ (H x) Hn k E). }
    clear H. destruct t; try reflexivity; exfalso; [apply Ht; reflexivity| | | | |].
    + pose proof (G bS (mkSpin (Sca 1) (Biv 1 1 1))) as A. pose proof (G bE12 (mkSpin (Sca 1) (Biv 1 1 1))) as B.
      cbn in A, B. specialize (A R1_neq_R0). specialize (B R1_neq_R0). lia.
    + pose proof (G bE1 (mkImsp (Vec 1 1 1) (Tri 1))) as A. pose proof (G bE123 (mkImsp (Vec 1 1 1) (Tri 1))) as B.
      cbn in A, B. specialize (A R1_neq_R0). specialize (B R1_neq_R0). lia.
    + pose proof (G bS (mkCplx (Sca 1) (Tri 1))) as A. pose proof (G bE123 (mkCplx (Sca 1) (Tri 1))) as B.
      cbn in A, B. specialize (A R1_neq_R0). specialize (B R1_neq_R0). lia.
    + pose proof (G bE1 (mkDplx (Vec 1 1 1) (Biv 1 1 1))) as A. pose proof (G bE12 (mkDplx (Vec 1 1 1) (Biv 1 1 1))) as B.
      cbn in A, B. specialize (A R1_neq_R0). specialize (B R1_neq_R0). lia.
    + pose proof (G bS (mkMvec (Sca 1) (Vec 1 1 1) (Biv 1 1 1) (Tri 1))) as A. pose proof (G bE123 (mkMvec (Sca 1) (Vec 1 1 1) (Biv 1 1 1) (Tri 1))) as B.
      cbn in A, B. specialize (A R1_neq_R0). specialize (B R1_neq_R0). lia.
Qed.

(** ** Overload sets *)
Lemma unambiguous : forall f t, (length (candidates f t) <= 1)%nat.
Proof. destruct f, t; cbn; lia. Qed.
Lemma offered : forall f t, candidates f t = [] <->
  (t = TDub /\ (f = f_neg \/ f = f_add_same \/ f = f_sub_same \/ f = f_extract)) \/
  ((t = TCplx \/ t = TDplx) /\ (f = f_fixed \/ f = f_enote)).
Proof. destruct f, t; cbn; split; intros H; try discriminate H; try reflexivity; intuition discriminate. Qed.
Lemma inverse_unambiguous : forall t, (length (inverse_named t) <= 1)%nat /\ (length (inverse_deduced t) <= 1)%nat.
Proof. destruct t; cbn; lia. Qed.
Lemma inverse_offered : forall t,
  (inverse_named t <> [] <-> t = TSca \/ t = TVec \/ t = TBiv \/ t = TTri \/ t = TCplx \/ t = TMvec) /\
  (inverse_deduced t <> [] <-> t = TSca \/ t = TVec \/ t = TBiv \/ t = TTri).
Proof. destruct t; cbn; split; split; intros H; try (elim H; reflexivity); try discriminate; intuition discriminate. Qed.
