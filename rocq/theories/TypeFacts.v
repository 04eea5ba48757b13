(** * Storage, subscripts, constructors and sign changes: proofs. *)

Require Import ZArith NArith List Bool Lia.
Require Import Verif.Num Verif.Types Verif.Priv Verif.OpsUni Verif.OpsAdd Verif.SpecTypes
  Verif.Rel.
Import ListNotations.

Section Sub.
Context {F : Type} (nan : F).

Ltac sidx i :=
  destruct (N.eq_dec i 0) as [->|?]; [|destruct (N.eq_dec i 1) as [->|?];
  [|destruct (N.eq_dec i 2) as [->|?]; [|destruct (N.eq_dec i 3) as [->|?];
  [|destruct (N.eq_dec i 4) as [->|?]; [|destruct (N.eq_dec i 5) as [->|?];
  [|destruct (N.eq_dec i 6) as [->|?]; [|destruct (N.eq_dec i 7) as [->|?]]]]]]]].

Lemma sub_in_range : forall t (x : val F t) i, t <> TDub -> is_size i ->
  (N.to_nat i < length (elems t x))%nat ->
  subscript nan t x i = nth_error (elems t x) (N.to_nat i).
Proof.
  intros t x i Ht _ Hi. destruct t; [now elim Ht|..]; clear Ht; dvs; cbn [elems length app arr1_list
    arr3_list scaData vecData bivData triData spinSca spinBiv imspVec imspTri cplxSca cplxTri dplxVec
    dplxBiv mvSca mvVec mvBiv mvTri at0 at30 at31 at32] in *;
    sidx i; try reflexivity; exfalso; lia.
Qed.

Lemma sub_out_of_range : forall t (x : val F t) i, t <> TDub -> t <> TMvec -> is_size i ->
  (length (elems t x) <= N.to_nat i)%nat -> subscript nan t x i = Some nan.
Proof.
  intros t x i Ht Hm _ Hi. destruct t; [now elim Ht|..|now elim Hm]; clear Ht Hm; dvs;
    cbn [elems length app arr1_list
    arr3_list scaData vecData bivData triData spinSca spinBiv imspVec imspTri cplxSca cplxTri dplxVec
    dplxBiv mvSca mvVec mvBiv mvTri at0 at30 at31 at32] in *;
    cbn [subscript]; unfold sub_Sca, sub_Vec, sub_Biv, sub_Tri, sub_Spin, sub_Imsp, sub_Cplx, sub_Dplx;
    repeat match goal with |- context [(i <? ?n)%N] => destruct (N.ltb_spec i n); [exfalso; lia|] end;
    reflexivity.
Qed.

Lemma sub_mvec_out : forall (x : MultiVector F) i, (8 <= i)%N ->
  sub_Mvec x i = Some (tri_0 (mvTri x)).
Proof.
  intros x i Hi. unfold sub_Mvec.
  repeat match goal with |- context [(i <? ?n)%N] => destruct (N.ltb_spec i n); [exfalso; lia|] end.
  reflexivity.
Qed.

Lemma sub_total : forall t (x : val F t) i, t <> TDub -> is_size i -> subscript nan t x i <> None.
Proof.
  intros t x i Ht Hi.
  destruct (Nat.lt_ge_cases (N.to_nat i) (length (elems t x))) as [L|L].
  - rewrite sub_in_range by auto. apply nth_error_Some. exact L.
  - destruct t; try (rewrite sub_out_of_range by (auto; discriminate); discriminate).
    cbn [subscript]. rewrite sub_mvec_out; [discriminate|]. dvs. cbn in L. lia.
Qed.

Lemma assign_spec : forall (m : MultiVector F) i (v : F), is_size i ->
  exists m', assign_Mvec m i v = Some m' /\
    elems TMvec m' = replace (Nat.min (N.to_nat i) 7) v (elems TMvec m).
Proof.
  intros m i v _. dvs. sidx i; try (eexists; split; reflexivity).
  assert (8 <= i)%N by lia. replace (Nat.min (N.to_nat i) 7) with 7%nat by lia.
  unfold assign_Mvec.
  repeat match goal with |- context [(i <? ?n)%N] => destruct (N.ltb_spec i n); [exfalso; lia|] end.
  eexists; split; reflexivity.
Qed.

Lemma sub_mvec_nth : forall (m : MultiVector F) i,
  sub_Mvec m i = nth_error (elems TMvec m) (Nat.min (N.to_nat i) 7).
Proof.
  intros m i. dvs. sidx i; try reflexivity.
  assert (8 <= i)%N by lia. rewrite sub_mvec_out by assumption.
  replace (Nat.min (N.to_nat i) 7) with 7%nat by lia. reflexivity.
Qed.

Lemma nth_replace_same : forall (l : list F) i v, (i < length l)%nat ->
  nth_error (replace i v l) i = Some v.
Proof.
  induction l as [|y l IH]; intros [|i] v H; cbn in *; try lia; auto. apply IH. lia.
Qed.
Lemma nth_replace_other : forall (l : list F) i j v, i <> j ->
  nth_error (replace i v l) j = nth_error l j.
Proof.
  induction l as [|y l IH]; intros [|i] [|j] v H; cbn in *; auto; try congruence.
Qed.

Lemma assign_frame : forall (m : MultiVector F) i (v : F), is_size i ->
  exists m', assign_Mvec m i v = Some m' /\
    sub_Mvec m' i = Some v /\
    (forall j, is_size j -> Nat.min (N.to_nat j) 7 <> Nat.min (N.to_nat i) 7 ->
       sub_Mvec m' j = sub_Mvec m j).
Proof.
  intros m i v Hi. destruct (assign_spec m i v Hi) as (m' & E & El). exists m'.
  split; [exact E|]. rewrite !sub_mvec_nth, El. split.
  - apply nth_replace_same. assert (length (elems TMvec m) = 8%nat) by reflexivity. lia.
  - intros j _ Hj. rewrite !sub_mvec_nth, El. apply nth_replace_other. congruence.
Qed.
End Sub.

Section Gen.
Context {F : Type} `{RF : Ring0 F}.

Lemma to_mv_embedding : forall t (x : val F t), elems TMvec (to_mv t x) = embedding nzero t x.
Proof. intros t x; destruct t; dvs; reflexivity. Qed.

Lemma rebuild_blades : forall m : MultiVector F, mkMvec (mvSca m) (mvVec m) (mvBiv m) (mvTri m) = m.
Proof. intros []; reflexivity. Qed.

Lemma rebuild_sums : forall m : MultiVector F,
  add TSpin TImsp (mkSpin (mvSca m) (mvBiv m)) (mkImsp (mvVec m) (mvTri m)) = m /\
  add TImsp TSpin (mkImsp (mvVec m) (mvTri m)) (mkSpin (mvSca m) (mvBiv m)) = m /\
  add TCplx TDplx (mkCplx (mvSca m) (mvTri m)) (mkDplx (mvVec m) (mvBiv m)) = m /\
  add TDplx TCplx (mkDplx (mvVec m) (mvBiv m)) (mkCplx (mvSca m) (mvTri m)) = m /\
  mv_of_Cplx_Dplx (mkCplx (mvSca m) (mvTri m)) (mkDplx (mvVec m) (mvBiv m)) = m.
Proof. intros m; dvs; repeat split; reflexivity. Qed.

(** Changing signs twice. *)
Hypothesis opp_opp : forall a : F, nopp (nopp a) = a.
Ltac signs := intros t x; destruct t; dvs; cbv -[nopp]; rewrite ?opp_opp; reflexivity.

Lemma neg_neg : forall t (x : val F t), neg t (neg t x) = x. Proof. signs. Qed.
Lemma rev_rev : forall t (x : val F t), reverse t (reverse t x) = x. Proof. signs. Qed.
Lemma odd_odd : forall t (x : val F t), oddverse t (oddverse t x) = x. Proof. signs. Qed.
Lemma dir_dir : forall t (x : val F t), dirverse t (dirverse t x) = x. Proof. signs. Qed.
Lemma rev_odd : forall t (x : val F t), t <> TDub -> reverse t (oddverse t x) = dirverse t x.
Proof. intros t x _; revert t x; signs. Qed.
Lemma odd_rev : forall t (x : val F t), t <> TDub -> oddverse t (reverse t x) = dirverse t x.
Proof. intros t x _; revert t x; signs. Qed.
Lemma rev_dir : forall t (x : val F t), t <> TDub -> reverse t (dirverse t x) = oddverse t x.
Proof. intros t x _; revert t x; signs. Qed.
Lemma dir_rev : forall t (x : val F t), t <> TDub -> dirverse t (reverse t x) = oddverse t x.
Proof. intros t x _; revert t x; signs. Qed.
Lemma odd_dir : forall t (x : val F t), t <> TDub -> oddverse t (dirverse t x) = reverse t x.
Proof. intros t x _; revert t x; signs. Qed.
Lemma dir_odd : forall t (x : val F t), t <> TDub -> dirverse t (oddverse t x) = reverse t x.
Proof. intros t x _; revert t x; signs. Qed.
Lemma neg_rev : forall t (x : val F t), neg t (reverse t x) = reverse t (neg t x).
Proof. signs. Qed.
Lemma neg_odd : forall t (x : val F t), neg t (oddverse t x) = oddverse t (neg t x).
Proof. signs. Qed.
Lemma neg_dir : forall t (x : val F t), neg t (dirverse t x) = dirverse t (neg t x).
Proof. signs. Qed.

Lemma commute_all : forall t (x : val F t), t <> TDub ->
  neg t (reverse t x) = reverse t (neg t x) /\
  neg t (oddverse t x) = oddverse t (neg t x) /\
  neg t (dirverse t x) = dirverse t (neg t x) /\
  reverse t (oddverse t x) = oddverse t (reverse t x) /\
  reverse t (dirverse t x) = dirverse t (reverse t x) /\
  oddverse t (dirverse t x) = dirverse t (oddverse t x).
Proof.
  intros t x Ht. rewrite (rev_odd t x Ht), (odd_rev t x Ht), (rev_dir t x Ht), (dir_rev t x Ht),
    (odd_dir t x Ht), (dir_odd t x Ht). repeat split; [apply neg_rev|apply neg_odd|apply neg_dir].
Qed.
Lemma compose_all : forall t (x : val F t), t <> TDub ->
  reverse t (oddverse t x) = dirverse t x /\
  oddverse t (dirverse t x) = reverse t x /\
  dirverse t (reverse t x) = oddverse t x.
Proof. intros t x Ht. auto using rev_odd, odd_dir, dir_rev. Qed.
Lemma twice_all : forall t (x : val F t), t <> TDub ->
  neg t (neg t x) = x /\ reverse t (reverse t x) = x /\
  oddverse t (oddverse t x) = x /\ dirverse t (dirverse t x) = x.
Proof. intros t x _. auto using neg_neg, rev_rev, odd_odd, dir_dir. Qed.
End Gen.

Lemma eight_numbers : forall (F : Type) (RF : Ring0 F) (s x y z p q r t : F),
  (forall i, (i < 8)%N -> sub_Mvec (mv_of_8 s x y z p q r t) i = nth_error [s; x; y; z; p; q; r; t] (N.to_nat i)) /\
  (forall m : MultiVector F, elems TMvec m = [s; x; y; z; p; q; r; t] -> m = mv_of_8 s x y z p q r t).
Proof.
  intros F RF s x y z p q r t. split.
  - intros i Hi. assert (C : (i = 0 \/ i = 1 \/ i = 2 \/ i = 3 \/ i = 4 \/ i = 5 \/ i = 6 \/ i = 7)%N) by lia.
    repeat (destruct C as [->|C]; [reflexivity|]). rewrite C. reflexivity.
  - intros m H. destruct m as [[[a]] [[b c d]] [[e f g]] [[h]]]. cbn in H. injection H as -> -> -> -> -> -> -> ->. reflexivity.
Qed.
