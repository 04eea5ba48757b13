(** * Proofs of the algebra properties (statements in Prop_Algebra.v). *)

Require Import Reals Lra Bool List Setoid Morphisms Lia.
Require Import Verif.Num Verif.Types Verif.Priv Verif.OpsUni Verif.OpsAdd
  Verif.OpsSub Verif.OpsMul Verif.Const Verif.Func Verif.SpecCl Verif.RealInst
  Verif.AlgTac Verif.AlgMul Verif.AlgFacts Verif.AlgSpec.
Import ListNotations.
Local Open Scope R_scope.

Lemma den_grades : forall t (x : val R t) k, has_grade t (grade k) = false -> den t x k = 0.
Proof.
  intros t x k; destruct t; dvals; dblade k; cbv -[Rplus Rminus Rmult Ropp R R0 R1 IZR];
  intro; try discriminate; ring.
Qed.

Lemma add_table : forall a b c,
  addTy a b = Some c <->
  (a <> TDub /\ b <> TDub /\ c <> TDub /\
   forall n, has_grade c n = has_grade a n || has_grade b n).
Proof.
  intros a b c; split.
  - intros E; destruct a, b; try discriminate E; injection E as <-;
    repeat split; try discriminate; intros [|[|[|[|n]]]]; reflexivity.
  - intros (Ha & Hb & Hc & Hg).
    pose proof (Hg 0%nat) as g0; pose proof (Hg 1%nat) as g1;
    pose proof (Hg 2%nat) as g2; pose proof (Hg 3%nat) as g3; clear Hg.
    destruct a; try congruence; destruct b; try congruence;
    destruct c; try discriminate; try congruence; reflexivity.
Qed.
Lemma sub_table : forall a b, subTy a b = addTy a b.
Proof. intros a b; destruct a, b; reflexivity. Qed.
Lemma add_table_comm : forall a b, addTy a b = addTy b a.
Proof. intros a b; destruct a, b; reflexivity. Qed.

(** Lifting statements about existing overloads. *)
Lemma if_exists_impl : forall F (P Q : forall t, val F t -> Prop) o z,
  (forall t (z : val F t), P t z -> Q t z) -> if_exists P o z -> if_exists Q o z.
Proof. intros F P Q [t|] z Himp Hz; [apply Himp; exact Hz | exact I]. Qed.

Lemma sub_ok : forall a b (x : val R a) (y : val R b),
  backward_sub a b = false ->
  if_exists (fun c z => ceq (den c z) (csub (den a x) (den b y))) (subTy a b) (sub a b x y).
Proof. intros a b x y Hb; generalize (sub_den a b x y); rewrite Hb; exact (fun h => h). Qed.

Lemma sub_add_back : forall a b (x : val R a) (y : val R b),
  backward_sub a b = false ->
  if_exists (fun c d =>
      if_exists (fun e s => ceq (den e s) (den a x)) (addTy c b) (add c b d y))
    (subTy a b) (sub a b x y).
Proof.
  intros a b x y Hb; apply (if_exists_impl _ (fun c z => ceq (den c z) (csub (den a x) (den b y))));
    [| apply sub_ok; assumption].
  intros c d Hd; apply (if_exists_impl _ (fun e s => ceq (den e s) (cadd (den c d) (den b y))));
    [| apply add_den].
  intros e s Hs; rewrite Hs, Hd; intro k; unfold cadd, csub; ring.
Qed.

Lemma sub_wrong_sign : forall a b (x : val R a) (y : val R b),
  backward_sub a b = true ->
  if_exists (fun c z => ceq (den c z) (csub (den b y) (den a x))) (subTy a b) (sub a b x y).
Proof. intros a b x y Hb; generalize (sub_den a b x y); rewrite Hb; exact (fun h => h). Qed.

Lemma sub_refuted :
  ~ (forall a b (x : val R a) (y : val R b),
       if_exists (fun c z => ceq (den c z) (csub (den a x) (den b y))) (subTy a b) (sub a b x y)).
Proof.
  intros H. specialize (H TSpin TSca (mkSpin (Sca 3) (Biv 0 0 0)) (Sca 1) bS).
  cbv -[Rplus Rminus Rmult Ropp R R0 R1 IZR] in H. lra.
Qed.
Lemma sub_refuted_each : forall a b, backward_sub a b = true ->
  exists (x : val R a) (y : val R b),
   if_exists (fun c z => ~ ceq (den c z) (csub (den a x) (den b y))) (subTy a b) (sub a b x y).
Proof.
  intros a b Hb; destruct a, b; try discriminate Hb;
  [ exists (Biv 1 0 0), (Sca 1) | exists (Biv 1 0 0), (Vec 1 0 0)
  | exists (Tri 1), (Sca 1) | exists (Tri 1), (Vec 1 0 0)
  | exists (mkSpin (Sca 3) (Biv 0 0 0)), (Sca 1)
  | exists (mkSpin (Sca 1) (Biv 0 0 0)), (Biv 1 0 0) ];
  (intro H;
   pose proof (H bS) as h0; pose proof (H bE1) as h1; pose proof (H bE23) as h2;
   pose proof (H bE123) as h3;
   cbv -[Rplus Rminus Rmult Ropp R R0 R1 IZR] in h0, h1, h2, h3; lra).
Qed.

(** ** Associativity, distributivity, unit, scalars *)
Lemma mul_assoc : forall a b c (x : val R a) (y : val R b) (z : val R c),
  ceq (den _ (mul (mulTy a b) c (mul a b x y) z)) (den _ (mul a (mulTy b c) x (mul b c y z))).
Proof. intros; rewrite !mul_den, gp_assoc; reflexivity. Qed.

Lemma mul_add_distr_l : forall a b c (x : val R a) (y : val R b) (z : val R c),
  if_exists (fun d s =>
      if_exists (fun e r => ceq (den _ (mul a d x s)) (den e r))
        (addTy (mulTy a b) (mulTy a c)) (add _ _ (mul a b x y) (mul a c x z)))
    (addTy b c) (add b c y z).
Proof.
  intros; eapply if_exists_impl; [| apply add_den].
  intros d s Hs; eapply if_exists_impl; [| apply add_den].
  intros e r Hr; rewrite Hr, !mul_den, Hs, gp_add_r; reflexivity.
Qed.
Lemma mul_add_distr_r : forall a b c (x : val R a) (y : val R b) (z : val R c),
  if_exists (fun d s =>
      if_exists (fun e r => ceq (den _ (mul d a s x)) (den e r))
        (addTy (mulTy b a) (mulTy c a)) (add _ _ (mul b a y x) (mul c a z x)))
    (addTy b c) (add b c y z).
Proof.
  intros; eapply if_exists_impl; [| apply add_den].
  intros d s Hs; eapply if_exists_impl; [| apply add_den].
  intros e r Hr; rewrite Hr, !mul_den, Hs, gp_add_l; reflexivity.
Qed.
(** The sums on the right of the distributive laws exist whenever the one on
    the left does. *)
Lemma distr_exists : forall a b c, addTy b c <> None ->
  addTy (mulTy a b) (mulTy a c) <> None /\ addTy (mulTy b a) (mulTy c a) <> None.
Proof. intros a b c H; destruct a, b, c; split; (discriminate || (exfalso; apply H; reflexivity)). Qed.

Lemma mul_one : forall t (x : val R t),
  ceq (den _ (mul TDub t 1 x)) (den t x) /\ ceq (den _ (mul t TDub x 1)) (den t x) /\
  ceq (den _ (mul TSca t c_e0 x)) (den t x) /\ ceq (den _ (mul t TSca x c_e0)) (den t x).
Proof.
  intros t x.
  assert (H1 : ceq (den TDub 1) cone) by (intro k; dblade k; dring).
  assert (H2 : ceq (den TSca c_e0) cone) by (intro k; dblade k; dring).
  rewrite !mul_den, H1, H2, !gp_one_l, !gp_one_r; repeat split; reflexivity.
Qed.

Lemma mul_scalar_moves : forall a b (r : R) (x : val R a) (y : val R b),
  let rx := mul TDub a r x in let ry := mul TDub b r y in
  ceq (den _ (mul _ b rx y)) (den _ (mul TDub _ r (mul a b x y))) /\
  ceq (den _ (mul a _ x ry)) (den _ (mul TDub _ r (mul a b x y))) /\
  ceq (den _ (mul _ TDub (mul a b x y) r)) (den _ (mul TDub _ r (mul a b x y))).
Proof.
  intros a b r x y rx ry; subst rx ry; rewrite !mul_den.
  assert (Hr : forall c, ceq (gp (den TDub r) c) (cscale r c)) by (intros c k; dblade k; dring).
  assert (Hr' : forall c, ceq (gp c (den TDub r)) (cscale r c)) by (intros c k; dblade k; dring).
  rewrite !Hr, !Hr', gp_scale_l, gp_scale_r; repeat split; reflexivity.
Qed.

(** ** Central types *)
Definition central (t : ty) : bool :=
  match t with TDub | TSca | TTri | TCplx => true | _ => false end.
Lemma central_den : forall z (w : val R z), central z = true ->
  forall k, grade k = 1%nat \/ grade k = 2%nat -> den z w k = 0.
Proof.
  intros z w Hz k Hk; destruct z; try discriminate Hz; dvals; dblade k; cbn in Hk;
  try lia; dring.
Qed.
Lemma central_commutes c d :
  (forall k, grade k = 1%nat \/ grade k = 2%nat -> c k = 0) -> ceq (gp c d) (gp d c).
Proof.
  intros Hc.
  assert (h1 := Hc bE1 (or_introl eq_refl)); assert (h2 := Hc bE2 (or_introl eq_refl));
  assert (h3 := Hc bE3 (or_introl eq_refl)); assert (h4 := Hc bE12 (or_intror eq_refl));
  assert (h5 := Hc bE13 (or_intror eq_refl)); assert (h6 := Hc bE23 (or_intror eq_refl)).
  unfold bE1, bE2, bE3, bE12, bE13, bE23 in *.
  intros k; dblade k; cbv -[Rplus Rminus Rmult Ropp R R0 R1 IZR];
  rewrite ?h1, ?h2, ?h3, ?h4, ?h5, ?h6; ring.
Qed.
Lemma mul_central : forall z t (w : val R z) (x : val R t), central z = true ->
  ceq (den _ (mul z t w x)) (den _ (mul t z x w)).
Proof.
  intros z t w x Hz; rewrite !mul_den; apply central_commutes; intros k Hk.
  apply central_den; assumption.
Qed.
Lemma central_converse : forall m : MultiVector R,
  (forall v : Vector R, ceq (den _ (mul TMvec TVec m v)) (den _ (mul TVec TMvec v m))) ->
  exists z : ComPlex R, ceq (den TMvec m) (den TCplx z).
Proof.
  intros m H; exists (mkCplx (mvSca m) (mvTri m)).
  pose proof (H (Vec 1 0 0)) as H1; pose proof (H (Vec 0 1 0)) as H2.
  pose proof (H1 bE12) as a1; pose proof (H1 bE13) as a2; pose proof (H1 bE2) as a3;
  pose proof (H1 bE3) as a4; pose proof (H2 bE12) as a5; pose proof (H2 bE3) as a6; clear H H1 H2.
  dvals; cbv -[Rplus Rminus Rmult Ropp R R0 R1 IZR] in a1, a2, a3, a4, a5, a6.
  intro k; dblade k; cbv -[Rplus Rminus Rmult Ropp R R0 R1 IZR]; try reflexivity; lra.
Qed.

(** ** Basis *)
Lemma expansion : forall m : MultiVector R,
  m = add_Mvec_Mvec (to_mv TSca (mul_Dub_Sca (sca_0 (mvSca m)) c_e0))
     (add_Mvec_Mvec (to_mv TVec (add_Vec_Vec (mul_Dub_Vec (vec_0 (mvVec m)) c_e1)
                      (add_Vec_Vec (mul_Dub_Vec (vec_1 (mvVec m)) c_e2)
                                   (mul_Dub_Vec (vec_2 (mvVec m)) c_e3))))
     (add_Mvec_Mvec (to_mv TBiv (add_Biv_Biv (mul_Dub_Biv (biv_0 (mvBiv m)) c_e23)
                      (add_Biv_Biv (mul_Dub_Biv (biv_1 (mvBiv m)) c_e31)
                                   (mul_Dub_Biv (biv_2 (mvBiv m)) c_e12))))
                    (to_mv TTri (mul_Dub_Tri (tri_0 (mvTri m)) c_e123)))).
Proof.
  intros m; apply (den_inj TMvec); dvals; intro k; dblade k; dring.
Qed.

(** Sum of eight multiples of the basis elements. *)
Definition lincomb (s x y z p q r t : R) : MultiVector R :=
  add_Mvec_Mvec (to_mv TSca (mul_Dub_Sca s c_e0))
 (add_Mvec_Mvec (to_mv TVec (mul_Dub_Vec x c_e1))
 (add_Mvec_Mvec (to_mv TVec (mul_Dub_Vec y c_e2))
 (add_Mvec_Mvec (to_mv TVec (mul_Dub_Vec z c_e3))
 (add_Mvec_Mvec (to_mv TBiv (mul_Dub_Biv p c_e23))
 (add_Mvec_Mvec (to_mv TBiv (mul_Dub_Biv q c_e31))
 (add_Mvec_Mvec (to_mv TBiv (mul_Dub_Biv r c_e12))
                (to_mv TTri (mul_Dub_Tri t c_e123)))))))).
Lemma lincomb_is : forall s x y z p q r t, lincomb s x y z p q r t = mv_of_8 s x y z p q r t.
Proof. intros; apply (den_inj TMvec); intro k; dblade k; dring. Qed.
Lemma lincomb_unique : forall m : MultiVector R,
  exists s x y z p q r t, m = lincomb s x y z p q r t /\
   forall s' x' y' z' p' q' r' t', m = lincomb s' x' y' z' p' q' r' t' ->
    s' = s /\ x' = x /\ y' = y /\ z' = z /\ p' = p /\ q' = q /\ r' = r /\ t' = t.
Proof.
  intros m; dvals.
  do 8 eexists; split; [rewrite lincomb_is; reflexivity|].
  intros s' x' y' z' p' q' r' t' E; rewrite lincomb_is in E.
  injection E as ? ? ? ? ? ? ? ?; subst; repeat split.
Qed.

(** ** Duals *)
Lemma dual_is_mul : forall t (x : val R t),
  ceq (den _ (dual t x)) (den _ (mul TTri t c_e123 x)) /\
  ceq (den _ (dual t x)) (den _ (mul t TTri x c_e123)).
Proof.
  intros t x.
  assert (H : ceq (den TTri c_e123) (cbasis bE123)) by (intro k; dblade k; dring).
  rewrite dual_den, !mul_den, H, <- pseudo_central; split; reflexivity.
Qed.
Lemma dual_dual : forall t (x : val R t),
  ceq (den _ (dual _ (dual t x))) (den _ (neg t x)).
Proof. intros t x; rewrite !dual_den, neg_den; intro k; dblade k; dring. Qed.

(** ** Identities *)
Lemma zero_den : forall t, ceq (den t (zero t)) czero.
Proof. intros t k; destruct t; dblade k; cbv -[Rplus Rminus Rmult Ropp R R0 R1 IZR]; ring. Qed.
Lemma zero_add : forall t u (x : val R u),
  if_exists (fun c s => ceq (den c s) (den u x)) (addTy t u) (add t u (zero t) x) /\
  if_exists (fun c s => ceq (den c s) (den u x)) (addTy u t) (add u t x (zero t)).
Proof.
  intros t u x; split; (eapply if_exists_impl; [| apply add_den]);
  intros c s Hs; rewrite Hs, zero_den; intro k; unfold cadd, czero; ring.
Qed.
Lemma gp_zero_l a : ceq (gp czero a) czero.
Proof. intros k; dblade k; dring. Qed.
Lemma gp_zero_r a : ceq (gp a czero) czero.
Proof. intros k; dblade k; dring. Qed.
Lemma zero_mul : forall t u (x : val R u),
  ceq (den _ (mul t u (zero t) x)) czero /\ ceq (den _ (mul u t x (zero t))) czero.
Proof.
  intros t u x; rewrite !mul_den, zero_den, gp_zero_l, gp_zero_r; split; reflexivity.
Qed.
Lemma one_den : forall t, has_grade t 0 = true -> ceq (den t (one t)) cone.
Proof.
  intros t Ht k; destruct t; try discriminate Ht; dblade k;
  cbv -[Rplus Rminus Rmult Ropp R R0 R1 IZR]; ring.
Qed.
Lemma one_mul : forall t u (x : val R u), has_grade t 0 = true ->
  ceq (den _ (mul t u (one t) x)) (den u x) /\ ceq (den _ (mul u t x (one t))) (den u x).
Proof.
  intros t u x Ht; rewrite !mul_den, one_den, gp_one_l, gp_one_r by assumption;
  split; reflexivity.
Qed.
Lemma one_not_identity : forall t, has_grade t 0 = false ->
  exists x : MultiVector R, ~ ceq (den _ (mul t TMvec (one t) x)) (den TMvec x).
Proof.
  intros t Ht; exists (one TMvec); intros H; pose proof (H bS) as h.
  destruct t; try discriminate Ht; cbv -[Rplus Rminus Rmult Ropp R R0 R1 IZR] in h; lra.
Qed.
(** A type without a scalar part cannot hold an identity at all. *)
Lemma no_identity : forall t, has_grade t 0 = false ->
  ~ exists o : val R t, forall x : MultiVector R,
     ceq (den _ (mul t TMvec o x)) (den TMvec x).
Proof.
  intros t Ht [o H].
  pose proof (H (mv_of_Dub 1) bS) as h; rewrite (mul_den t TMvec o _ bS) in h.
  assert (E : gp (den t o) (den TMvec (mv_of_Dub 1)) bS = den t o bS) by dring.
  rewrite E, den_grades in h by exact Ht.
  cbv -[Rplus Rminus Rmult Ropp R R0 R1 IZR] in h; lra.
Qed.

(** ** (Anti)automorphisms *)
Global Instance crev_proper : Proper (ceq ==> ceq) crev.
Proof. intros a b; apply (lin_ext _ crev_linear). Qed.
Global Instance codd_proper : Proper (ceq ==> ceq) codd.
Proof. intros a b; apply (lin_ext _ codd_linear). Qed.
Global Instance cdir_proper : Proper (ceq ==> ceq) cdir.
Proof. intros a b; apply (lin_ext _ cdir_linear). Qed.
Lemma reverse_mul : forall a b (x : val R a) (y : val R b),
  ceq (den _ (reverse _ (mul a b x y))) (den _ (mul b a (reverse b y) (reverse a x))).
Proof. intros; rewrite reverse_den, !mul_den, !reverse_den; apply crev_gp. Qed.
Lemma oddverse_mul : forall a b (x : val R a) (y : val R b), 
  ceq (den _ (oddverse _ (mul a b x y))) (den _ (mul a b (oddverse a x) (oddverse b y))).
Proof. intros; rewrite oddverse_den, !mul_den, !oddverse_den; apply codd_gp. Qed.
Lemma dirverse_mul : forall a b (x : val R a) (y : val R b), 
  ceq (den _ (dirverse _ (mul a b x y))) (den _ (mul b a (dirverse b y) (dirverse a x))).
Proof. intros; rewrite dirverse_den, !mul_den, !dirverse_den; apply cdir_gp. Qed.

Lemma grade1_vector : forall i, grade i = 1%nat -> exists v : Vector R, ceq (cbasis i) (den TVec v).
Proof.
  intros i Hi; dblade i; try discriminate Hi;
  [exists c_e1 | exists c_e2 | exists c_e3]; intro k; dblade k; dring.
Qed.
Lemma swap_proper : forall a a' b b', ceq a a' -> ceq b b' -> ceq (gp b a) (gp b' a').
Proof. intros; apply gp_ceq; assumption. Qed.

Lemma reverse_unique : forall f, is_linear f ->
  (forall a b, ceq (f (gp a b)) (gp (f b) (f a))) ->
  (forall v : Vector R, ceq (f (den TVec v)) (den TVec v)) ->
  forall t (x : val R t), ceq (den t (reverse t x)) (f (den t x)).
Proof.
  intros f Lf Mf Vf t x; rewrite reverse_den; symmetry.
  apply (inv_unique f crev Lf crev_linear (fun a b => gp b a)).
  - intros a a' b b' Ha Hb; exact (swap_proper _ _ _ _ Ha Hb).
  - exact Mf.
  - exact crev_gp.
  - intros i Hi; destruct (grade1_vector i Hi) as [v Hv].
    transitivity (f (den TVec v)); [apply (lin_ext _ Lf); exact Hv|].
    rewrite Vf, <- Hv; intro k; dblade i; try discriminate Hi; dblade k; dring.
Qed.
Lemma dirverse_unique : forall f, is_linear f ->
  (forall a b, ceq (f (gp a b)) (gp (f b) (f a))) ->
  (forall v : Vector R, ceq (f (den TVec v)) (copp (den TVec v))) ->
  forall t (x : val R t), ceq (den t (dirverse t x)) (f (den t x)).
Proof.
  intros f Lf Mf Vf t x; rewrite dirverse_den; symmetry.
  apply (inv_unique f cdir Lf cdir_linear (fun a b => gp b a)).
  - intros a a' b b' Ha Hb; exact (swap_proper _ _ _ _ Ha Hb).
  - exact Mf.
  - exact cdir_gp.
  - intros i Hi; destruct (grade1_vector i Hi) as [v Hv].
    transitivity (f (den TVec v)); [apply (lin_ext _ Lf); exact Hv|].
    rewrite Vf, <- Hv; intro k; dblade i; try discriminate Hi; dblade k; dring.
Qed.
Lemma oddverse_unique : forall f, is_linear f ->
  (forall a b, ceq (f (gp a b)) (gp (f a) (f b))) ->
  (forall v : Vector R, ceq (f (den TVec v)) (copp (den TVec v))) ->
  forall t (x : val R t), ceq (den t (oddverse t x)) (f (den t x)).
Proof.
  intros f Lf Mf Vf t x; rewrite oddverse_den; symmetry.
  apply (inv_unique f codd Lf codd_linear gp).
  - exact gp_ceq.
  - exact Mf.
  - exact codd_gp.
  - intros i Hi; destruct (grade1_vector i Hi) as [v Hv].
    transitivity (f (den TVec v)); [apply (lin_ext _ Lf); exact Hv|].
    rewrite Vf, <- Hv; intro k; dblade i; try discriminate Hi; dblade k; dring.
Qed.
Lemma involutions_on_vectors : forall v : Vector R,
  reverse TVec v = v /\ oddverse TVec v = neg TVec v /\ dirverse TVec v = neg TVec v.
Proof. intros v; dvals; repeat split. Qed.

(** ** magSq *)
Lemma magSq_scalar_part : forall t (x : val R t),
  magSq t x = den _ (mul t t x (reverse t x)) bS /\
  magSq t x = den _ (mul t t (reverse t x) x) bS.
Proof.
  intros t x; rewrite (mul_den t t x _ bS), (mul_den t t _ x bS), magSq_den.
  rewrite (gp_ceq _ _ _ _ (ceq_refl _) (reverse_den t x) bS),
          (gp_ceq _ _ _ _ (reverse_den t x) (ceq_refl _) bS).
  rewrite cnorm2_rev_r, cnorm2_rev_l; split; reflexivity.
Qed.
Lemma magSq_nonneg : forall t (x : val R t), 0 <= magSq t x.
Proof. intros t x; rewrite magSq_den; apply cnorm2_nonneg. Qed.
Lemma magSq_zero_iff : forall t (x : val R t), magSq t x = 0 <-> x = zero t.
Proof.
  intros t x; split.
  - intros Hm; rewrite magSq_den in Hm; apply cnorm2_zero in Hm.
    apply den_inj; rewrite zero_den; exact Hm.
  - intros ->; rewrite magSq_elems; destruct t; dring.
Qed.

Lemma basis_table :
  (* vectors square to +1, bivectors and the trivector to -1 *)
  ceq (den _ (mul TVec TVec c_e1 c_e1)) (den TSca c_e0) /\
  ceq (den _ (mul TVec TVec c_e2 c_e2)) (den TSca c_e0) /\
  ceq (den _ (mul TVec TVec c_e3 c_e3)) (den TSca c_e0) /\
  ceq (den _ (mul TBiv TBiv c_e23 c_e23)) (den TSca (neg TSca c_e0)) /\
  ceq (den _ (mul TBiv TBiv c_e31 c_e31)) (den TSca (neg TSca c_e0)) /\
  ceq (den _ (mul TBiv TBiv c_e12 c_e12)) (den TSca (neg TSca c_e0)) /\
  ceq (den _ (mul TTri TTri c_e123 c_e123)) (den TSca (neg TSca c_e0)) /\
  (* products of distinct vectors, both orders *)
  ceq (den _ (mul TVec TVec c_e1 c_e2)) (den TBiv c_e12) /\
  ceq (den _ (mul TVec TVec c_e2 c_e3)) (den TBiv c_e23) /\
  ceq (den _ (mul TVec TVec c_e3 c_e1)) (den TBiv c_e31) /\
  ceq (den _ (mul TVec TVec c_e2 c_e1)) (den TBiv (neg TBiv c_e12)) /\
  ceq (den _ (mul TVec TVec c_e3 c_e2)) (den TBiv (neg TBiv c_e23)) /\
  ceq (den _ (mul TVec TVec c_e1 c_e3)) (den TBiv (neg TBiv c_e31)) /\
  (* the trivector, all cyclic orders *)
  ceq (den _ (mul TSpin TVec (mul TVec TVec c_e1 c_e2) c_e3)) (den TTri c_e123) /\
  ceq (den _ (mul TSpin TVec (mul TVec TVec c_e2 c_e3) c_e1)) (den TTri c_e123) /\
  ceq (den _ (mul TSpin TVec (mul TVec TVec c_e3 c_e1) c_e2)) (den TTri c_e123) /\
  (* the three bivectors *)
  ceq (den _ (mul TSpin TBiv (mul TBiv TBiv c_e23 c_e31) c_e12)) (den TSca c_e0) /\
  (* the scalar is the identity *)
  (forall t (x : val R t), ceq (den _ (mul TSca t c_e0 x)) (den t x)).
Proof.
  repeat (split; [intro k; dblade k; dring|]).
  intros t x; apply (mul_one t x).
Qed.
Lemma backward_pairs : forall a b,
  (a, b) = (TBiv, TSca) \/ (a, b) = (TBiv, TVec) \/ (a, b) = (TTri, TSca) \/
  (a, b) = (TTri, TVec) \/ (a, b) = (TSpin, TSca) \/ (a, b) = (TSpin, TBiv) <->
  backward_sub a b = true.
Proof.
  intros a b; split.
  - intros [H|[H|[H|[H|[H|H]]]]]; injection H as -> ->; reflexivity.
  - intros H; destruct a, b; try discriminate H; tauto.
Qed.
Lemma sub_wrong_sign_pairs : forall a b (x : val R a) (y : val R b),
  (a, b) = (TBiv, TSca) \/ (a, b) = (TBiv, TVec) \/ (a, b) = (TTri, TSca) \/
  (a, b) = (TTri, TVec) \/ (a, b) = (TSpin, TSca) \/ (a, b) = (TSpin, TBiv) ->
  if_exists (fun c z => ceq (den c z) (csub (den b y) (den a x))) (subTy a b) (sub a b x y).
Proof. intros a b x y H; apply sub_wrong_sign, backward_pairs, H. Qed.
Lemma sub_ok_pairs : forall a b (x : val R a) (y : val R b),
  ~ ((a, b) = (TBiv, TSca) \/ (a, b) = (TBiv, TVec) \/ (a, b) = (TTri, TSca) \/
     (a, b) = (TTri, TVec) \/ (a, b) = (TSpin, TSca) \/ (a, b) = (TSpin, TBiv)) ->
  if_exists (fun c z => ceq (den c z) (csub (den a x) (den b y)) /\
      if_exists (fun e s => ceq (den e s) (den a x)) (addTy c b) (add c b z y))
    (subTy a b) (sub a b x y).
Proof.
  intros a b x y H; rewrite backward_pairs in H; apply Bool.not_true_is_false in H.
  pose proof (sub_ok a b x y H) as H1; pose proof (sub_add_back a b x y H) as H2.
  revert H1 H2; generalize (sub a b x y); destruct (subTy a b); intros z H1 H2;
    [split; assumption | exact I].
Qed.
Lemma mul_central_types : forall z t (w : val R z) (x : val R t),
  z = TDub \/ z = TSca \/ z = TTri \/ z = TCplx ->
  ceq (den _ (mul z t w x)) (den _ (mul t z x w)).
Proof. intros z t w x H; apply mul_central; destruct H as [-> | [-> | [-> | -> ]]]; reflexivity. Qed.
Lemma dual_is_mul3 : forall t (x : val R t),
  ceq (den _ (dual t x)) (den _ (mul TTri t c_e123 x)) /\
  ceq (den _ (dual t x)) (den _ (mul t TTri x c_e123)) /\
  ceq (den _ (dual t x)) (gp (cbasis bE123) (den t x)).
Proof.
  intros t x; destruct (dual_is_mul t x) as [H1 H2]; repeat split; try assumption; apply dual_den.
Qed.
Lemma dual_grades :
  dualTy TSca = TTri /\ dualTy TVec = TBiv /\ dualTy TBiv = TVec /\ dualTy TTri = TSca /\
  forall t n, (n <= 3)%nat -> has_grade (dualTy t) n = has_grade t (3 - n).
Proof.
  repeat split; intros t n Hn; destruct n as [|[|[|[|n]]]]; try lia; destruct t; reflexivity.
Qed.
Lemma magSq_posdef : forall t (x : val R t),
  0 <= magSq t x /\ (magSq t x = 0 <-> x = zero t).
Proof. intros t x; split; [apply magSq_nonneg | apply magSq_zero_iff]. Qed.
Lemma zero_laws : forall t u (x : val R u),
  if_exists (fun c s => ceq (den c s) (den u x)) (addTy t u) (add t u (zero t) x) /\
  if_exists (fun c s => ceq (den c s) (den u x)) (addTy u t) (add u t x (zero t)) /\
  ceq (den _ (mul t u (zero t) x)) czero /\ ceq (den _ (mul u t x (zero t))) czero.
Proof.
  intros t u x; destruct (zero_add t u x); destruct (zero_mul t u x); repeat split; assumption.
Qed.
