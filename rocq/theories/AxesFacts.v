(** * The same values in another frame: proofs. *)

Require Import Reals ZArith Lra Lia List Bool.
From Flocq Require Import Core.
Require Import Verif.Num Verif.Types Verif.Priv Verif.OpsUni Verif.OpsAdd Verif.OpsSub Verif.OpsMul Verif.Const
  Verif.Validity Verif.Func Verif.SpecCl Verif.SpecExp Verif.SpecFunc Verif.RealInst Verif.AlgTac Verif.AlgMul
  Verif.AlgFacts Verif.AlgSpec Verif.AlgThm Verif.FuncFacts Verif.FuncThm Verif.ExpFacts Verif.ExpThm Verif.LogThm Verif.SpecProg Verif.SpecAxes.
Local Open Scope R_scope.

(** ** By parts *)
Definition turnB (s : Spinor R) (b : BiVector R) : BiVector R := let r := rotate s (axis b) in Biv (vec_0 r) (vec_1 r) (vec_2 r).
Definition turnM (s : Spinor R) (m : MultiVector R) : MultiVector R := mkMvec (mvSca m) (rotate s (mvVec m)) (turnB s (mvBiv m)) (mvTri m).
Definition turn (s : Spinor R) (t : ty) : val R t -> val R t :=
  match t return val R t -> val R t with
  | TDub | TSca | TTri | TCplx => fun v => v
  | TVec => rotate s
  | TBiv => turnB s
  | TSpin => fun v => mkSpin (spinSca v) (turnB s (spinBiv v))
  | TImsp => fun v => mkImsp (rotate s (imspVec v)) (imspTri v)
  | TDplx => fun v => mkDplx (rotate s (dplxVec v)) (turnB s (dplxBiv v))
  | TMvec => turnM s
  end.
Lemma vec_turn : forall s (v : Vector R), ceq (den TVec (rotate s v)) (cturn s (den TVec v)).
Proof.
  intros s [[x y z]] k. destruct s as [[[a]] [[p q r]]]. dblade k; cbv -[Rplus Rminus Rmult Ropp R R0 R1 IZR]; ring.
Qed.
Lemma biv_turn : forall s (b : BiVector R), ceq (den TBiv (turnB s b)) (cturn s (den TBiv b)).
Proof.
  intros s [[x y z]] k. unfold turnB. destruct s as [[[a]] [[p q r]]]. dblade k; cbv -[Rplus Rminus Rmult Ropp R R0 R1 IZR]; ring.
Qed.
Lemma by_parts : forall m : MultiVector R, ceq (den TMvec m)
  (cadd (cadd (cscale (sca_0 (mvSca m)) cone) (den TVec (mvVec m))) (cadd (den TBiv (mvBiv m)) (cscale (tri_0 (mvTri m)) (cbasis bE123)))).
Proof. intros m k. destruct m as [[[a]] [[x y z]] [[u v w]] [[t]]]. dblade k; dring. Qed.
Lemma mv_turn : forall s t (v : val R t), to_mv t (turn s t v) = turnM s (to_mv t v).
Proof.
  intros s t v. unfold turn, turnM, turnB. destruct s as [[[a]] [[p q r]]]. destruct t; dvals; cbv -[Rplus Rminus Rmult Ropp R R0 R1 IZR]; repeat f_equal; ring.
Qed.

Section Unit.
Context (s : Spinor R) (Hs : magSq TSpin s = 1).
Let S := den TSpin s.
Lemma s_left : ceq (gp (crev S) S) cone.
Proof.
  destruct (unmixed_rev TSpin s eq_refl) as [A _]. rewrite magSq_den in Hs. unfold S. rewrite A, Hs. intros k. unfold cscale. ring.
Qed.
Lemma s_right : ceq (gp S (crev S)) cone.
Proof.
  destruct (unmixed_rev TSpin s eq_refl) as [_ A]. rewrite magSq_den in Hs. unfold S. rewrite A, Hs. intros k. unfold cscale. ring.
Qed.
Lemma turn_ceq : forall a b, ceq a b -> ceq (cturn s a) (cturn s b).
Proof. intros a b H. unfold cturn. rewrite H. reflexivity. Qed.
Lemma turn_gp : forall a b, ceq (gp (cturn s a) (cturn s b)) (cturn s (gp a b)).
Proof.
  intros a b. unfold cturn. fold S. rewrite !gp_assoc. rewrite <- (gp_assoc (crev S) S). rewrite s_left, gp_one_l. reflexivity.
Qed.
Lemma turn_add : forall a b, ceq (cturn s (cadd a b)) (cadd (cturn s a) (cturn s b)).
Proof. intros a b. unfold cturn. rewrite gp_add_r, gp_add_l. reflexivity. Qed.
Lemma turn_sub : forall a b, ceq (cturn s (csub a b)) (csub (cturn s a) (cturn s b)).
Proof. intros a b. unfold cturn. rewrite gp_sub_r, gp_sub_l. reflexivity. Qed.
Lemma turn_scale : forall r a, ceq (cturn s (cscale r a)) (cscale r (cturn s a)).
Proof. intros r a. unfold cturn. rewrite gp_scale_r, gp_scale_l. reflexivity. Qed.
Lemma turn_opp : forall a, ceq (cturn s (copp a)) (copp (cturn s a)).
Proof. intros a. rewrite (turn_ceq _ _ (copp_scale a)), turn_scale. symmetry. apply copp_scale. Qed.
Lemma turn_one : ceq (cturn s cone) cone.
Proof. unfold cturn. rewrite gp_one_r. exact s_right. Qed.
Lemma turn_I : ceq (cturn s (cbasis bE123)) (cbasis bE123).
Proof. unfold cturn. rewrite <- pseudo_central, gp_assoc. fold S. rewrite s_right, gp_one_r. reflexivity. Qed.
Lemma odd_S : ceq (codd S) S.
Proof. intros k. unfold S. destruct s as [[[a]] [[x y z]]]. dblade k; dring. Qed.
Lemma odd_rev : ceq (codd (crev S)) (crev S).
Proof. intros k. unfold S. destruct s as [[[a]] [[x y z]]]. dblade k; dring. Qed.
Lemma turn_rev : forall a, ceq (crev (cturn s a)) (cturn s (crev a)).
Proof. intros a. unfold cturn. rewrite !crev_gp, crev_crev, gp_assoc. reflexivity. Qed.
Lemma turn_odd : forall a, ceq (codd (cturn s a)) (cturn s (codd a)).
Proof. intros a. unfold cturn. rewrite !codd_gp. fold S. rewrite odd_S, odd_rev. reflexivity. Qed.
Lemma dir_as : forall a, ceq (cdir a) (crev (codd a)).
Proof. intros a k. dblade k; unfold cdir, crev, codd; cbn; ring. Qed.
Lemma turn_dir : forall a, ceq (cdir (cturn s a)) (cturn s (cdir a)).
Proof. intros a. rewrite (dir_as (cturn s a)). rewrite (turn_ceq _ _ (dir_as a)). rewrite <- turn_rev. intros k. unfold crev. rewrite (turn_odd a k). reflexivity. Qed.
Lemma turn_norm2 : forall a, cnorm2 (cturn s a) = cnorm2 a.
Proof.
  intros a. pose proof (unmixed_rev TSpin s eq_refl) as U. rewrite magSq_den in Hs. unfold cturn. rewrite cnorm2_gp_r.
  - rewrite cnorm2_rev, cnorm2_gp_l by exact U. rewrite Hs. ring.
  - destruct U as [U1 U2]. split; rewrite ?crev_crev, ?cnorm2_rev; assumption.
Qed.
Lemma turn_norm : forall a, cnorm (cturn s a) = cnorm a.
Proof. intros a. unfold cnorm. rewrite turn_norm2. reflexivity. Qed.

Lemma mvec_turn : forall m : MultiVector R, ceq (den TMvec (turnM s m)) (cturn s (den TMvec m)).
Proof.
  intros m. rewrite (turn_ceq _ _ (by_parts m)), (by_parts (turnM s m)). rewrite !turn_add, !turn_scale, turn_one, turn_I.
  cbn [turnM mvSca mvVec mvBiv mvTri]. rewrite vec_turn, biv_turn. reflexivity.
Qed.
Lemma seen_turn : forall t (v : val R t), seen s t v (turn s t v).
Proof.
  intros t v. unfold seen. rewrite <- (to_mv_den t (turn s t v)), mv_turn, mvec_turn. apply turn_ceq. apply to_mv_den.
Qed.
Lemma seen_is : forall t (v v' : val R t), seen s t v v' -> v' = turn s t v.
Proof. intros t v v' H. apply den_inj. eapply ceq_trans; [exact H|]. apply ceq_sym, seen_turn. Qed.
Lemma seen_exists : forall t (v : val R t), exists v', seen s t v v' /\ forall w, seen s t v w -> w = v'.
Proof. intros t v. exists (turn s t v). split; [apply seen_turn|]. intros w H. apply seen_is, H. Qed.

(** ** Operators *)
Lemma seen_mul : forall a b x x' y y', seen s a x x' -> seen s b y y' -> seen s _ (mul a b x y) (mul a b x' y').
Proof. intros a b x x' y y' H K. unfold seen in *. rewrite mul_den, H, K, turn_gp. apply turn_ceq. symmetry. apply mul_den. Qed.
Lemma seen_uni : forall u t x x', seen s t x x' -> seen s _ (uni u t x) (uni u t x').
Proof.
  intros u t x x' H. unfold seen in *. destruct u; cbn [uni uniTy].
  - rewrite neg_den, (turn_ceq _ _ (neg_den t x)), turn_opp. intros k. unfold copp. rewrite (H k). reflexivity.
  - rewrite reverse_den, (turn_ceq _ _ (reverse_den t x)), <- turn_rev. intros k. unfold crev. rewrite (H k). reflexivity.
  - rewrite oddverse_den, (turn_ceq _ _ (oddverse_den t x)), <- turn_odd. intros k. unfold codd. rewrite (H k). reflexivity.
  - rewrite dirverse_den, (turn_ceq _ _ (dirverse_den t x)), <- turn_dir. intros k. unfold cdir. rewrite (H k). reflexivity.
  - rewrite dual_den, (turn_ceq _ _ (dual_den t x)), <- turn_gp, turn_I. rewrite H. reflexivity.
  - rewrite to_mv_den, (turn_ceq _ _ (to_mv_den t x)). exact H.
  - rewrite !magSq_den. rewrite (cnorm2_ceq _ _ H), turn_norm2.
    assert (D : forall c : R, ceq (den TDub c) (cscale c cone)) by (intros c k; dblade k; dring).
    apply ceq_sym. eapply ceq_trans; [apply turn_ceq, D|]. eapply ceq_trans; [apply turn_scale|]. eapply ceq_trans; [|apply ceq_sym, D].
    intros k. unfold cscale. rewrite (turn_one k). reflexivity.
Qed.
Definition seeno (o : option ty) : oval R o -> oval R o -> Prop := match o with Some t => seen s t | None => fun _ _ => True end.
Lemma seen_add : forall a b x x' y y', seen s a x x' -> seen s b y y' -> seeno _ (add a b x y) (add a b x' y').
Proof.
  intros a b x x' y y' H K. unfold seen in *. pose proof (add_den a b x y) as A. pose proof (add_den a b x' y') as B.
  revert A B. generalize (add a b x y) (add a b x' y'). destruct (addTy a b) as [c|]; [|intros; exact I]. cbn [if_exists seeno oval]. intros z z' A B. unfold seen. rewrite B, (turn_ceq _ _ A), turn_add.
  intros k. unfold cadd. rewrite (H k), (K k). reflexivity.
Qed.
Lemma seen_sub : forall a b x x' y y', seen s a x x' -> seen s b y y' -> seeno _ (sub a b x y) (sub a b x' y').
Proof.
  intros a b x x' y y' H K. unfold seen in *. pose proof (sub_den a b x y) as A. pose proof (sub_den a b x' y') as B.
  revert A B. generalize (sub a b x y) (sub a b x' y'). destruct (subTy a b) as [c|]; [|intros; exact I]. cbn [if_exists seeno oval]. intros z z' A B. unfold seen. rewrite B, (turn_ceq _ _ A).
  destruct (backward_sub a b); rewrite turn_sub; intros k; unfold csub; rewrite (H k), (K k); reflexivity.
Qed.
Lemma seen_oval : forall o x y, seeno o x y -> alike_result (seen s) (some_val o x) (some_val o y).
Proof. intros [t|] x y H; cbn [some_val]; constructor. exact H. Qed.
Lemma seen_eval : forall p p', alike (seen s) p p' -> alike_result (seen s) (eval p) (eval p').
Proof.
  intros p p' H. induction H as [t x y Hxy|u p q H IH|p q p' q' Hp IHp Hq IHq|p q p' q' Hp IHp Hq IHq|p q p' q' Hp IHp Hq IHq]; cbn [eval].
  - constructor. exact Hxy.
  - destruct IH as [|t x y K]; constructor. apply seen_uni, K.
  - destruct IHp as [|a x x' K], IHq as [|b y y' K']; cbn [bind2]; constructor. apply seen_mul; assumption.
  - destruct IHp as [|a x x' K], IHq as [|b y y' K']; cbn [bind2]; try constructor. apply seen_oval, seen_add; assumption.
  - destruct IHp as [|a x x' K], IHq as [|b y y' K']; cbn [bind2]; try constructor. apply seen_oval, seen_sub; assumption.
Qed.
End Unit.
