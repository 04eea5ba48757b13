(** * Results that the library calls valid: proofs. *)

Require Import Reals ZArith List Bool Lra Lia.
From Flocq Require Import Core BinarySingleNaN Relative.
Require Import Verif.Num Verif.Types Verif.Priv Verif.OpsUni Verif.OpsAdd Verif.OpsSub
  Verif.OpsMul Verif.Const Verif.Validity Verif.Func Verif.SpecCl Verif.AlgTac Verif.SpecFunc
  Verif.Rel Verif.B64 Verif.B64Facts Verif.SpecValid Verif.ValidFacts
  Verif.SpecRound Verif.ArrErr Verif.IntFacts Verif.ErrFacts Verif.SpecAcc Verif.BoundFacts Verif.AccFacts Verif.AccThm Verif.SpecProg Verif.ProgFacts Verif.SpecExtent Verif.ExtentFacts Verif.SpecGrain.
Import ListNotations.
Local Open Scope R_scope.

(** ** Multiples *)
Lemma multiple_0 : forall g, multiple g 0.
Proof. intros g. exists 0%Z. ring. Qed.
Lemma multiple_mono : forall g g' r, (g' <= g)%Z -> multiple g r -> multiple g' r.
Proof.
  intros g g' r H [k E]. exists (k * 2 ^ (g - g'))%Z. rewrite E, mult_IZR, Rmult_assoc. f_equal.
  change 2%Z with (radix_val radix2). rewrite IZR_Zpower, <- bpow_plus by lia. f_equal. lia.
Qed.
Lemma multiple_opp : forall g r, multiple g r -> multiple g (- r).
Proof. intros g r [k E]. exists (- k)%Z. rewrite E, opp_IZR. ring. Qed.
Lemma multiple_plus : forall g h r s, multiple g r -> multiple h s -> multiple (Z.min g h) (r + s).
Proof.
  intros g h r s A C. apply (multiple_mono g (Z.min g h)) in A; [|lia]. apply (multiple_mono h (Z.min g h)) in C; [|lia].
  destruct A as [k A], C as [l C]. exists (k + l)%Z. rewrite A, C, plus_IZR. ring.
Qed.
Lemma multiple_mult : forall g h r s, multiple g r -> multiple h s -> multiple (g + h) (r * s).
Proof. intros g h r s [k A] [l C]. exists (k * l)%Z. rewrite A, C, mult_IZR, bpow_plus. ring. Qed.
Lemma multiple_rnd : forall g r, multiple g r -> multiple g (rnd64 r).
Proof.
  intros g r [k E]. destruct (Z.le_gt_cases (cexp radix2 fexp64 r) g) as [h|h].
  - rewrite round_generic; [exists k; exact E|apply valid_rnd_N|]. apply generic_format_F2R' with (Float radix2 k g); [rewrite E; reflexivity|]. intros _. exact h.
  - apply multiple_mono with (cexp radix2 fexp64 r); [lia|]. eexists. unfold round, F2R. cbn [Fnum Fexp]. reflexivity.
Qed.
Lemma multiple_size : forall g r, multiple g r -> r = 0 \/ bpow radix2 g <= Rabs r.
Proof.
  intros g r [k E]. destruct (Z.eq_dec k 0) as [h|h]; [left; rewrite E, h; ring|right].
  rewrite E, Rabs_mult, (Rabs_pos_eq (bpow radix2 g)) by apply bpow_ge_0. rewrite <- (Rmult_1_l (bpow radix2 g)) at 1.
  apply Rmult_le_compat_r; [apply bpow_ge_0|]. rewrite <- abs_IZR. apply IZR_le. lia.
Qed.
Lemma multiple_float : forall (v : f64) a, bpow radix2 a <= Rabs (b2r v) -> multiple (a - 52) (b2r v).
Proof.
  intros v a H. pose proof (generic_format_B2R 53 1024 v) as G. unfold generic_format in G.
  apply multiple_mono with (cexp radix2 fexp64 (b2r v)); [|eexists; exact G].
  assert (M : (a < mag radix2 (b2r v))%Z) by (apply mag_gt_bpow, H). unfold cexp, SpecFloat.fexp, SpecFloat.emin. lia.
Qed.

(** ** Operations *)
Lemma rnd_bpow : forall e, (-1074 <= e <= 1023)%Z -> rnd64 (bpow radix2 e) = bpow radix2 e.
Proof. intros e He. apply round_generic; [apply valid_rnd_N|apply fmt_bpow; lia]. Qed.
Lemma rnd_abs : forall r, rnd64 (Rabs r) = Rabs (rnd64 r).
Proof. intros r. apply round_NE_abs. exact (FLT_exp_valid (-1074) 53). Qed.
Definition Ring0_grid : Ring0 Z := {| nzero := 0%Z; none_ := 0%Z; nadd := Z.min; nsub := Z.min; nmul := Z.add; nopp := fun g => g |}.
Definition grained (x : f64) (g : Z) : Prop := is_finite x = true -> multiple g (B2R x).
Lemma grained_rel : ring_rel Ring0_B Ring0_grid grained.
Proof.
  split.
  - intros _. apply multiple_0.
  - intros _. exists 1%Z. change (b2r (none_ : f64) = 1 * bpow radix2 0). rewrite (proj2 one_ok). cbn. ring.
  - intros a b c d Ha Hb F. destruct (bplus_fin a b F) as (Fa & Fb & E). change (nadd a b) with (Bplus mode_NE a b). rewrite E. apply multiple_rnd, multiple_plus; auto.
  - intros a b c d Ha Hb F. destruct (bminus_fin a b F) as (Fa & Fb & E). change (nsub a b) with (Bminus mode_NE a b). rewrite E. apply multiple_rnd, (multiple_plus c d (b2r a) (- b2r b)); [auto|apply multiple_opp; auto].
  - intros a b c d Ha Hb F. destruct (bmult_fin a b F) as (Fa & Fb & E). change (nmul a b) with (Bmult mode_NE a b). rewrite E. apply multiple_rnd, multiple_mult; auto.
  - intros a c Ha F. change (nopp a) with (Bopp a) in *. rewrite is_finite_Bopp in F. rewrite B2R_Bopp. apply multiple_opp; auto.
Qed.
Lemma grid_leaf : forall g t (x : val f64 t), on_grid g t x -> relv grained t x (constv g t).
Proof.
  intros g t x H. unfold on_grid in H. rewrite <- (mapv_const f64 Z g t x). unfold relv. rewrite elems_mapv.
  induction H as [|v l Hv H IH]; constructor; [intros _; exact Hv|exact IH].
Qed.
Lemma grid_out : forall g t (x : val f64 t) (z : val Z t), all_finite t x -> relv grained t x z -> Forall (fun h => (g <= h)%Z) (elems t z) -> on_grid g t x.
Proof.
  intros g t x z. unfold all_finite, relv, on_grid. generalize (elems t x) (elems t z). intros l m F R.
  induction R as [|v h l m Hv R IH]; intros G; constructor; inversion F; inversion G; subst; [eapply multiple_mono; [|apply Hv]; assumption|apply IH; assumption].
Qed.
Ltac consts := cbv -[Z.min Z.add Z.mul Z.le]; repeat constructor; lia.
Lemma mul_grid_const : forall a b (g h : Z), (g <= 0)%Z -> (h <= 0)%Z -> Forall (fun z => (g + h <= z)%Z) (elems _ (@mul Z Ring0_grid a b (constv g a) (constv h b))).
Proof. intros a b g h Hg Hh. destruct a, b; consts. Qed.
Lemma add_grid_const : forall a b (g h : Z), (g <= 0)%Z -> (h <= 0)%Z ->
  if_exists (fun t r => Forall (fun z => (Z.min g h <= z)%Z) (elems t r)) (addTy a b) (@add Z Ring0_grid a b (constv g a) (constv h b)).
Proof. intros a b g h Hg Hh. destruct a, b; try exact Logic.I; consts. Qed.
Lemma sub_grid_const : forall a b (g h : Z), (g <= 0)%Z -> (h <= 0)%Z ->
  if_exists (fun t r => Forall (fun z => (Z.min g h <= z)%Z) (elems t r)) (subTy a b) (@sub Z Ring0_grid a b (constv g a) (constv h b)).
Proof. intros a b g h Hg Hh. destruct a, b; try exact Logic.I; consts. Qed.
Lemma magSq_grid_const : forall t (g : Z), (g <= 0)%Z -> (2 * g <= @magSq Z Ring0_grid t (constv g t))%Z.
Proof. intros t g Hg. destruct t; cbv -[Z.min Z.add Z.mul Z.le]; lia. Qed.

Lemma mul_grid : forall g h a b (x : val f64 a) (y : val f64 b), (g <= 0)%Z -> (h <= 0)%Z -> on_grid g a x -> on_grid h b y -> all_finite _ (mul a b x y) ->
  on_grid (g + h) _ (mul a b x y).
Proof.
  intros g h a b x y Hg Hh Gx Gy F. eapply grid_out; [exact F| |apply (mul_grid_const a b g h Hg Hh)].
  apply (mul_rel grained_rel); apply grid_leaf; assumption.
Qed.
Lemma add_grid : forall g h a b (x : val f64 a) (y : val f64 b), (g <= 0)%Z -> (h <= 0)%Z -> on_grid g a x -> on_grid h b y ->
  if_exists (fun t r => all_finite t r -> on_grid (Z.min g h) t r) (addTy a b) (add a b x y).
Proof.
  intros g h a b x y Hg Hh Gx Gy. pose proof (add_grid_const a b g h Hg Hh) as C.
  pose proof (add_rel grained_rel a b _ _ _ _ (grid_leaf g a x Gx) (grid_leaf h b y Gy)) as R.
  revert C R. generalize (add a b x y) (@add Z Ring0_grid a b (constv g a) (constv h b)). destruct (addTy a b) as [t|]; [|intros; exact Logic.I].
  cbn. intros r z C R F. eapply grid_out; eassumption.
Qed.
Lemma sub_grid : forall g h a b (x : val f64 a) (y : val f64 b), (g <= 0)%Z -> (h <= 0)%Z -> on_grid g a x -> on_grid h b y ->
  if_exists (fun t r => all_finite t r -> on_grid (Z.min g h) t r) (subTy a b) (sub a b x y).
Proof.
  intros g h a b x y Hg Hh Gx Gy. pose proof (sub_grid_const a b g h Hg Hh) as C.
  pose proof (sub_rel grained_rel a b _ _ _ _ (grid_leaf g a x Gx) (grid_leaf h b y Gy)) as R.
  revert C R. generalize (sub a b x y) (@sub Z Ring0_grid a b (constv g a) (constv h b)). destruct (subTy a b) as [t|]; [|intros; exact Logic.I].
  cbn. intros r z C R F. eapply grid_out; eassumption.
Qed.
Lemma magSq_grid : forall g t (x : val f64 t), (g <= 0)%Z -> on_grid g t x -> is_finite (magSq t x) = true -> multiple (2 * g) (B2R (magSq t x)).
Proof.
  intros g t x Hg G F. eapply multiple_mono; [apply (magSq_grid_const t g Hg)|].
  exact (magSq_rel grained_rel t _ _ (grid_leaf g t x G) F).
Qed.
Definition on1 (g : Z) (v : f64) : Prop := multiple g (B2R v).
Lemma uni_grid : forall g u t (x : val f64 t), u <> UMagSq -> on_grid g t x -> on_grid g _ (uni u t x).
Proof.
  intros g u t x Hu H. change (Forall (on1 g) (elems t x)) in H. change (Forall (on1 g) (elems _ (uni u t x))).
  assert (Z0 : on1 g (B754_zero false)) by apply multiple_0.
  assert (O : forall v, on1 g v -> on1 g (Bopp v)) by (intros v Hv; unfold on1; rewrite B2R_Bopp; apply multiple_opp, Hv).
  revert H Z0 O. generalize (on1 g). clear g. intros P H Z0 O.
  destruct u; try congruence; cbn [uniTy uni]; destruct t; dvs; cbv -[Bopp] in H |- *;
    repeat match goal with H : Forall _ (_ :: _) |- _ => apply Forall_cons_iff in H; destruct H as [? H] end; repeat apply Forall_cons; try apply Forall_nil; auto.
Qed.

(** ** Expressions *)
Lemma if_exists_comb : forall (P Q : forall t, val f64 t -> Prop) (A : Prop) o (x : oval f64 o),
  if_exists (fun t r => P t r -> A) o x -> (A -> if_exists (fun t r => P t r -> Q t r) o x) -> if_exists (fun t r => P t r -> Q t r) o x.
Proof. intros P Q A [t|] x H K; [|exact Logic.I]. cbn in *. intros Px. exact (K (H Px) Px). Qed.
Lemma gbound_neg : forall g F (p : prog F), (g <= 0)%Z -> (grid_bound g p <= 0)%Z.
Proof.
  intros g F p H. induction p as [t x|u p IH|p IHp q IHq|p IHp q IHq|p IHp q IHq]; cbn [grid_bound]; try lia. destruct u; lia.
Qed.
Lemma prog_grid : forall g p v, (g <= 0)%Z -> every_leaf (on_grid g) p -> eval p = Some v -> all_finite (projT1 v) (projT2 v) ->
  on_grid (grid_bound g p) (projT1 v) (projT2 v).
Proof.
  intros g p v Hg H E F.
  refine (proj2 (eval_ind (fun p t x => every_leaf (on_grid g) p -> all_finite t x -> on_grid (grid_bound g p) t x) _ _ _ _ _ p v E) H F); clear - Hg; cbn [every_leaf].
  - intros t x H _. exact H.
  - intros u p t x _ H Hl F. pose proof (gbound_neg g _ p Hg) as Hp. pose proof (uni_fin u t x F) as Fx.
    assert (D : u = UMagSq \/ u <> UMagSq) by (destruct u; (right; discriminate) || (left; reflexivity)). destruct D as [->|N].
    + cbn [grid_bound]. apply Forall_cons; [|constructor]. apply magSq_grid; [exact Hp|apply H; assumption|]. inversion F; assumption.
    + assert (Eb : grid_bound g (PUni u p) = grid_bound g p) by (destruct u; reflexivity || congruence). rewrite Eb in *. apply uni_grid; auto.
  - intros p q a b x y _ _ Hp Hq [L1 L2] F. cbn [grid_bound]. destruct (mul_fin a b x y F) as [Fx Fy].
    apply mul_grid; auto using gbound_neg.
  - intros p q a b x y _ _ Hp Hq. apply if_exists_imp. intros [L1 L2]. cbn [grid_bound].
    apply (if_exists_comb _ _ _ _ _ (add_fin a b x y)). intros [Fx Fy]. apply add_grid; auto using gbound_neg.
  - intros p q a b x y _ _ Hp Hq. apply if_exists_imp. intros [L1 L2]. cbn [grid_bound].
    apply (if_exists_comb _ _ _ _ _ (sub_fin a b x y)). intros [Fx Fy]. apply sub_grid; auto using gbound_neg.
Qed.

Lemma grid_valid : forall g t (x : val f64 t), (-1022 <= g)%Z -> all_finite t x -> on_grid g t x -> all_valid t x.
Proof.
  intros g t x Hg F G. unfold all_finite, on_grid, all_valid in *. rewrite Forall_forall in *. intros v Hv. split; [apply F, Hv|].
  destruct (multiple_size g (b2r v) (G v Hv)) as [E|E]; [left; exact E|right]. eapply Rle_trans; [|exact E]. apply bpow_le, Hg.
Qed.
Lemma within_finite : forall e t (x : val f64 t), within e t x -> all_finite t x.
Proof. intros e t x H. unfold all_finite, within in *. eapply Forall_impl; [|exact H]. intros v Hv. apply Hv. Qed.
Lemma leaf_and : forall F (P Q S : forall t, val F t -> Prop) (p : prog F), (forall t x, S t x -> P t x /\ Q t x) -> every_leaf S p -> every_leaf P p /\ every_leaf Q p.
Proof. intros F P Q S p K. induction p; cbn [every_leaf]; try tauto. apply K. Qed.
Lemma prog_valid : forall e g p v, (0 <= e)%Z -> (g <= 0)%Z -> every_leaf (fun t x => within e t x /\ on_grid g t x) p ->
  (exponent_bound e p <= 1023)%Z -> (-1022 <= grid_bound g p)%Z -> eval p = Some v ->
  all_valid (projT1 v) (projT2 v) /\ isValid (projT1 v) (projT2 v) = true.
Proof.
  intros e g p v He Hg H B C E. destruct (leaf_and _ _ _ _ p (fun t x K => K) H) as [Hw Hgr].
  pose proof (within_finite _ _ _ (prog_within e p v He Hw B E)) as F.
  assert (V : all_valid (projT1 v) (projT2 v)) by (eapply grid_valid; [exact C|exact F|]; apply prog_grid; assumption).
  split; [exact V|]. apply all_valid_isValid, V.
Qed.

(** ** One operation *)
Lemma sized_within : forall a t (x : val f64 t), sized a t x -> within a t x.
Proof. intros a t x H. unfold within, sized in *. eapply Forall_impl; [|exact H]. cbv beta. intros v Hv. tauto. Qed.
Lemma sized_grid : forall a t (x : val f64 t), sized a t x -> on_grid (- a - 52) t x.
Proof.
  intros a t x H. unfold on_grid, sized in *. eapply Forall_impl; [|exact H]. cbv beta. intros v (_ & [E|E] & _); [rewrite E; apply multiple_0|].
  apply multiple_float, E.
Qed.
Definition fine (t : ty) (x : val f64 t) : Prop := all_valid t x /\ isValid t x = true.
Lemma fine_of : forall e g t (x : val f64 t), (-1022 <= g)%Z -> within e t x -> (all_finite t x -> on_grid g t x) -> fine t x.
Proof.
  intros e g t x Hg W G. pose proof (within_finite _ _ _ W) as F. assert (V : all_valid t x) by (eapply grid_valid; [exact Hg|exact F|apply G, F]).
  split; [exact V|apply all_valid_isValid, V].
Qed.
Inductive lvl : Set := Leaf | Sum | Other.
Definition Ring0_lvl : Ring0 lvl :=
  {| nzero := Sum; none_ := Other;
     nadd := fun x y => match x, y with Other, _ | _, Other => Other | _, _ => Sum end;
     nsub := fun x y => match x, y with Other, _ | _, Other => Other | _, _ => Sum end;
     nmul := fun x y => match x, y with Leaf, Leaf => Sum | _, _ => Other end;
     nopp := fun x => x |}.
Definition levelled (a : Z) (v : f64) (l : lvl) : Prop :=
  is_finite v = true -> match l with
  | Leaf => b2r v = 0 \/ bpow radix2 (- a) <= Rabs (b2r v)
  | Sum => multiple (- (2 * a) - 52) (b2r v)
  | Other => True
  end.
Lemma levelled_sum : forall a v l, (0 <= a)%Z -> levelled a v l -> l <> Other -> is_finite v = true -> multiple (- (2 * a) - 52) (b2r v).
Proof.
  intros a v l Ha H N F. specialize (H F). destruct l; [|exact H|congruence]. destruct H as [E|E]; [rewrite E; apply multiple_0|].
  eapply multiple_mono; [|apply multiple_float, E]. lia.
Qed.
Lemma levelled_rel : forall a, (0 <= a)%Z -> (- 1022 <= - (2 * a))%Z -> ring_rel Ring0_B Ring0_lvl (levelled a).
Proof.
  intros a Ha Hb. split.
  - intros _. apply multiple_0.
  - intros _. exact Logic.I.
  - intros x y c d Hx Hy F. destruct (bplus_fin x y F) as (Fx & Fy & E). change (nadd x y) with (Bplus mode_NE x y).
    assert (G : c <> Other -> d <> Other -> multiple (- (2 * a) - 52) (b2r (Bplus mode_NE x y))).
    { intros Nc Nd. rewrite E. apply multiple_rnd. rewrite <- (Z.min_id (- (2 * a) - 52)). apply multiple_plus; eapply levelled_sum; eassumption. }
    destruct c, d; try exact Logic.I; apply G; congruence.
  - intros x y c d Hx Hy F. destruct (bminus_fin x y F) as (Fx & Fy & E). change (nsub x y) with (Bminus mode_NE x y).
    assert (G : c <> Other -> d <> Other -> multiple (- (2 * a) - 52) (b2r (Bminus mode_NE x y))).
    { intros Nc Nd. rewrite E. apply multiple_rnd. rewrite <- (Z.min_id (- (2 * a) - 52)). apply (multiple_plus _ _ (b2r x) (- b2r y)); [|apply multiple_opp]; eapply levelled_sum; eassumption. }
    destruct c, d; try exact Logic.I; apply G; congruence.
  - intros x y c d Hx Hy F. destruct (bmult_fin x y F) as (Fx & Fy & E). change (nmul x y) with (Bmult mode_NE x y).
    destruct c, d; try exact Logic.I. specialize (Hx Fx). specialize (Hy Fy). cbn [nmul Ring0_lvl] in *.
    destruct Hx as [Hx|Hx]; [rewrite E, Hx, Rmult_0_l, round_0 by apply valid_rnd_N; apply multiple_0|].
    destruct Hy as [Hy|Hy]; [rewrite E, Hy, Rmult_0_r, round_0 by apply valid_rnd_N; apply multiple_0|].
    apply multiple_float. rewrite E. rewrite <- rnd_abs, <- (rnd_bpow (- (2 * a))) by lia. apply rnd_mono. rewrite Rabs_mult.
    replace (- (2 * a))%Z with (- a + - a)%Z by lia. rewrite bpow_plus. apply Rmult_le_compat; try apply bpow_ge_0; assumption.
  - intros x c Hx F. change (nopp x) with (Bopp x) in *. rewrite is_finite_Bopp in F. specialize (Hx F).
    assert (E : b2r (Bopp x) = - b2r x) by apply B2R_Bopp.
    destruct c; cbn [nopp Ring0_lvl]; [|rewrite E; apply multiple_opp, Hx|exact Logic.I]. rewrite E, Rabs_Ropp. destruct Hx as [Hx|Hx]; [left; rewrite Hx; apply Ropp_0|right; exact Hx].
Qed.
Definition stated (l : lvl) : Prop := match l with Other => False | _ => True end.
Lemma mul_levels : forall s t, Forall stated (elems _ (@mul lvl Ring0_lvl s t (constv Leaf s) (constv Leaf t))).
Proof. intros s t. destruct s, t; cbv; repeat constructor. Qed.
Lemma sized_leaf : forall a t (x : val f64 t), sized a t x -> relv (levelled a) t x (constv Leaf t).
Proof.
  intros a t x H. unfold sized in H. rewrite <- (mapv_const f64 lvl Leaf t x). unfold relv. rewrite elems_mapv.
  induction H as [|v l (_ & Hv & _) H IH]; constructor; [intros _; exact Hv|exact IH].
Qed.
Lemma level_out : forall a t (x : val f64 t) (z : val lvl t), (0 <= a)%Z -> relv (levelled a) t x z -> Forall stated (elems t z) -> all_finite t x -> on_grid (- (2 * a) - 52) t x.
Proof.
  intros a t x z Ha. unfold all_finite, relv, on_grid. generalize (elems t x) (elems t z). intros l m R.
  induction R as [|v h l m Hv R IH]; intros G F; constructor; inversion F; inversion G; subst; [|apply IH; assumption].
  eapply levelled_sum; [exact Ha|exact Hv| |assumption]. intros E. subst. assumption.
Qed.
Lemma mul_fine : forall a s t (x : val f64 s) (y : val f64 t), (0 <= a <= 485)%Z -> sized a s x -> sized a t y -> fine _ (mul s t x y).
Proof.
  intros a s t x y Ha Hx Hy. apply fine_of with (a + a + 3)%Z (- (2 * a) - 52)%Z; [lia| |].
  - apply mul_within; try lia; apply sized_within; assumption.
  - apply level_out with (@mul lvl Ring0_lvl s t (constv Leaf s) (constv Leaf t)); [lia| |apply mul_levels].
    apply (mul_rel (levelled_rel a ltac:(lia) ltac:(lia))); apply sized_leaf; assumption.
Qed.
Lemma if_exists_two : forall (P Q S : forall t, val f64 t -> Prop) o (x : oval f64 o), (forall t r, P t r -> Q t r -> S t r) -> if_exists P o x -> if_exists Q o x -> if_exists S o x.
Proof. intros P Q S [t|] x H Hp Hq; [|exact Logic.I]. cbn in *. auto. Qed.
Lemma add_fine : forall a s t (x : val f64 s) (y : val f64 t), (0 <= a <= 970)%Z -> sized a s x -> sized a t y -> if_exists fine (addTy s t) (add s t x y).
Proof.
  intros a s t x y Ha Hx Hy. assert (N : (- a - 52 <= 0)%Z) by lia.
  eapply if_exists_two; [|exact (add_within a s t x y ltac:(lia) (sized_within _ _ _ Hx) (sized_within _ _ _ Hy))|
    exact (add_grid _ _ s t x y N N (sized_grid _ _ _ Hx) (sized_grid _ _ _ Hy))].
  cbv beta. intros r z W G. eapply fine_of; [|exact W|exact G]. lia.
Qed.
Lemma sub_fine : forall a s t (x : val f64 s) (y : val f64 t), (0 <= a <= 970)%Z -> sized a s x -> sized a t y -> if_exists fine (subTy s t) (sub s t x y).
Proof.
  intros a s t x y Ha Hx Hy. assert (N : (- a - 52 <= 0)%Z) by lia.
  eapply if_exists_two; [|exact (sub_within a s t x y ltac:(lia) (sized_within _ _ _ Hx) (sized_within _ _ _ Hy))|
    exact (sub_grid _ _ s t x y N N (sized_grid _ _ _ Hx) (sized_grid _ _ _ Hy))].
  cbv beta. intros r z W G. eapply fine_of; [|exact W|exact G]. lia.
Qed.

(** ** Lengths, directions and inverses *)
Lemma sized_cases : forall a t (x : val f64 t), sized a t x -> (forall g, on_grid g t x) \/ reaches (- a) t x.
Proof.
  intros a t x H. unfold sized, on_grid, reaches in *. induction H as [|v l (_ & [Z|Z] & _) _ IH]; [left; intros; constructor| |right; left; exact Z].
  destruct IH as [IH|IH]; [left|right; right; exact IH]. intros g. constructor; [rewrite Z; apply multiple_0|apply IH].
Qed.
Lemma magSq_from : forall a t (x : val f64 t), (0 <= a <= 510)%Z -> sized a t x -> reaches (- a) t x ->
  is_finite (magSq t x) = true /\ bpow radix2 (- (2 * a)) <= b2r (magSq t x) <= bpow radix2 (2 * a + 3).
Proof.
  intros a t x Ha S E. pose proof (sized_within _ _ _ S) as W. destruct (magSq_within a t x ltac:(lia) W) as [F B]. split; [exact F|].
  apply Rabs_le_inv in B. split; [|apply B]. apply Exists_exists in E. destruct E as (v & Hv & Lv).
  destruct (magSq_low t x v (within_finite _ _ _ W) Hv) as [_ L]. eapply Rle_trans; [|apply L, F].
  rewrite <- (rnd_bpow (- (2 * a))) by lia. apply rnd_mono. replace (- (2 * a))%Z with (- a + - a)%Z by lia. rewrite bpow_plus.
  rewrite <- (Rabs_pos_eq (b2r v * b2r v)) by apply Rle_0_sqr. rewrite Rabs_mult. apply Rmult_le_compat; try apply bpow_ge_0; exact Lv.
Qed.
Lemma number_fine : forall v : f64, fin v = true -> b2r v = 0 \/ bpow radix2 (-1022) <= Rabs (b2r v) -> fine TDub (v : val f64 TDub).
Proof.
  intros v F H. assert (V : all_valid TDub (v : val f64 TDub)) by (apply Forall_cons; [split; assumption|constructor]).
  split; [exact V|apply all_valid_isValid, V].
Qed.
Lemma magSq_none : forall t (x : val f64 t), all_finite t x -> (forall g, on_grid g t x) -> fin (magSq t x) = true -> b2r (magSq t x) = 0.
Proof.
  intros t x F G Q. pose proof (magSq_grid 0 t x ltac:(lia) (G 0%Z) Q) as M.
  assert (B : within (-600) t x).
  { unfold within, all_finite in *. rewrite Forall_forall in *. intros v Hv. split; [apply F, Hv|]. pose proof (G 2000%Z) as K. unfold on_grid in K. rewrite Forall_forall in K.
    destruct (multiple_size _ _ (K v Hv)) as [E|E]; [change (Rabs (b2r v) <= bpow radix2 (-600)); rewrite E, Rabs_R0; apply bpow_ge_0|].
    pose proof (abs_B2R_lt_emax 53 1024 v) as U. pose proof (bpow_le radix2 1024 2000 ltac:(lia)). unfold b2r in *. lra. }
  destruct (multiple_size _ _ M) as [E|E]; [exact E|exfalso].
  destruct (magSq_within (-500) t x ltac:(lia)) as [_ U].
  { unfold within in *. eapply Forall_impl; [|exact B]. intros v [A C]. split; [exact A|]. eapply Rle_trans; [exact C|apply bpow_le; lia]. }
  pose proof (bpow_lt radix2 (2 * -500 + 3) (2 * 0) ltac:(lia)). unfold b2r in *. lra.
Qed.
Lemma magSq_fine : forall a t (x : val f64 t), (0 <= a <= 510)%Z -> sized a t x -> fine TDub (magSq t x : val f64 TDub).
Proof.
  intros a t x Ha S. pose proof (sized_within _ _ _ S) as W. destruct (magSq_within a t x ltac:(lia) W) as [F B]. apply number_fine; [exact F|].
  destruct (sized_cases a t x S) as [Z|E]; [left; apply magSq_none; [eapply within_finite; exact W|exact Z|exact F]|right].
  destruct (magSq_from a t x Ha S E) as [_ [L _]]. eapply Rle_trans; [|eapply Rle_trans; [exact L|apply Rle_abs]]. apply bpow_le; lia.
Qed.
Lemma magnitude_from : forall a t (x : val f64 t), (0 <= a <= 510)%Z -> sized a t x -> reaches (- a) t x ->
  is_finite (magnitude t x) = true /\ bpow radix2 (- a) <= b2r (magnitude t x) <= bpow radix2 (a + 2).
Proof.
  intros a t x Ha S E. destruct (magSq_from a t x Ha S E) as (F & L & U). pose proof (within_finite _ _ _ (sized_within _ _ _ S)) as A.
  destruct (bsqrt_ok (magSq t x) F (proj1 (magSq_summand t x A))) as [G V].
  change (Bsqrt mode_NE (magSq t x)) with (magnitude t x) in G, V. split; [exact G|]. rewrite V.
  rewrite <- (rnd_bpow (- a)), <- (rnd_bpow (a + 2)) by lia. split; apply rnd_mono.
  - rewrite <- (sqrt_square (bpow radix2 (- a))) by apply bpow_ge_0. apply sqrt_le_1_alt. rewrite <- bpow_plus. replace (- a + - a)%Z with (- (2 * a))%Z by lia. exact L.
  - rewrite <- (sqrt_square (bpow radix2 (a + 2))) by apply bpow_ge_0. apply sqrt_le_1_alt. rewrite <- bpow_plus. eapply Rle_trans; [exact U|apply bpow_le; lia].
Qed.
Lemma magnitude_fine : forall a t (x : val f64 t), (0 <= a <= 510)%Z -> sized a t x -> fine TDub (magnitude t x : val f64 TDub).
Proof.
  intros a t x Ha S. pose proof (sized_within _ _ _ S) as W. pose proof (within_finite _ _ _ W) as A. destruct (magSq_within a t x ltac:(lia) W) as [F _].
  destruct (sized_cases a t x S) as [Z|E].
  - destruct (bsqrt_ok (magSq t x) F (proj1 (magSq_summand t x A))) as [G V]. rewrite (magSq_none t x A Z F), sqrt_0 in V.
    apply number_fine; [exact G|left]. rewrite round_0 in V by apply valid_rnd_N. exact V.
  - destruct (magnitude_from a t x Ha S E) as (G & L & _). apply number_fine; [exact G|right].
    eapply Rle_trans; [|eapply Rle_trans; [exact L|apply Rle_abs]]. apply bpow_le; lia.
Qed.
Lemma scale_fine : forall a l h t (c : f64) (x : val f64 t), sized a t x -> fin c = true -> bpow radix2 l <= b2r c <= bpow radix2 h ->
  (-1022 <= l - a)%Z -> (h + a <= 1023)%Z -> (- 1074 <= h + a)%Z -> fine t (scale t c x).
Proof.
  intros a l h t c x S F [L U] Hl Hh Hn. pose proof (bpow_gt_0 radix2 l) as P.
  assert (V : all_valid t (scale t c x)).
  { unfold all_valid, sized in *. rewrite elems_scale. rewrite Forall_forall in *. intros w Hw. apply in_map_iff in Hw. destruct Hw as (v & <- & Hv).
    destruct (S v Hv) as (Fv & Z & Uv). change (B2R v) with (b2r v) in *.
    assert (Q : Rabs (rnd64 (b2r c * b2r v)) <= bpow radix2 (h + a)).
    { rewrite <- rnd_abs. rewrite <- (rnd_bpow (h + a)) by lia. apply rnd_mono. rewrite Rabs_mult, bpow_plus.
      apply Rmult_le_compat; try apply Rabs_pos; [|exact Uv]. rewrite Rabs_pos_eq by lra. exact U. }
    destruct (bmult_ok c v F Fv) as [A C]; [eapply Rle_lt_trans; [exact Q|apply bpow_lt; lia]|].
    split; [exact A|]. unfold fin, b2r in *. rewrite C. destruct Z as [Z|Z]; [left; rewrite Z, Rmult_0_r; apply round_0, valid_rnd_N|right].
    rewrite <- rnd_abs. rewrite <- (rnd_bpow (-1022)) by lia. apply rnd_mono. rewrite Rabs_mult.
    apply Rle_trans with (bpow radix2 (l + - a)); [apply bpow_le; lia|]. rewrite bpow_plus.
    apply Rmult_le_compat; try apply bpow_ge_0; [|exact Z]. rewrite Rabs_pos_eq; lra. }
  split; [exact V|apply all_valid_isValid, V].
Qed.
Lemma one_over : forall (m : f64) l h, (-1023 <= l)%Z -> (l <= h <= 1022)%Z -> bpow radix2 l <= b2r m <= bpow radix2 h ->
  fin (Bdiv mode_NE (none_ : f64) m) = true /\ bpow radix2 (- h) <= b2r (Bdiv mode_NE (none_ : f64) m) <= bpow radix2 (- l).
Proof.
  intros m l h Hl Hh [L U]. pose proof (bpow_gt_0 radix2 l) as P. destruct one_ok as [F1 E1].
  assert (B : bpow radix2 (- h) <= rnd64 (/ b2r m) <= bpow radix2 (- l)).
  { split; [rewrite <- (rnd_bpow (- h)) by lia|rewrite <- (rnd_bpow (- l)) by lia]; apply rnd_mono; rewrite bpow_opp; apply Rinv_le; try apply bpow_gt_0; lra. }
  pose proof (bpow_gt_0 radix2 (- h)) as P2.
  destruct (bdiv_ok (none_ : f64) m F1) as [Fi Ei]; [lra| |].
  - rewrite E1. unfold Rdiv. rewrite Rmult_1_l, Rabs_pos_eq by lra. eapply Rle_lt_trans; [apply B|apply bpow_lt; lia].
  - rewrite E1 in Ei. unfold Rdiv in Ei. rewrite Rmult_1_l in Ei. split; [exact Fi|rewrite Ei; exact B].
Qed.
Lemma direction_fine : forall a t (x : val f64 t), (0 <= a <= 510)%Z -> sized a t x -> reaches (- a) t x -> fine t (direction t x).
Proof.
  intros a t x Ha S E. unfold direction, pairMagDirFrom. cbn [snd].
  change (nltb lim_denorm_min (magnitude t x)) with (Bltb (f64_lit 1 (-1074)) (magnitude t x)).
  change (ndiv 1%num (magnitude t x)) with (Bdiv mode_NE (none_ : f64) (magnitude t x)).
  destruct (magnitude_from a t x Ha S E) as (G & L & U).
  rewrite tiny_lt; [|exact G|eapply Rlt_le_trans; [|exact L]; apply bpow_lt; lia].
  destruct (one_over (magnitude t x) (- a) (a + 2) ltac:(lia) ltac:(lia) (conj L U)) as [Fi Bi].
  apply (scale_fine a (- (a + 2)) (- - a)); [exact S|exact Fi|exact Bi|lia|lia|lia].
Qed.
Definition okpart (a : Z) (v : f64) : Prop := is_finite v = true /\ (B2R v = 0 \/ bpow radix2 (- a) <= Rabs (B2R v)) /\ Rabs (B2R v) <= bpow radix2 a.
Lemma okpart_opp : forall a v, okpart a v -> okpart a (Bopp v).
Proof.
  intros a v (F & Z & U). unfold okpart. rewrite is_finite_Bopp, B2R_Bopp, Rabs_Ropp. split; [exact F|]. split; [|exact U].
  destruct Z as [Z|Z]; [left; rewrite Z; apply Ropp_0|right; exact Z].
Qed.
Lemma sized_reverse : forall a t (x : val f64 t), sized a t x -> sized a t (reverse t x).
Proof.
  intros a t x H. change (Forall (okpart a) (elems t x)) in H. change (Forall (okpart a) (elems t (reverse t x))).
  destruct t; dvs; cbv -[f64 Bopp okpart] in H |- *;
    repeat match goal with K : Forall _ (_ :: _) |- _ => inversion K; subst; clear K end;
    repeat (apply Forall_cons; [first [assumption | apply okpart_opp; assumption]|]); apply Forall_nil.
Qed.
Lemma inverse_fine : forall a t (x : val f64 t), (0 <= a <= 339)%Z -> sized a t x -> reaches (- a) t x ->
  fine t (scale t (ndiv none_ (magSq t x)) (reverse t x)).
Proof.
  intros a t x Ha S E. destruct (magSq_from a t x ltac:(lia) S E) as (F & L & U).
  destruct (one_over (magSq t x) (- (2 * a)) (2 * a + 3) ltac:(lia) ltac:(lia) (conj L U)) as [Fi Bi].
  apply (scale_fine a (- (2 * a + 3)) (- - (2 * a))); [|exact Fi|exact Bi|lia|lia|lia].
  apply sized_reverse, S.
Qed.

(** ** Values one size further out *)
Lemma lit_okpart : forall a m e, (Z.abs m <= 2 ^ 53)%Z -> (-1074 <= e <= 900)%Z -> m = 0%Z \/ (- a <= e)%Z /\ (e + 53 <= a)%Z -> okpart a (f64_lit m e).
Proof.
  intros a m e Hm He H. destruct (lit_of m e Hm He) as [F E]. split; [exact F|]. rewrite E. destruct H as [H|[H K]].
  - subst. rewrite Rmult_0_l, Rabs_R0. split; [left; reflexivity|apply bpow_ge_0].
  - split.
    + destruct (multiple_size e (IZR m * bpow radix2 e) (ex_intro _ m eq_refl)) as [Z|Z]; [left; exact Z|right]. eapply Rle_trans; [|exact Z]. apply bpow_le, H.
    + rewrite Rabs_mult, (Rabs_pos_eq (bpow radix2 e)), <- abs_IZR by apply bpow_ge_0. apply Rle_trans with (bpow radix2 (53 + e)); [|apply bpow_le; lia].
      rewrite bpow_plus. apply Rmult_le_compat_r; [apply bpow_ge_0|]. apply IZR_le in Hm. exact Hm.
Qed.
Lemma near_okpart : forall a e, (- 1022 <= e <= 900)%Z -> (- a <= e)%Z -> (e + 1 <= a)%Z -> okpart a (f64_lit 4503599627370497 (e - 52)).
Proof.
  intros a e He H K. destruct (lit_of 4503599627370497 (e - 52) ltac:(lia) ltac:(lia)) as [F E]. split; [exact F|]. rewrite E.
  change (e - 52)%Z with (e + -52)%Z. rewrite bpow_plus. assert (P := bpow_gt_0 radix2 e).
  assert (V : bpow radix2 (-52) * 4503599627370496 = 1) by (change 4503599627370496 with (bpow radix2 52); rewrite <- bpow_plus; reflexivity).
  assert (Q := bpow_gt_0 radix2 (-52)). rewrite Rabs_pos_eq by (apply Rmult_le_pos; [lra|apply Rmult_le_pos; lra]). split.
  - right. apply Rle_trans with (bpow radix2 e); [apply bpow_le, H|]. replace (4503599627370497 * (bpow radix2 e * bpow radix2 (-52))) with (bpow radix2 e * (bpow radix2 (-52) * 4503599627370496 + bpow radix2 (-52))) by ring.
    rewrite V. nra.
  - apply Rle_trans with (bpow radix2 (e + 1)); [|apply bpow_le, K]. rewrite bpow_plus. change (bpow radix2 1) with 2.
    replace (4503599627370497 * (bpow radix2 e * bpow radix2 (-52))) with (bpow radix2 e * (bpow radix2 (-52) * 4503599627370496 + bpow radix2 (-52))) by ring.
    rewrite V. apply Rmult_le_compat_l; lra.
Qed.
Definition far_x : Vector f64 := Vec (f64_lit 1 (-486)) (f64_lit 1 (-486)) (f64_lit 0 0).
Definition far_y : Vector f64 := Vec (f64_lit 4503599627370497 (-538)) (f64_lit (-1) (-486)) (f64_lit 0 0).
Lemma far_product : exists x y : Vector f64, sized 486 TVec x /\ sized 486 TVec y /\ isValid TSpin (mul TVec TVec x y) = false.
Proof.
  exists far_x, far_y. split; [|split].
  - unfold sized. change (Forall (okpart 486) [f64_lit 1 (-486); f64_lit 1 (-486); f64_lit 0 0]).
    apply Forall_cons; [apply lit_okpart; lia|apply Forall_cons; [apply lit_okpart; lia|apply Forall_cons; [apply lit_okpart; lia|constructor]]].
  - unfold sized. change (Forall (okpart 486) [f64_lit 4503599627370497 (-486 - 52); f64_lit (-1) (-486); f64_lit 0 0]).
    apply Forall_cons; [apply near_okpart; lia|apply Forall_cons; [apply lit_okpart; lia|apply Forall_cons; [apply lit_okpart; lia|constructor]]].
  - vm_compute. reflexivity.
Qed.
Lemma far_difference : exists x y : Scalar f64, sized 971 TSca x /\ sized 971 TSca y /\ isValid TSca x = true /\ isValid TSca y = true /\
  B2R (sca_0 (sub TSca TSca x y)) = B2R (sca_0 x) - B2R (sca_0 y) /\ isValid TSca (sub TSca TSca x y) = false.
Proof.
  exists (Sca (f64_lit 4503599627370497 (-971 - 52))), (Sca (f64_lit 1 (-971))). split; [|split; [|split; [|split; [|split]]]].
  - unfold sized. change (Forall (okpart 971) [f64_lit 4503599627370497 (-971 - 52)]). apply Forall_cons; [apply near_okpart; lia|constructor].
  - unfold sized. change (Forall (okpart 971) [f64_lit 1 (-971)]). apply Forall_cons; [apply lit_okpart; lia|constructor].
  - vm_compute. reflexivity.
  - vm_compute. reflexivity.
  - assert (E : sca_0 (sub TSca TSca (Sca (f64_lit 4503599627370497 (-971 - 52))) (Sca (f64_lit 1 (-971)))) = f64_lit 1 (-1023)) by (apply B2SF_inj; vm_compute; reflexivity).
    rewrite E. change (b2r (f64_lit 1 (-1023)) = b2r (f64_lit 4503599627370497 (-1023)) - b2r (f64_lit 1 (-971))). destruct (lit_of 1 (-1023) ltac:(lia) ltac:(lia)) as [_ E1]. destruct (lit_of 4503599627370497 (-1023) ltac:(lia) ltac:(lia)) as [_ E2].
    destruct (lit_of 1 (-971) ltac:(lia) ltac:(lia)) as [_ E3]. rewrite E1, E2, E3.
    replace (bpow radix2 (-971)) with (4503599627370496 * bpow radix2 (-1023)); [ring|].
    change 4503599627370496 with (bpow radix2 52). rewrite <- bpow_plus. reflexivity.
  - vm_compute. reflexivity.
Qed.
Lemma far_inverse : exists x : Vector f64, sized 341 TVec x /\ reaches (-341) TVec x /\ isValid TVec (inverse_Vec x) = false.
Proof.
  exists (Vec (f64_lit 1 (-341)) (f64_lit 1 341) (f64_lit 1 341)).
  assert (U : okpart 341 (f64_lit 1 341)).
  { destruct (lit_of 1 341 ltac:(lia) ltac:(lia)) as [F E]. split; [exact F|]. rewrite E, Rmult_1_l, Rabs_pos_eq by apply bpow_ge_0.
    split; [right; apply bpow_le; lia|apply Rle_refl]. }
  split; [|split].
  - unfold sized. change (Forall (okpart 341) [f64_lit 1 (-341); f64_lit 1 341; f64_lit 1 341]).
    apply Forall_cons; [apply lit_okpart; lia|apply Forall_cons; [exact U|apply Forall_cons; [exact U|constructor]]].
  - apply Exists_cons_tl, Exists_cons_hd. destruct U as (_ & [Z|Z] & _); [|exact Z]. destruct (lit_of 1 341 ltac:(lia) ltac:(lia)) as [_ E].
    rewrite E, Rmult_1_l in Z. pose proof (bpow_gt_0 radix2 341). lra.
  - vm_compute. reflexivity.
Qed.

(** ** Statements *)
Lemma sums_valid : forall a s t (x : val f64 s) (y : val f64 t), (0 <= a <= 970)%Z -> sized a s x -> sized a t y ->
  if_exists (fun u r => all_valid u r /\ isValid u r = true) (addTy s t) (add s t x y) /\
  if_exists (fun u r => all_valid u r /\ isValid u r = true) (subTy s t) (sub s t x y).
Proof. intros a s t x y Ha Hx Hy. split; [exact (add_fine a s t x y Ha Hx Hy)|exact (sub_fine a s t x y Ha Hx Hy)]. Qed.
Lemma inverses_valid : forall a, (0 <= a <= 339)%Z ->
  (forall x : Scalar f64, sized a TSca x -> reaches (- a) TSca x -> all_valid TSca (inverse_Sca x) /\ isValid TSca (inverse_Sca x) = true) /\
  (forall x : Vector f64, sized a TVec x -> reaches (- a) TVec x -> all_valid TVec (inverse_Vec x) /\ isValid TVec (inverse_Vec x) = true) /\
  (forall x : BiVector f64, sized a TBiv x -> reaches (- a) TBiv x -> all_valid TBiv (inverse_Biv x) /\ isValid TBiv (inverse_Biv x) = true) /\
  (forall x : TriVector f64, sized a TTri x -> reaches (- a) TTri x -> all_valid TTri (inverse_Tri x) /\ isValid TTri (inverse_Tri x) = true).
Proof.
  intros a Ha. split; [|split; [|split]]; intros x S E.
  - exact (inverse_fine a TSca x Ha S E).
  - exact (inverse_fine a TVec x Ha S E).
  - exact (inverse_fine a TBiv x Ha S E).
  - exact (inverse_fine a TTri x Ha S E).
Qed.
Definition grain_spin : Spinor f64 := mkSpin (Sca (f64_lit 1 (-339))) (Biv (f64_lit 3 (-200)) (f64_lit 0 0) (f64_lit (-5) 100)).
Definition grain_vec : Vector f64 := Vec (f64_lit (-1) (-339)) (f64_lit 7 0) (f64_lit 3 250).
Definition grain_s : Spinor f64 := mkSpin (Sca (f64_lit 3 (-10))) (Biv (f64_lit (-1) 0) (f64_lit 5 (-1)) (f64_lit 0 0)).
Definition grain_v : Vector f64 := Vec (f64_lit 1 (-10)) (f64_lit 7 (-3)) (f64_lit (-9) 0).
Definition grain_prog : prog f64 := PMul (PMul (PLeaf TSpin grain_s) (PLeaf TVec grain_v)) (PUni URev (PLeaf TSpin grain_s)).
Lemma lit_grid : forall m e a, (Z.abs m <= 16)%Z -> (-10 <= e <= 6)%Z -> (a = 10)%Z -> (is_finite (f64_lit m e) = true /\ Rabs (B2R (f64_lit m e)) <= bpow radix2 a) /\ multiple (- a) (B2R (f64_lit m e)).
Proof.
  intros m e a Hm He Ha. subst a. destruct (lit_of m e ltac:(lia) ltac:(lia)) as [F E]. rewrite E. split; [split; [exact F|]|].
  - rewrite Rabs_mult, (Rabs_pos_eq (bpow radix2 e)), <- abs_IZR by apply bpow_ge_0. apply Rle_trans with (bpow radix2 (4 + e)); [|apply bpow_le; lia].
    rewrite bpow_plus. apply Rmult_le_compat_r; [apply bpow_ge_0|]. apply IZR_le in Hm. exact Hm.
  - apply multiple_mono with e; [lia|]. exists m. reflexivity.
Qed.
Lemma grain_case_ok :
  sized 339 TSpin grain_spin /\ reaches (-339) TSpin grain_spin /\ sized 339 TVec grain_vec /\ reaches (-339) TVec grain_vec /\
  every_leaf (fun t x => within 10 t x /\ on_grid (-10) t x) grain_prog /\ (exponent_bound 10 grain_prog <= 1023)%Z /\
  (-1022 <= grid_bound (-10) grain_prog)%Z /\ (exists v, eval grain_prog = Some v /\ projT1 v = TImsp).
Proof.
  assert (O : bpow radix2 (-339) <= Rabs (b2r (f64_lit 1 (-339)))).
  { destruct (lit_of 1 (-339) ltac:(lia) ltac:(lia)) as [_ E]. rewrite E, Rmult_1_l, Rabs_pos_eq by apply bpow_ge_0. apply Rle_refl. }
  assert (S : Forall (fun v : f64 => (is_finite v = true /\ Rabs (B2R v) <= bpow radix2 10) /\ multiple (-10) (B2R v)) [f64_lit 3 (-10); f64_lit (-1) 0; f64_lit 5 (-1); f64_lit 0 0]).
  { apply Forall_cons; [apply (lit_grid _ _ 10); lia|apply Forall_cons; [apply (lit_grid _ _ 10); lia|apply Forall_cons; [apply (lit_grid _ _ 10); lia|apply Forall_cons; [apply (lit_grid _ _ 10); lia|apply Forall_nil]]]]. }
  assert (V : Forall (fun v : f64 => (is_finite v = true /\ Rabs (B2R v) <= bpow radix2 10) /\ multiple (-10) (B2R v)) [f64_lit 1 (-10); f64_lit 7 (-3); f64_lit (-9) 0]).
  { apply Forall_cons; [apply (lit_grid _ _ 10); lia|apply Forall_cons; [apply (lit_grid _ _ 10); lia|apply Forall_cons; [apply (lit_grid _ _ 10); lia|apply Forall_nil]]]. }
  assert (S' : within 10 TSpin grain_s /\ on_grid (-10) TSpin grain_s) by (split; eapply Forall_impl; [|exact S| |exact S]; intros v [A C]; assumption).
  assert (V' : within 10 TVec grain_v /\ on_grid (-10) TVec grain_v) by (split; eapply Forall_impl; [|exact V| |exact V]; intros v [A C]; assumption).
  split; [|split; [|split; [|split; [|split; [|split; [|split]]]]]].
  - unfold sized. change (Forall (okpart 339) [f64_lit 1 (-339); f64_lit 3 (-200); f64_lit 0 0; f64_lit (-5) 100]).
    apply Forall_cons; [apply lit_okpart; lia|apply Forall_cons; [apply lit_okpart; lia|apply Forall_cons; [apply lit_okpart; lia|apply Forall_cons; [apply lit_okpart; lia|apply Forall_nil]]]].
  - apply Exists_cons_hd. exact O.
  - unfold sized. change (Forall (okpart 339) [f64_lit (-1) (-339); f64_lit 7 0; f64_lit 3 250]).
    apply Forall_cons; [apply lit_okpart; lia|apply Forall_cons; [apply lit_okpart; lia|apply Forall_cons; [apply lit_okpart; lia|apply Forall_nil]]].
  - apply Exists_cons_hd. destruct (lit_of (-1) (-339) ltac:(lia) ltac:(lia)) as [_ E]. change (bpow radix2 (-339) <= Rabs (b2r (f64_lit (-1) (-339)))). rewrite E, Rabs_mult, (Rabs_pos_eq (bpow radix2 (-339))) by apply bpow_ge_0.
    rewrite Rabs_left by lra. lra.
  - exact (conj (conj S' V') S').
  - cbn. lia.
  - cbn. lia.
  - eexists. split; reflexivity.
Qed.
