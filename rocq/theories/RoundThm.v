(** * Bit-level identities and correctly rounded sums: proofs. *)

Require Import Reals ZArith List Bool Lra Lia.
From Flocq Require Import Core BinarySingleNaN.
Require Import Verif.Num Verif.Types Verif.Priv Verif.OpsUni Verif.OpsAdd Verif.OpsSub
  Verif.OpsMul Verif.SpecCl Verif.RealInst Verif.AlgTac Verif.AlgFacts Verif.AlgThm Verif.Rel
  Verif.B64 Verif.B64Facts Verif.SpecRound Verif.CommFacts Verif.IntFacts.
Import ListNotations.
Local Open Scope R_scope.

Lemma add_commute : forall a b (x : val f64 a) (y : val f64 b), addTy a b = addTy b a /\
  components (addTy a b) (add a b x y) = components (addTy b a) (add b a y x).
Proof. intros a b x y. split; [apply add_table_comm|]. apply (@add_comm_elems f64 Ring0_B bplus_comm). Qed.
Lemma scale_commute : forall b (d : f64) (y : val f64 b),
  elems (mulTy TDub b) (mul TDub b d y) = elems (mulTy b TDub) (mul b TDub y d) /\
  elems (mulTy TSca b) (mul TSca b (Sca d) y) = elems (mulTy TDub b) (mul TDub b d y) /\
  elems (mulTy b TSca) (mul b TSca y (Sca d)) = elems (mulTy b TDub) (mul b TDub y d).
Proof.
  intros b d y. split; [apply (@scale_comm_Dub f64 Ring0_B bmult_comm)|]. apply (@scalar_double f64 Ring0_B bmult_comm b d y).
Qed.
Lemma central_commute : forall a b (x : val f64 a) (y : val f64 b),
  a = TDub \/ a = TSca \/ a = TTri \/ a = TCplx ->
  elems (mulTy a b) (mul a b x y) = elems (mulTy b a) (mul b a y x).
Proof. exact (@central_comm f64 Ring0_B bplus_comm bmult_comm bmult_opp_l). Qed.
Lemma wrong_back : forall a b, wrong_sign_pair a b <-> backward_sub a b = true.
Proof.
  intros a b. unfold wrong_sign_pair. split.
  - intros [H|[H|[H|[H|[H|H]]]]]; inversion H; reflexivity.
  - destruct a, b; intros H; try discriminate H; tauto.
Qed.
Lemma sub_anticommute : forall a b (x : val f64 a) (y : val f64 b),
  ~ wrong_sign_pair a b -> ~ wrong_sign_pair b a ->
  Forall2 same_but_zero_sign (components (subTy b a) (sub b a y x))
    (map Bopp (components (subTy a b) (sub a b x y))).
Proof.
  intros a b x y H1 H2. rewrite wrong_back in H1, H2. apply not_true_is_false in H1, H2.
  apply (@sub_anti_elems f64 Ring0_B zeq zeq_refl sub_anti opp_opp). rewrite H1, H2. reflexivity.
Qed.
Lemma sub_redirect : forall a b (x : val f64 a) (y : val f64 b), wrong_sign_pair a b ->
  components (subTy a b) (sub a b x y) = components (subTy b a) (sub b a y x).
Proof.
  intros a b x y H. apply wrong_back in H. apply (@sub_redirect_elems f64 Ring0_B b a). rewrite H. apply orb_true_r.
Qed.

(** Correct rounding of sums and differences. *)
Lemma near_val : forall x : f64, nearest64 (b2r x) = b2r x.
Proof. intros x. apply round_generic; [apply valid_rnd_N|]. apply (generic_format_B2R 53 1024). Qed.
Lemma near_opp : forall x, nearest64 (- x) = - nearest64 x.
Proof. intros x. apply round_NE_opp. Qed.
Lemma near_0 : nearest64 0 = 0.
Proof. apply round_0, valid_rnd_N. Qed.
Lemma plus_near : forall x y : f64, fin (Bplus mode_NE x y) = true -> b2r (Bplus mode_NE x y) = nearest64 (b2r x + b2r y).
Proof. intros x y H. apply bplus_fin in H. apply H. Qed.
Lemma plus_near' : forall x y : f64, fin (Bplus mode_NE y x) = true -> b2r (Bplus mode_NE y x) = nearest64 (b2r x + b2r y).
Proof. intros x y H. rewrite Rplus_comm. apply plus_near, H. Qed.
Lemma minus_near : forall x y : f64, fin (Bminus mode_NE x y) = true -> b2r (Bminus mode_NE x y) = nearest64 (b2r x - b2r y).
Proof. intros x y H. apply bminus_fin in H. apply H. Qed.
Lemma minus_near' : forall x y : f64, fin (Bopp (Bminus mode_NE y x)) = true ->
  - b2r (Bminus mode_NE y x) = nearest64 (b2r x - b2r y).
Proof.
  intros x y H. rewrite is_finite_Bopp in H. replace (b2r x - b2r y) with (- (b2r y - b2r x)) by ring.
  rewrite near_opp. f_equal. apply minus_near, H.
Qed.
Lemma minus_near2 : forall x y : f64, fin (Bopp (Bminus mode_NE y x)) = true ->
  b2r (Bminus mode_NE y x) = - nearest64 (b2r x - b2r y).
Proof. intros x y H. rewrite <- (minus_near' x y H). ring. Qed.
Ltac invf := repeat match goal with
  | H : Forall _ (_ :: _) |- _ => inversion H; subst; clear H
  | H : Forall _ [] |- _ => clear H
  end.
Lemma opp_plus : forall x y, - x + - y = - (x + y). Proof. intros; ring. Qed.
Lemma opp_minus : forall x y, - x - - y = - (x - y). Proof. intros; ring. Qed.
Lemma add_near : forall a b (x : val f64 a) (y : val f64 b),
  if_exists (fun t r => all_finite t r -> forall k, exactly t r k = nearest64 (exactly a x k + exactly b y k))
    (addTy a b) (add a b x y).
Proof.
  intros a b x y. unfold all_finite. destruct a, b; try exact I; dvs; intros F;
    cbv -[Bplus Bopp B2R is_finite Ropp Rplus Rminus R0 IZR nearest64] in F; invf; intros k; dblade k;
    cbv -[Bplus Bopp B2R is_finite Ropp Rplus Rminus R0 IZR nearest64];
    rewrite ?opp_plus, ?Rplus_0_l, ?Rplus_0_r, ?near_opp, ?near_val, ?near_0; 
    try reflexivity; try (f_equal; first [apply plus_near|apply plus_near']; assumption); first [apply plus_near|apply plus_near']; assumption.
Qed.
Lemma sub_near : forall a b (x : val f64 a) (y : val f64 b), ~ wrong_sign_pair a b ->
  if_exists (fun t r => all_finite t r -> forall k, exactly t r k = nearest64 (exactly a x k - exactly b y k))
    (subTy a b) (sub a b x y).
Proof.
  intros a b x y W. rewrite wrong_back in W.
  destruct a, b; try exact I; try (exfalso; apply W; reflexivity); clear W; dvs; unfold all_finite; intros F;
    cbv -[Bplus Bminus Bopp B2R is_finite Ropp Rplus Rminus R0 IZR nearest64] in F; invf; intros k; dblade k;
    cbv -[Bplus Bminus Bopp B2R is_finite Ropp Rplus Rminus R0 IZR nearest64];
    rewrite ?opp_minus, ?Rminus_0_l, ?Rminus_0_r, ?Ropp_involutive, ?near_opp, ?near_val, ?near_0, ?B2R_Bopp, ?Ropp_involutive;
    
    try reflexivity; try (f_equal; apply minus_near; assumption);
    first [apply minus_near; assumption | apply minus_near'; assumption | apply minus_near2; assumption | ring].
Qed.

Lemma sub_exact_pairs : forall a b (x : val f64 a) (y : val f64 b), small_integers a x -> small_integers b y ->
  if_exists (fun t r => all_finite t r /\
      (~ wrong_sign_pair a b -> ceq (exactly t r) (csub (exactly a x) (exactly b y))) /\
      (wrong_sign_pair a b -> ceq (exactly t r) (csub (exactly b y) (exactly a x))))
    (subTy a b) (sub a b x y).
Proof.
  intros a b x y Hx Hy. eapply if_exists_impl; [|apply (sub_exact a b x y Hx Hy)].
  intros t z [F E]. cbn beta in *. split; [exact F|].
  split; intros W; rewrite wrong_back in W; [apply not_true_is_false in W|]; rewrite W in E; exact E.
Qed.
Lemma lit_int : forall n : Z, (Z.abs n <= 2 ^ 24)%Z -> fin (f64_lit n 0) = true ->
  exists m : Z, (Z.abs m <= 2 ^ 24)%Z /\ b2r (f64_lit n 0) = IZR m.
Proof.
  intros n Hn _. exists n. split; [exact Hn|].
  assert (E : F2R (Float radix2 n 0) = IZR n) by (unfold F2R; cbn; ring).
  destruct (lit_exact n 0) as [_ B]; rewrite ?E; [apply int_format; lia|apply int_lt; lia|].
  rewrite B. exact E.
Qed.
Lemma small_example : small_integers TVec (Vec (f64_lit 16777216 0) (f64_lit (-16777215) 0) (f64_lit 3 0)).
Proof. unfold small_integers. repeat constructor; (apply lit_int; [lia|vm_compute; reflexivity]). Qed.
