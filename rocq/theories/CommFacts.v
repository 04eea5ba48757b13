(** * Bit-identical results of exchanged operands: proofs. *)

Require Import Reals ZArith List Bool Lra Lia.
From Flocq Require Import Core BinarySingleNaN.
Require Import Verif.Num Verif.Types Verif.Priv Verif.OpsUni Verif.OpsAdd Verif.OpsSub
  Verif.OpsMul Verif.Const Verif.Func Verif.SpecCl Verif.RealInst Verif.AlgTac Verif.AlgFacts Verif.Rel
  Verif.B64 Verif.B64Facts Verif.CompareFacts.
Import ListNotations.

Definition oelems {F} (o : option ty) : oval F o -> list F :=
  match o with Some t => fun x => elems t x | None => fun _ => [] end.

Section Comm.
Context {F : Type} `{Ring0 F}.
Context (ac : forall a b : F, nadd a b = nadd b a) (mc : forall a b : F, nmul a b = nmul b a)
  (mo : forall a b : F, nmul (nopp a) b = nopp (nmul a b)).

Lemma add_comm_elems : forall a b (x : val F a) (y : val F b),
  oelems (addTy a b) (add a b x y) = oelems (addTy b a) (add b a y x).
Proof.
  intros a b x y; destruct a, b; try reflexivity; dvs; cbv -[nzero none_ nadd nsub nmul nopp];
    repeat (f_equal; try reflexivity; try apply ac).
Qed.
Lemma scale_comm_Dub : forall b (d : F) (y : val F b),
  elems (mulTy TDub b) (mul TDub b d y) = elems (mulTy b TDub) (mul b TDub y d).
Proof.
  intros b d y; destruct b; dvs; cbv -[nzero none_ nadd nsub nmul nopp];
    repeat (f_equal; try reflexivity; try apply mc).
Qed.
Lemma scale_comm_Sca : forall b (d : F) (y : val F b),
  elems (mulTy TSca b) (mul TSca b (Sca d) y) = elems (mulTy b TSca) (mul b TSca y (Sca d)).
Proof.
  intros b d y; destruct b; dvs; cbv -[nzero none_ nadd nsub nmul nopp];
    repeat (f_equal; try reflexivity; try apply mc).
Qed.
Lemma scalar_double : forall b (d : F) (y : val F b),
  elems (mulTy TSca b) (mul TSca b (Sca d) y) = elems (mulTy TDub b) (mul TDub b d y) /\
  elems (mulTy b TSca) (mul b TSca y (Sca d)) = elems (mulTy b TDub) (mul b TDub y d).
Proof.
  intros b d y; split; destruct b; dvs; cbv -[nzero none_ nadd nsub nmul nopp];
    repeat (f_equal; try reflexivity; try apply mc).
Qed.
Ltac comm := repeat first [reflexivity | apply mc | apply ac | f_equal].
Lemma central_comm : forall a b (x : val F a) (y : val F b),
  a = TDub \/ a = TSca \/ a = TTri \/ a = TCplx ->
  elems (mulTy a b) (mul a b x y) = elems (mulTy b a) (mul b a y x).
Proof.
  intros a b x y Ha; destruct Ha as [->|[->|[->| ->]]]; destruct b; dvs;
    cbv -[nzero none_ nadd nsub nmul nopp]; rewrite ?mo; try (comm; fail).
  f_equal; [comm|]. f_equal. rewrite ac. comm.
Qed.
End Comm.

(** ** Signs *)
Lemma round_aux_sign : forall s m e l,
  BinarySingleNaN.binary_round_aux 53 1024 mode_NE (negb s) m e l =
  SpecFloat.SFopp (BinarySingleNaN.binary_round_aux 53 1024 mode_NE s m e l).
Proof.
  intros s m e l. unfold BinarySingleNaN.binary_round_aux. 
  destruct (SpecFloat.shr_fexp 53 1024 m e l) as [mrs' e']. cbn [choice_mode].
  destruct (SpecFloat.shr_fexp 53 1024 _ e' SpecFloat.loc_Exact) as [mrs'' e''].
  destruct (SpecFloat.shr_m mrs'') as [|p|p]; try reflexivity.
  unfold binary_fit_aux. destruct (Zle_bool e'' (1024 - 53)); reflexivity.
Qed.
Lemma b2sf_opp : forall x : f64, B2SF (Bopp x) = SpecFloat.SFopp (B2SF x).
Proof. intros [s|s| |s m e H]; reflexivity. Qed.
Lemma bmult_opp_l : forall x y : f64, Bmult mode_NE (Bopp x) y = Bopp (Bmult mode_NE x y).
Proof.
  intros [s|s| |s m e H] [s'|s'| |s' m' e' H']; try reflexivity;
    try (cbn; rewrite negb_xorb_l; reflexivity).
  apply B2SF_inj. cbn [Bopp Bmult]. rewrite B2SF_SF2B, b2sf_opp, B2SF_SF2B, <- negb_xorb_l. apply round_aux_sign.
Qed.

(** Equal up to the sign of zero. *)
Definition zeq (x y : f64) : Prop := x = y \/ exists s s', x = B754_zero s /\ y = B754_zero s'.
Lemma zeq_refl : forall x, zeq x x.
Proof. intros x. left. reflexivity. Qed.
Lemma sub_anti : forall x y : f64, zeq (Bminus mode_NE y x) (Bopp (Bminus mode_NE x y)).
Proof.
  intros x y. destruct (fin x) eqn:Fx; [destruct (fin y) eqn:Fy|].
  - pose proof (Bminus_correct 53 1024 _ _ mode_NE x y Fx Fy) as A.
    pose proof (Bminus_correct 53 1024 _ _ mode_NE y x Fy Fx) as B.
    replace (b2r y - b2r x)%R with (- (b2r x - b2r y))%R in B by ring.
    change (round_mode mode_NE) with (Znearest (fun x => negb (Z.even x))) in A, B.
    rewrite rnd_opp, Rabs_Ropp in B. destruct (Rlt_bool _ _).
    + destruct A as (A1 & A2 & A3). destruct B as (B1 & B2 & B3).
      destruct (Req_dec (b2r x - b2r y) 0) as [E|E].
      * rewrite E, round_0 in A1, B1 by apply valid_rnd_N. right.
        assert (Z : forall v : f64, fin v = true -> b2r v = 0%R -> exists s, v = B754_zero s).
        { intros v F K. destruct v as [s|s| |s m e H]; try discriminate; [exists s; reflexivity|].
          exfalso. cbn in K. apply eq_0_F2R in K. destruct s; discriminate K. }
        destruct (Z _ A2 A1) as [s E1]. destruct (Z _ B2) as [s' E2]; [rewrite B1; apply Ropp_0|].
        rewrite E1, E2. exists s', (negb s). split; reflexivity.
      * left. apply B2R_Bsign_inj; auto; [rewrite is_finite_Bopp; auto|rewrite B2R_Bopp, B1, A1; reflexivity|].
        rewrite Bsign_Bopp by (destruct (Bminus mode_NE x y); try reflexivity; discriminate A2).
        rewrite A3, B3. destruct (Rcompare_spec (b2r x - b2r y) 0) as [L|L|L]; try (exfalso; lra).
        -- rewrite Rcompare_Gt by lra. reflexivity.
        -- rewrite Rcompare_Lt by lra. reflexivity.
    + destruct A as (A1 & A2). destruct B as (B1 & B2). left.
      apply B2SF_inj. rewrite b2sf_opp, A1, B1, A2. rewrite <- A2 in *. rewrite B2. rewrite A2.
      destruct (Bsign y); reflexivity.
  - left. destruct x as [s|s| |s m e H], y as [s'|[]| |s' m' e' H']; try discriminate; reflexivity.
  - left. destruct x as [s|[]| |s m e H], y as [s'|[]| |s' m' e' H']; try discriminate; reflexivity.
Qed.
Lemma opp_opp : forall x : f64, Bopp (Bopp x) = x.
Proof. intros [s|s| |s m e H]; cbn; rewrite ?negb_involutive; reflexivity. Qed.

Section Sub.
Context {F : Type} `{Ring0 F} (E : F -> F -> Prop) (Er : forall x, E x x)
  (Es : forall x y, E (nsub y x) (nopp (nsub x y))) (Eo : forall x, nopp (nopp x) = x).
Lemma sub_anti_elems : forall a b (x : val F a) (y : val F b),
  backward_sub a b || backward_sub b a = false ->
  Forall2 E (oelems (subTy b a) (sub b a y x)) (map nopp (oelems (subTy a b) (sub a b x y))).
Proof.
  intros a b x y Hb; destruct a, b; try discriminate Hb; try constructor; dvs; cbv -[nzero none_ nadd nsub nmul nopp];
    rewrite ?Eo; repeat constructor; first [apply Er | apply Es | idtac].
Qed.
Lemma sub_redirect_elems : forall a b (x : val F a) (y : val F b),
  backward_sub a b || backward_sub b a = true ->
  oelems (subTy b a) (sub b a y x) = oelems (subTy a b) (sub a b x y).
Proof.
  intros a b x y Hb; destruct a, b; try discriminate Hb; dvs; cbv -[nzero none_ nadd nsub nmul nopp]; reflexivity.
Qed.
End Sub.
