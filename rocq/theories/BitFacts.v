(** * Identities of the algebra that hold to the bit: proofs. *)

Require Import Reals ZArith List Bool Lia.
From Flocq Require Import Core BinarySingleNaN.
Require Import Verif.Num Verif.Types Verif.Priv Verif.OpsUni Verif.OpsAdd Verif.OpsSub
  Verif.OpsMul Verif.Const Verif.Func Verif.SpecCl Verif.Rel Verif.B64 Verif.B64Facts Verif.SpecRound Verif.CommFacts Verif.SameFacts Verif.MirrorFacts
  Verif.SpecScale Verif.AmpFacts Verif.SpecBit.
Import ListNotations.

(** ** Computations up to commutativity, signs and zeros *)
Inductive tree : Set := TO | TZ | TV (n : nat) | TA (s : bool) (a b : tree) | TM (a b : tree).
Inductive form : Set := NZ | NS (s : bool) (t : tree).
Definition bcmp (s s' : bool) : comparison := match s, s' with true, false => Gt | false, true => Lt | _, _ => Eq end.
Definition andc (c d : comparison) : comparison := match c with Eq => d | _ => c end.
Definition rank (t : tree) : nat := match t with TO => 0 | TZ => 1 | TV _ => 2 | TA _ _ _ => 3 | TM _ _ => 4 end.
Fixpoint tcmp (a b : tree) : comparison :=
  match a, b with
  | TV n, TV m => Nat.compare n m
  | TA s a1 a2, TA s' b1 b2 => andc (tcmp a1 b1) (andc (tcmp a2 b2) (bcmp s s'))
  | TM a1 a2, TM b1 b2 => andc (tcmp a1 b1) (tcmp a2 b2)
  | _, _ => Nat.compare (rank a) (rank b)
  end.
Lemma tcmp_eq : forall a b, tcmp a b = Eq -> a = b.
Proof.
  induction a; intros b; destruct b; cbn; intros H; try discriminate H; try reflexivity.
  - f_equal. apply Nat.compare_eq, H.
  - destruct (tcmp a1 b1) eqn:E1; try discriminate H. destruct (tcmp a2 b2) eqn:E2; try discriminate H.
    rewrite (IHa1 _ E1), (IHa2 _ E2). destruct s, s0; try discriminate H; reflexivity.
  - destruct (tcmp a1 b1) eqn:E1; try discriminate H. rewrite (IHa1 _ E1), (IHa2 _ H). reflexivity.
Qed.
Definition leaf (t : tree) : bool := match t with TO | TV _ => true | _ => false end.

(** [fz]: all numbers given are finite; [fc]: only finite results count. *)
Section Form.
Context (fz fc : bool).
Definition fadd (p q : form) : form :=
  match p, q with
  | NZ, _ => q
  | _, NZ => p
  | NS s a, NS s' b =>
    match tcmp a b with
    | Gt => NS s' (TA (xorb s s') b a)
    | Lt => NS s (TA (xorb s s') a b)
    | Eq => if fc && xorb s s' then NZ else NS s (TA (xorb s s') a b)
    end
  end.
Definition fopp (p : form) : form := match p with NZ => NZ | NS s a => NS (negb s) a end.
Definition fmul (p q : form) : form :=
  match p, q with
  | NZ, NZ => NZ
  | NZ, NS s a | NS s a, NZ => if fc || (fz && leaf a) then NZ else NS s (TM TZ a)
  | NS s a, NS s' b => NS (xorb s s') (match tcmp a b with Gt => TM b a | _ => TM a b end)
  end.
Definition Ring0_form : Ring0 form :=
  {| nzero := NZ; none_ := NS false TO; nadd := fadd; nsub p q := fadd p (fopp q); nmul := fmul; nopp := fopp |}.

Context (env : nat -> f64).
Definition flip (s : bool) (v : f64) : f64 := if s then Bopp v else v.
Fixpoint ev (t : tree) : f64 :=
  match t with
  | TO => none_
  | TZ => B754_zero false
  | TV n => env n
  | TA s a b => Bplus mode_NE (ev a) (flip s (ev b))
  | TM a b => Bmult mode_NE (ev a) (ev b)
  end.
Definition evf (p : form) : f64 := match p with NZ => B754_zero false | NS s t => flip s (ev t) end.
Definition comes (p : form) (v : f64) : Prop := (fc = true -> fin v = true) -> zr (evf p) v.
Context (Hz : fz = true -> forall n, fin (env n) = true).

Lemma flip_fin s v : fin (flip s v) = fin v.
Proof. destruct s; [apply is_finite_Bopp|reflexivity]. Qed.
Lemma zr_fin : forall a b, zr a b -> fin a = fin b.
Proof. intros a b []; reflexivity. Qed.
Lemma plus_zero_r : forall (v : f64) s, zr v (Bplus mode_NE v (B754_zero s)).
Proof. intros v s. destruct v as [[]|[]| |[] m e E], s; constructor. Qed.
Lemma mult_zero_l : forall (v : f64) s, fin v = true -> zr (B754_zero false) (Bmult mode_NE (B754_zero s) v).
Proof. intros v s F. destruct v as [[]|[]| |[] m e E], s; try discriminate F; constructor. Qed.
Lemma flip_flip : forall s s' v, flip s (flip s' v) = flip (xorb s s') v.
Proof. intros [] [] v; cbn; rewrite ?opp_opp; reflexivity. Qed.
Lemma flip_plus : forall s v w, zr (flip s (Bplus mode_NE v w)) (Bplus mode_NE (flip s v) (flip s w)).
Proof. intros [] v w; [apply add_opp|constructor]. Qed.
Lemma flip_mult : forall s s' v w, Bmult mode_NE (flip s v) (flip s' w) = flip (xorb s s') (Bmult mode_NE v w).
Proof. intros [] [] v w; cbn; rewrite ?bmult_opp_l, ?bmult_opp_r, ?opp_opp; reflexivity. Qed.
Lemma mult_fin : forall v w : f64, fin (Bmult mode_NE v w) = true -> fin v = true /\ fin w = true.
Proof. intros v w H. destruct v as [[]|[]| |[] m e E], w as [[]|[]| |[] m' e' E']; try discriminate H; split; reflexivity. Qed.
Lemma zero_of : forall v : f64, fin v = true -> b2r v = 0%R -> zr (B754_zero false) v.
Proof.
  intros v F E. destruct v as [s|s| |s m e B]; try discriminate F; [constructor|]. exfalso.
  cbn in E. unfold F2R in E. cbn in E. apply Rmult_integral in E. destruct E as [E|E]; [|pose proof (bpow_gt_0 radix2 e) as P; rewrite E in P; exact (Rlt_irrefl _ P)].
  apply eq_IZR in E. destruct s; discriminate E.
Qed.
Lemma cancel : forall v : f64, fin v = true -> zr (B754_zero false) (Bplus mode_NE v (Bopp v)).
Proof.
  intros v F. assert (E : (b2r v + b2r (Bopp v) = 0)%R) by (rewrite B2R_Bopp; ring).
  assert (Z : rnd64 0 = 0%R) by (apply round_0, valid_rnd_N).
  destruct (bplus_ok v (Bopp v)) as [A B]; [exact F|rewrite is_finite_Bopp; exact F|rewrite E, Z, Rabs_R0; apply bpow_gt_0|].
  apply zero_of; [exact A|]. rewrite B, E. exact Z.
Qed.
Lemma comes_plus : forall s s' a b, zr (flip s (Bplus mode_NE a (flip (xorb s s') b))) (Bplus mode_NE (flip s a) (flip s' b)).
Proof. intros s s' a b. eapply zr_trans; [apply flip_plus|]. rewrite flip_flip. destruct s, s'; constructor. Qed.
Lemma comes_add : forall p q v w, comes p v -> comes q w -> comes (fadd p q) (Bplus mode_NE v w).
Proof.
  unfold comes. intros p q v w Hp Hq H.
  assert (Fv : fc = true -> fin v = true) by (intros E; apply (bplus_fin v w (H E))).
  assert (Fw : fc = true -> fin w = true) by (intros E; apply (bplus_fin v w (H E))).
  specialize (Hp Fv). specialize (Hq Fw).
  assert (K : zr (Bplus mode_NE (evf p) (evf q)) (Bplus mode_NE v w)) by exact (zr_add _ _ _ _ Hp Hq).
  eapply zr_trans; [|exact K]. destruct p as [|s a]; [cbn [fadd evf]; rewrite bplus_comm; apply plus_zero_r|].
  destruct q as [|s' b]; [cbn [fadd evf]; apply plus_zero_r|].
  cbn [fadd]. destruct (tcmp a b) eqn:C.
  - apply tcmp_eq in C. subst b. destruct (fc && xorb s s') eqn:X; [|apply comes_plus].
    apply andb_true_iff in X. destruct X as [X1 X2]. cbn [evf].
    assert (Fa : fin (ev a) = true) by (rewrite <- (flip_fin s), <- (Fv X1); apply (zr_fin _ _ Hp)).
    destruct s, s'; try discriminate X2; cbn [flip]; [rewrite bplus_comm|]; apply cancel, Fa.
  - apply comes_plus.
  - cbn [evf ev]. rewrite (bplus_comm (flip s (ev a))). rewrite xorb_comm. apply comes_plus.
Qed.
Lemma comes_opp : forall p v, comes p v -> comes (fopp p) (Bopp v).
Proof.
  unfold comes. intros p v Hp H. assert (Fv : fc = true -> fin v = true) by (intros E; rewrite <- (is_finite_Bopp 53 1024 v); apply (H E)).
  specialize (Hp Fv). eapply zr_trans; [|apply zr_opp, Hp]. destruct p as [|s a]; [constructor|]. cbn [fopp evf]. destruct s; cbn [negb flip]; [rewrite opp_opp|]; constructor.
Qed.
Lemma leaf_fin : fz = true -> forall a, leaf a = true -> fin (ev a) = true.
Proof. intros E a H. destruct a; try discriminate H; [reflexivity|]. apply Hz, E. Qed.
Lemma comes_zero : forall s a, (fc = true -> fin (ev a) = true) -> 
  zr (evf (if fc || (fz && leaf a) then NZ else NS s (TM TZ a))) (Bmult mode_NE (B754_zero false) (flip s (ev a))).
Proof.
  intros s a H. destruct (fc || (fz && leaf a)) eqn:X.
  - apply mult_zero_l. rewrite flip_fin. apply orb_true_iff in X. destruct X as [X|X]; [apply H, X|]. apply andb_true_iff in X. apply leaf_fin; apply X.
  - cbn [evf ev]. destruct s; cbn [flip]; [rewrite bmult_opp_r|]; constructor.
Qed.
Lemma comes_mul : forall p q v w, comes p v -> comes q w -> comes (fmul p q) (Bmult mode_NE v w).
Proof.
  unfold comes. intros p q v w Hp Hq H.
  assert (Fv : fc = true -> fin v = true) by (intros E; apply (mult_fin v w (H E))).
  assert (Fw : fc = true -> fin w = true) by (intros E; apply (mult_fin v w (H E))).
  specialize (Hp Fv). specialize (Hq Fw).
  assert (K : zr (Bmult mode_NE (evf p) (evf q)) (Bmult mode_NE v w)) by exact (zr_mul _ _ _ _ Hp Hq).
  eapply zr_trans; [|exact K]. apply zr_fin in Hp, Hq. destruct p as [|s a], q as [|s' b]; cbn [fmul].
  - constructor.
  - apply comes_zero. intros E. specialize (Fw E). rewrite <- Hq in Fw. cbn [evf] in Fw. rewrite flip_fin in Fw. exact Fw.
  - cbn [evf] in *. rewrite bmult_comm. apply comes_zero. intros E. specialize (Fv E). rewrite <- Hp in Fv. rewrite flip_fin in Fv. exact Fv.
  - cbn [evf]. rewrite flip_mult. destruct (tcmp a b); cbn [ev]; try rewrite (bmult_comm (ev b)); constructor.
Qed.
Lemma comes_ring : ring_rel Ring0_form Ring0_B comes.
Proof.
  constructor.
  - intros _. constructor.
  - intros _. constructor.
  - exact comes_add.
  - intros p q v w Hp Hq. change (nsub v w) with (Bminus mode_NE v w). rewrite bminus_opp. apply comes_add; [exact Hp|apply comes_opp, Hq].
  - exact comes_mul.
  - exact comes_opp.
Qed.
End Form.
