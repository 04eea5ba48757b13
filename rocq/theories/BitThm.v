(** * Identities of the algebra that hold to the bit: theorems. *)

Require Import Reals ZArith List Bool Lia.
From Flocq Require Import Core BinarySingleNaN.
Require Import Verif.Num Verif.Types Verif.Priv Verif.OpsUni Verif.OpsAdd Verif.OpsSub
  Verif.OpsMul Verif.Const Verif.Func Verif.SpecCl Verif.AlgTac Verif.Rel Verif.B64 Verif.B64Facts Verif.SpecRound Verif.CommFacts Verif.SameFacts Verif.MirrorFacts
  Verif.SpecScale Verif.AmpFacts Verif.SpecBit Verif.BitFacts.
Import ListNotations.

(** ** Operands as forms *)
Definition fill {A} (v : nat -> A) (t : ty) : val A t :=
  match t with
  | TDub => v 0 | TSca => Sca (v 0) | TVec => Vec (v 0) (v 1) (v 2) | TBiv => Biv (v 0) (v 1) (v 2) | TTri => Tri (v 0)
  | TSpin => mkSpin (Sca (v 0)) (Biv (v 1) (v 2) (v 3)) | TImsp => mkImsp (Vec (v 0) (v 1) (v 2)) (Tri (v 3))
  | TCplx => mkCplx (Sca (v 0)) (Tri (v 1)) | TDplx => mkDplx (Vec (v 0) (v 1) (v 2)) (Biv (v 3) (v 4) (v 5))
  | TMvec => mkMvec (Sca (v 0)) (Vec (v 1) (v 2) (v 3)) (Biv (v 4) (v 5) (v 6)) (Tri (v 7))
  end%nat.
Definition vars (t : ty) : val form t := fill (fun n => NS false (TV n)) t.
Definition vars' (t : ty) : val form t := fill (fun n => NS false (TV (8 + n))) t.
Definition env2 (a b : ty) (x : val f64 a) (y : val f64 b) (n : nat) : f64 :=
  if Nat.ltb n 8 then nth n (elems a x) (B754_zero false) else nth (n - 8) (elems b y) (B754_zero false).
Lemma vars_comes : forall fc a b x y, relv (comes fc (env2 a b x y)) a (vars a) x.
Proof.
  intros fc a b x y. unfold relv, comes. destruct a; dvs; repeat (apply Forall2_cons || apply Forall2_nil); intros _; constructor.
Qed.
Lemma vars'_comes : forall fc a b x y, relv (comes fc (env2 a b x y)) b (vars' b) y.
Proof.
  intros fc a b x y. unfold relv, comes. destruct b; dvs; repeat (apply Forall2_cons || apply Forall2_nil); intros _; constructor.
Qed.
Lemma same_form : forall fc env (l : list form) (v w : list f64), Forall2 (comes fc env) l v -> Forall2 (comes fc env) l w ->
  (fc = true -> Forall (fun c : f64 => fin c = true) v /\ Forall (fun c : f64 => fin c = true) w) -> identical v w.
Proof.
  intros fc env l v w Hv. revert w. unfold identical. induction Hv as [|p c l v Hc Hv IH]; intros w Hw F; inversion Hw as [|? c' ? w' Hc' Hw']; subst; constructor.
  - apply zr_spec. eapply zr_trans; [apply zr_sym, Hc|apply Hc']; intros E; destruct (F E) as [F1 F2]; [inversion F1|inversion F2]; assumption.
  - apply IH; [exact Hw'|]. intros E. destruct (F E) as [F1 F2]. inversion F1; inversion F2; split; assumption.
Qed.

(** ** Different numbers *)
Definition sameb (x y : f64) : bool :=
  match x, y with
  | B754_zero _, B754_zero _ => true
  | B754_infinity s, B754_infinity s' => Bool.eqb s s'
  | B754_nan, B754_nan => true
  | B754_finite s m e _, B754_finite s' m' e' _ => Bool.eqb s s' && Pos.eqb m m' && Z.eqb e e'
  | _, _ => false
  end.
Fixpoint samesb (l m : list f64) : bool :=
  match l, m with [], [] => true | x :: l, y :: m => sameb x y && samesb l m | _, _ => false end.
Lemma sameb_ok : forall x y, same_but_zero_sign x y -> sameb x y = true.
Proof.
  intros x y [->|(s & s' & -> & ->)]; [|reflexivity]. unfold sameb. destruct y as [s|s| |s m e E]; try reflexivity; [apply eqb_reflx|].
  rewrite eqb_reflx, Pos.eqb_refl, Z.eqb_refl. reflexivity.
Qed.
Lemma samesb_ok : forall l m, identical l m -> samesb l m = true.
Proof. intros l m H. induction H as [|x y l m H _ IH]; [reflexivity|]. cbn [samesb]. rewrite (sameb_ok _ _ H), IH. reflexivity. Qed.
Definition awkward : list f64 :=
  [f64_lit (-6542889518916235) (-52); f64_lit (-8264718653263081) (-53); f64_lit (5970637583873339) (-53); f64_lit (-6193225186225937) (-52);
   f64_lit (-5129995867995561) (-52); f64_lit (-5669476339517413) (-51); f64_lit (6941735726741717) (-51); f64_lit (-5687376146741135) (-52);
   f64_lit (5212089959761967) (-52); f64_lit (5618864016862153) (-53); f64_lit (-7819216463720427) (-52); f64_lit (-8900580155399053) (-52);
   f64_lit (6822984176444723) (-52); f64_lit (-6577622906156453) (-51); f64_lit (-6504178347354649) (-52); f64_lit (-8093693624815831) (-53)].
Definition wit (t : ty) : val f64 t := fill (fun n => nth n awkward (B754_zero false)) t.
Definition wit' (t : ty) : val f64 t := fill (fun n => nth (8 + n) awkward (B754_zero false)) t.

Definition rev_l {F} {RF : Ring0 F} a b (x : val F a) (y : val F b) : list F := parts _ (reverse _ (mul a b x y)).
Definition rev_r {F} {RF : Ring0 F} a b (x : val F a) (y : val F b) : list F := parts _ (mul b a (reverse b y) (reverse a x)).
Definition dir_l {F} {RF : Ring0 F} a b (x : val F a) (y : val F b) : list F := parts _ (dirverse _ (mul a b x y)).
Definition dir_r {F} {RF : Ring0 F} a b (x : val F a) (y : val F b) : list F := parts _ (mul b a (dirverse b y) (dirverse a x)).
Definition mul_l {F} {RF : Ring0 F} a b (x : val F a) (y : val F b) : list F := parts _ (mul a b x y).
Definition mv_r {F} {RF : Ring0 F} a b (x : val F a) (y : val F b) : list F := parts TMvec (mul TMvec TMvec (to_mv a x) (to_mv b y)).
Definition swap_r {F} {RF : Ring0 F} a b (x : val F a) (y : val F b) : list F := parts _ (mul b a y x).
Definition dual_l {F} {RF : Ring0 F} a b (x : val F a) (y : val F b) : list F := parts _ (dual _ (mul a b x y)).
Definition dual_r {F} {RF : Ring0 F} a b (x : val F a) (y : val F b) : list F := parts _ (mul _ b (dual a x) y).
Definition dual_r' {F} {RF : Ring0 F} a b (x : val F a) (y : val F b) : list F := parts _ (mul a _ x (dual b y)).
Definition cyc_l {F} {RF : Ring0 F} a b (x : val F a) (y : val F b) : list F := parts _ (cycle _ (mul a b x y)).
Definition cyc_r {F} {RF : Ring0 F} a b (x : val F a) (y : val F b) : list F := parts _ (mul a b (cycle a x) (cycle b y)).
(** Sums of three numbers that depend on the order. *)
Definition uneven (t : ty) : val f64 t :=
  let z := f64_lit 0 0 in let u := f64_lit 1 0 in let e := f64_lit 1 (-53) in
  match t with
  | TVec => Vec u e e | TBiv => Biv u e e
  | TSpin => mkSpin (Sca z) (Biv u e e) | TImsp => mkImsp (Vec u e e) (Tri z)
  | TDplx => mkDplx (Vec u e e) (Biv z z z) | TMvec => mkMvec (Sca z) (Vec u e e) (Biv z z z) (Tri z)
  | t => fill (fun _ => z) t
  end.
Definition ones (t : ty) : val f64 t := fill (fun _ => f64_lit 1 0) t.

(** ** From forms to doubles *)
Definition op2 (a b : ty) := forall F : Type, Ring0 F -> val F a -> val F b -> list F.
Definition natural {a b} (f : op2 a b) : Prop := forall F G (RF : Ring0 F) (RG : Ring0 G) (Q : F -> G -> Prop), ring_rel RF RG Q ->
  forall x y x' y', relv Q a x x' -> relv Q b y y' -> Forall2 Q (f F RF x y) (f G RG x' y').
Lemma nth_fin : forall l n, finites l -> is_finite (nth n l (B754_zero false : f64)) = true.
Proof. intros l n H. revert n. induction H as [|c l H _ IH]; intros [|n]; cbn [nth]; auto. Qed.
Lemma agree : forall fz fc a b (f g : op2 a b), natural f -> natural g ->
  f form (Ring0_form fz fc) (vars a) (vars' b) = g form (Ring0_form fz fc) (vars a) (vars' b) ->
  forall x y, (fz = true -> all_finite a x /\ all_finite b y) -> (fc = true -> finites (f f64 Ring0_B x y) /\ finites (g f64 Ring0_B x y)) ->
  identical (f f64 Ring0_B x y) (g f64 Ring0_B x y).
Proof.
  intros fz fc a b f g Hf Hg E x y Hz Hc.
  assert (K : fz = true -> forall n, is_finite (env2 a b x y n) = true).
  { intros Z n. destruct (Hz Z) as [Hx Hy]. unfold env2. destruct (Nat.ltb n 8); apply nth_fin; assumption. }
  eapply (same_form fc (env2 a b x y) (f form (Ring0_form fz fc) (vars a) (vars' b))).
  - apply (Hf _ _ _ _ _ (comes_ring fz fc _ K)); [apply vars_comes|apply vars'_comes].
  - rewrite E. apply (Hg _ _ _ _ _ (comes_ring fz fc _ K)); [apply vars_comes|apply vars'_comes].
  - exact Hc.
Qed.
Lemma differ : forall (l m : list f64), samesb l m = false -> ~ identical l m.
Proof. intros l m H K. apply samesb_ok in K. congruence. Qed.

Lemma cycle_rel : forall F G (Q : F -> G -> Prop) t x x', relv Q t x x' -> relv Q t (cycle t x) (cycle t x').
Proof.
  intros F G Q t x x' Hr. unfold relv in *. destruct t; dvs; cbv in Hr |- *; inv2; repeat (apply Forall2_cons || apply Forall2_nil); assumption.
Qed.
Lemma parts_rel : forall F G (RF : Ring0 F) (RG : Ring0 G) (Q : F -> G -> Prop), ring_rel RF RG Q ->
  forall t x x', relv Q t x x' -> Forall2 Q (parts t x) (parts t x').
Proof. intros F G RF RG Q HR t x x' H. apply (to_mv_rel HR t x x' H). Qed.
Ltac nat_tac := intros F G RF RG Q HR x y x' y' Hx Hy; apply (parts_rel _ _ _ _ _ HR);
  repeat first [assumption | apply (mul_rel HR) | apply (mul_rel HR TMvec TMvec) | apply (reverse_rel HR) | apply (dirverse_rel HR) | apply (dual_rel HR) | apply cycle_rel | apply (to_mv_rel HR)].
Lemma rev_l_nat : forall a b, natural (fun F RF => @rev_l F RF a b). Proof. intros a b. nat_tac. Qed.
Lemma rev_r_nat : forall a b, natural (fun F RF => @rev_r F RF a b). Proof. intros a b. nat_tac. Qed.
Lemma dir_l_nat : forall a b, natural (fun F RF => @dir_l F RF a b). Proof. intros a b. nat_tac. Qed.
Lemma dir_r_nat : forall a b, natural (fun F RF => @dir_r F RF a b). Proof. intros a b. nat_tac. Qed.
Lemma mul_l_nat : forall a b, natural (fun F RF => @mul_l F RF a b). Proof. intros a b. nat_tac. Qed.
Lemma mv_r_nat : forall a b, natural (fun F RF => @mv_r F RF a b). Proof. intros a b. nat_tac. Qed.
Lemma swap_r_nat : forall a b, natural (fun F RF => @swap_r F RF a b). Proof. intros a b. nat_tac. Qed.
Lemma dual_l_nat : forall a b, natural (fun F RF => @dual_l F RF a b). Proof. intros a b. nat_tac. Qed.
Lemma dual_r_nat : forall a b, natural (fun F RF => @dual_r F RF a b). Proof. intros a b. nat_tac. Qed.
Lemma dual_r'_nat : forall a b, natural (fun F RF => @dual_r' F RF a b). Proof. intros a b. nat_tac. Qed.
Lemma cyc_l_nat : forall a b, natural (fun F RF => @cyc_l F RF a b). Proof. intros a b. nat_tac. Qed.
Lemma cyc_r_nat : forall a b, natural (fun F RF => @cyc_r F RF a b). Proof. intros a b. nat_tac. Qed.

(** ** Products *)
Ltac in_list H := repeat (destruct H as [H|H]; [injection H as <- <-|]); [..|contradiction].
Ltac off_list N := exfalso; apply N; cbn; repeat first [left; reflexivity | right].
Ltac both a b N := destruct a, b; first [vm_compute; reflexivity | off_list N].

Theorem reverse_bits : forall a b, ~ In (a, b) no_reverse <->
  forall (x : val f64 a) (y : val f64 b), identical (parts _ (reverse _ (mul a b x y))) (parts _ (mul b a (reverse b y) (reverse a x))).
Proof.
  intros a b. split.
  - intros N x y. refine (agree false false a b _ _ (rev_l_nat a b) (rev_r_nat a b) _ x y _ _); [|discriminate|discriminate]. clear x y. both a b N.
  - intros K Hi. specialize (K (wit a) (wit' b)). revert K. apply differ. in_list Hi; vm_compute; reflexivity.
Qed.
Theorem dirverse_bits : forall a b, ~ In (a, b) no_reverse <->
  forall (x : val f64 a) (y : val f64 b), identical (parts _ (dirverse _ (mul a b x y))) (parts _ (mul b a (dirverse b y) (dirverse a x))).
Proof.
  intros a b. split.
  - intros N x y. refine (agree false false a b _ _ (dir_l_nat a b) (dir_r_nat a b) _ x y _ _); [|discriminate|discriminate]. clear x y. both a b N.
  - intros K Hi. specialize (K (wit a) (wit' b)). revert K. apply differ. in_list Hi; vm_compute; reflexivity.
Qed.
Theorem dual_left_bits : forall a b, ~ In (a, b) no_dual_left <->
  forall (x : val f64 a) (y : val f64 b), identical (parts _ (dual _ (mul a b x y))) (parts _ (mul _ b (dual a x) y)).
Proof.
  intros a b. split.
  - intros N x y. refine (agree false false a b _ _ (dual_l_nat a b) (dual_r_nat a b) _ x y _ _); [|discriminate|discriminate]. clear x y. both a b N.
  - intros K Hi. specialize (K (wit a) (wit' b)). revert K. apply differ. in_list Hi; vm_compute; reflexivity.
Qed.
Theorem dual_right_bits : forall a b, ~ In (a, b) no_dual_right <->
  forall (x : val f64 a) (y : val f64 b), identical (parts _ (dual _ (mul a b x y))) (parts _ (mul a _ x (dual b y))).
Proof.
  intros a b. split.
  - intros N x y. refine (agree false false a b _ _ (dual_l_nat a b) (dual_r'_nat a b) _ x y _ _); [|discriminate|discriminate]. clear x y. both a b N.
  - intros K Hi. specialize (K (wit a) (wit' b)). revert K. apply differ. in_list Hi; vm_compute; reflexivity.
Qed.
Theorem multivector_bits : forall a b, ~ In (a, b) own_order <->
  forall (x : val f64 a) (y : val f64 b), all_finite a x -> all_finite b y ->
    identical (parts _ (mul a b x y)) (parts TMvec (mul TMvec TMvec (to_mv a x) (to_mv b y))).
Proof.
  intros a b. split.
  - intros N x y Hx Hy. refine (agree true false a b _ _ (mul_l_nat a b) (mv_r_nat a b) _ x y _ _); [|intros _; split; assumption|discriminate]. clear x y Hx Hy. both a b N.
  - intros K Hi. specialize (K (wit a) (wit' b)).
    assert (H : ~ identical (parts _ (mul a b (wit a) (wit' b))) (parts TMvec (mul TMvec TMvec (to_mv a (wit a)) (to_mv b (wit' b))))).
    { clear K. apply differ. in_list Hi; vm_compute; reflexivity. }
    apply H, K; clear; [destruct a|destruct b]; repeat (apply Forall_cons || apply Forall_nil); vm_compute; reflexivity.
Qed.
Lemma central_dec : forall t, central t \/ ~ central t.
Proof. intros t. unfold central. destruct t; first [left; tauto | right; intuition discriminate]. Qed.
Ltac cent C := first [exfalso; destruct C as [C|C]; unfold central in C; intuition discriminate].
Theorem commute_bits : forall a b, central a \/ central b <->
  forall (x : val f64 a) (y : val f64 b), identical (parts _ (mul a b x y)) (parts _ (mul b a y x)).
Proof.
  intros a b. split.
  - intros C x y. refine (agree false false a b _ _ (mul_l_nat a b) (swap_r_nat a b) _ x y _ _); [|discriminate|discriminate]. clear x y.
    destruct a, b; first [vm_compute; reflexivity | cent C].
  - intros K. destruct (central_dec a) as [A|A]; [left; exact A|]. destruct (central_dec b) as [B|B]; [right; exact B|]. exfalso.
    specialize (K (wit a) (wit' b)). revert K. apply differ.
    destruct a; try (exfalso; apply A; unfold central; tauto); destruct b; try (exfalso; apply B; unfold central; tauto); vm_compute; reflexivity.
Qed.
Theorem cycle_bits : forall a b, central a \/ central b <->
  forall (x : val f64 a) (y : val f64 b), identical (parts _ (cycle _ (mul a b x y))) (parts _ (mul a b (cycle a x) (cycle b y))).
Proof.
  intros a b. split.
  - intros C x y. refine (agree false false a b _ _ (cyc_l_nat a b) (cyc_r_nat a b) _ x y _ _); [|discriminate|discriminate]. clear x y.
    destruct a, b; first [vm_compute; reflexivity | cent C].
  - intros K. destruct (central_dec a) as [A|A]; [left; exact A|]. destruct (central_dec b) as [B|B]; [right; exact B|]. exfalso.
    specialize (K (uneven a) (ones b)). revert K. apply differ.
    destruct a; try (exfalso; apply A; unfold central; tauto); destruct b; try (exfalso; apply B; unfold central; tauto); vm_compute; reflexivity.
Qed.

(** ** A value times its reverse and its dirverse *)
Definition sqr_l {F} {RF : Ring0 F} a (x : val F a) : list F := parts _ (mul a a x (reverse a x)).
Definition sqr_r {F} {RF : Ring0 F} a (x : val F a) : list F := parts TSca (Sca (magSq a x)).
Definition amp_l {F} {RF : Ring0 F} a (x : val F a) : list F := parts _ (mul a a x (dirverse a x)).
Definition amp_r {F} {RF : Ring0 F} (dbl : F -> F) a (x : val F a) : list F :=
  parts TCplx (mkCplx (Sca (fst (amps dbl a x))) (Tri (snd (amps dbl a x)))).
Lemma sqr_l_nat : forall a, natural (fun F RF x (_ : val F TDub) => @sqr_l F RF a x). Proof. intros a. nat_tac. Qed.
Lemma sqr_r_nat : forall a, natural (fun F RF x (_ : val F TDub) => @sqr_r F RF a x).
Proof. intros a F G RF RG Q HR x y x' y' Hx Hy. apply (parts_rel _ _ _ _ _ HR). apply Forall2_cons; [apply (magSq_rel HR), Hx|apply Forall2_nil]. Qed.

Lemma zr_val : forall v w : f64, is_finite v = true -> is_finite w = true -> B2R v = B2R w -> zr v w.
Proof.
  intros v w Fv Fw E. destruct (Req_dec (B2R w) 0) as [Z|Z].
  - eapply zr_trans; [apply zr_sym, zero_of|apply zero_of]; auto. congruence.
  - rewrite (B2R_inj _ _ v w); [constructor| | |exact E].
    + apply is_finite_strict_B2R. congruence.
    + apply is_finite_strict_B2R. exact Z.
Qed.
Lemma double_sum : forall v : f64, zr (Bplus mode_NE v v) (dbl64 v).
Proof.
  intros v. destruct (is_finite v) eqn:Fv.
  2:{ destruct v as [s|s| |s m e B]; try discriminate Fv; [destruct s|]; constructor. }
  assert (K : (B2R v + B2R v = B2R two64 * B2R v)%R) by (rewrite (proj2 two_ok); ring).
  pose proof (Bplus_correct 53 1024 _ _ mode_NE v v Fv Fv) as P. pose proof (Bmult_correct 53 1024 _ _ mode_NE two64 v) as M.
  rewrite K in P. destruct (Rlt_bool _ _).
  - destruct P as (P & Pf & _), M as (M & Mf & _). unfold dbl64. apply zr_val; [exact Pf|rewrite Mf, (proj1 two_ok); exact Fv|congruence].
  - destruct P as [P _]. unfold dbl64. rewrite (B2SF_inj _ _ (Bplus mode_NE v v) (Bmult mode_NE two64 v)); [constructor|]. rewrite P, M.
    replace (Bsign two64) with false by (vm_compute; reflexivity). rewrite xorb_false_l. reflexivity.
Qed.
Definition fdbl (fc : bool) (p : form) : form := fadd fc p p.
Lemma comes_dbl : forall fc env p v, comes fc env p v -> comes fc env (fdbl fc p) (dbl64 v).
Proof.
  intros fc env p v H F. eapply zr_trans; [|apply double_sum].
  refine (comes_add fc env p p v v H H _). intros E. rewrite (zr_fin _ _ (double_sum v)). apply F, E.
Qed.
Lemma amp_l_nat : forall a, natural (fun F RF x (_ : val F TDub) => @amp_l F RF a x). Proof. intros a. nat_tac. Qed.

Lemma forall2_nth : forall A B (Q : A -> B -> Prop) l m n d e, Forall2 Q l m -> Q d e -> Q (nth n l d) (nth n m e).
Proof. intros A B Q l m n d e H D. revert n. induction H as [|x y l m H _ IH]; intros [|n]; cbn [nth]; auto. Qed.
Definition noenv {a} (x : val f64 a) := env2 a TDub x (B754_zero false : f64).
Lemma one_comes : forall fc a (x : val f64 a), relv (comes fc (noenv x)) a (vars a) x.
Proof. intros fc a x. apply vars_comes. Qed.
Lemma one_ring : forall fc a (x : val f64 a), ring_rel (Ring0_form false fc) Ring0_B (comes fc (noenv x)).
Proof. intros fc a x. apply comes_ring. discriminate. Qed.
Lemma same_of : forall env p (v w : f64), comes false env p v -> comes false env p w -> same_but_zero_sign v w.
Proof. intros env p v w Hv Hw. apply zr_spec. eapply zr_trans; [apply zr_sym, Hv|apply Hw]; discriminate. Qed.
Lemma sqr_comes : forall fc t (x : val f64 t) n, comes fc (noenv x) (nth n (@sqr_l form (Ring0_form false fc) t (vars t)) NZ) (nth n (parts _ (mul t t x (reverse t x))) (B754_zero false)).
Proof. intros fc t x n. apply forall2_nth; [|intros _; constructor]. apply (sqr_l_nat t _ _ _ _ _ (one_ring fc t x) (vars t) NZ x (B754_zero false)); [apply one_comes|repeat constructor]. Qed.
Lemma amp_comes : forall fc t (x : val f64 t) n, comes fc (noenv x) (nth n (@amp_l form (Ring0_form false fc) t (vars t)) NZ) (nth n (parts _ (mul t t x (dirverse t x))) (B754_zero false)).
Proof. intros fc t x n. apply forall2_nth; [|intros _; constructor]. apply (amp_l_nat t _ _ _ _ _ (one_ring fc t x) (vars t) NZ x (B754_zero false)); [apply one_comes|repeat constructor]. Qed.
Lemma zero_comes : forall env (v : f64), is_finite v = true -> comes true env NZ v -> exists s, v = B754_zero s.
Proof. intros env v F H. specialize (H (fun _ => F)). cbn [evf] in H. inversion H; eauto. Qed.

Lemma nonzero : forall l m : list f64, forallb (fun c : f64 => is_finite c) l = true -> forallb (fun c => sameb c (B754_zero false)) m = false -> ~ (finites l -> zeros m).
Proof.
  intros l m F Z K. assert (H : zeros m) by (apply K, Forall_forall; intros c Hc; exact (proj1 (forallb_forall _ _) F c Hc)).
  assert (Y : forallb (fun c => sameb c (B754_zero false)) m = true); [|congruence].
  apply forallb_forall. intros c Hc. destruct (proj1 (Forall_forall _ _) H c Hc) as [b ->]. reflexivity.
Qed.
Definition mixed : val f64 TMvec := fill (fun n => nth (5 + n) awkward (B754_zero false)) TMvec.
Theorem magSq_bits : forall t, t <> TMvec <->
  forall x : val f64 t, same_but_zero_sign (scalar_of (parts _ (mul t t x (reverse t x)))) (magSq t x).
Proof.
  intros t. split.
  - intros N x. refine (same_of (noenv x) (@magSq form (Ring0_form false false) t (vars t)) _ _ _ (magSq_rel (one_ring false t x) _ _ _ (one_comes false t x))).
    pose proof (sqr_comes false t x 0) as K. replace (magSq t (vars t)) with (nth 0 (@sqr_l form (Ring0_form false false) t (vars t)) NZ); [exact K|].
    clear K x. destruct t; first [exfalso; apply N; reflexivity|vm_compute; reflexivity].
  - intros K ->. specialize (K mixed). apply sameb_ok in K. vm_compute in K. discriminate K.
Qed.
Theorem magSq_alone : forall t, t <> TDplx /\ t <> TMvec <->
  forall x : val f64 t, finites (parts _ (mul t t x (reverse t x))) -> zeros (skipn 1 (parts _ (mul t t x (reverse t x)))).
Proof.
  intros t. split.
  - intros [N1 N2] x Hf. pose proof (sqr_comes true t x) as K.
    assert (Z : forall n, (1 <= n < 8)%nat -> nth n (@sqr_l form (Ring0_form false true) t (vars t)) NZ = NZ).
    { intros n Hn. do 8 (destruct n as [|n]; [try lia; clear K Hf x; destruct t; first [contradiction|vm_compute; reflexivity]|]). lia. }
    assert (Y : forall n, (1 <= n < 8)%nat -> exists s, nth n (parts _ (mul t t x (reverse t x))) (B754_zero false) = B754_zero s).
    { intros n Hn. specialize (K n). rewrite (Z n Hn) in K. refine (zero_comes _ _ _ K). apply nth_fin, Hf. }
    unfold zeros. remember (parts _ (mul t t x (reverse t x))) as l eqn:E. assert (Hl : length l = 8%nat) by (subst l; reflexivity). clear - Y Hl.
    do 9 (destruct l as [|? l]; try discriminate Hl). cbn [skipn]. repeat (apply Forall_cons || apply Forall_nil).
    + exact (Y 1%nat ltac:(lia)). + exact (Y 2%nat ltac:(lia)). + exact (Y 3%nat ltac:(lia)). + exact (Y 4%nat ltac:(lia)).
    + exact (Y 5%nat ltac:(lia)). + exact (Y 6%nat ltac:(lia)). + exact (Y 7%nat ltac:(lia)).
  - intros K. split; intros ->.
    + specialize (K (wit TDplx)). revert K. apply nonzero; vm_compute; reflexivity.
    + specialize (K (wit TMvec)). revert K. apply nonzero; vm_compute; reflexivity.
Qed.

Lemma amp_pair : forall fc t f (x : val f64 t), ampSq t = Some f ->
  comes fc (noenv x) (fst (@amps form (Ring0_form false fc) (fdbl fc) t (vars t))) (sca_0 (cplxSca (f x))) /\
  comes fc (noenv x) (snd (@amps form (Ring0_form false fc) (fdbl fc) t (vars t))) (tri_0 (cplxTri (f x))).
Proof.
  intros fc t f x E. rewrite (amps_f64 t f x E). exact (amps_rel (one_ring fc t x) (fdbl fc) dbl64 (comes_dbl fc _) t _ _ (one_comes fc t x)).
Qed.
Theorem ampSq_scalar_bits : forall t f, ampSq t = Some f -> (t <> TMvec <->
  forall x : val f64 t, same_but_zero_sign (scalar_of (parts _ (mul t t x (dirverse t x)))) (sca_0 (cplxSca (f x)))).
Proof.
  intros t f E. split.
  - intros N x. refine (same_of (noenv x) _ _ _ _ (proj1 (amp_pair false t f x E))). 
    pose proof (amp_comes false t x 0) as K.
    replace (fst (amps (fdbl false) t (vars t))) with (nth 0 (@amp_l form (Ring0_form false false) t (vars t)) NZ); [exact K|].
    clear K x. destruct t; first [discriminate E|exfalso; apply N; reflexivity|vm_compute; reflexivity].
  - intros K ->. injection E as <-. specialize (K mixed). apply sameb_ok in K. vm_compute in K. discriminate K.
Qed.
Definition tiny : val f64 TCplx := mkCplx (Sca (f64_lit 1 (-1074))) (Tri (f64_lit 3 (-3))).
Theorem ampSq_trivector_bits : forall t f, ampSq t = Some f -> (t <> TCplx /\ t <> TMvec <->
  forall x : val f64 t, same_but_zero_sign (trivector_of (parts _ (mul t t x (dirverse t x)))) (tri_0 (cplxTri (f x)))).
Proof.
  intros t f E. split.
  - intros [N1 N2] x. refine (same_of (noenv x) _ _ _ _ (proj2 (amp_pair false t f x E))). 
    pose proof (amp_comes false t x 7) as K.
    replace (snd (amps (fdbl false) t (vars t))) with (nth 7 (@amp_l form (Ring0_form false false) t (vars t)) NZ); [exact K|].
    clear K x. destruct t; first [discriminate E|exfalso; apply N1; reflexivity|exfalso; apply N2; reflexivity|vm_compute; reflexivity].
  - intros K. split; intros ->; injection E as <-.
    + specialize (K tiny). apply sameb_ok in K. vm_compute in K. discriminate K.
    + specialize (K (wit TMvec)). apply sameb_ok in K. vm_compute in K. discriminate K.
Qed.
Theorem ampSq_alone : forall t, t <> TMvec <->
  forall x : val f64 t, finites (parts _ (mul t t x (dirverse t x))) -> zeros (between (parts _ (mul t t x (dirverse t x)))).
Proof.
  intros t. split.
  - intros N x Hf. pose proof (amp_comes true t x) as K.
    assert (Z : forall n, (1 <= n < 7)%nat -> nth n (@amp_l form (Ring0_form false true) t (vars t)) NZ = NZ).
    { intros n Hn. do 7 (destruct n as [|n]; [try lia; clear K Hf x; destruct t; first [contradiction|vm_compute; reflexivity]|]). lia. }
    assert (Y : forall n, (1 <= n < 7)%nat -> exists s, nth n (parts _ (mul t t x (dirverse t x))) (B754_zero false) = B754_zero s).
    { intros n Hn. specialize (K n). rewrite (Z n Hn) in K. refine (zero_comes _ _ _ K). apply nth_fin, Hf. }
    unfold zeros, between. remember (parts _ (mul t t x (dirverse t x))) as l eqn:E. assert (Hl : length l = 8%nat) by (subst l; reflexivity). clear - Y Hl.
    do 9 (destruct l as [|? l]; try discriminate Hl). cbn [skipn firstn]. repeat (apply Forall_cons || apply Forall_nil).
    + exact (Y 1%nat ltac:(lia)). + exact (Y 2%nat ltac:(lia)). + exact (Y 3%nat ltac:(lia)). + exact (Y 4%nat ltac:(lia)).
    + exact (Y 5%nat ltac:(lia)). + exact (Y 6%nat ltac:(lia)).
  - intros K ->. specialize (K mixed). revert K. apply nonzero; vm_compute; reflexivity.
Qed.

(** ** No associativity *)
Definition along (v : f64) (t : ty) : val f64 t := fill (fun n => if Nat.eqb n 0 then v else B754_zero false) t.
Definition low : f64 := f64_lit 1 (-600).
Definition high : f64 := f64_lit 1 600.
Definition tys := [TDub; TSca; TVec; TBiv; TTri; TSpin; TImsp; TCplx; TDplx; TMvec].
Definition unassoc (a b c : ty) : bool :=
  negb (samesb (parts _ (mul (mulTy a b) c (mul a b (along low a) (along low b)) (along high c)))
               (parts _ (mul a (mulTy b c) (along low a) (mul b c (along low b) (along high c))))).
Lemma unassoc_all : forallb (fun a => forallb (fun b => forallb (unassoc a b) tys) tys) tys = true.
Proof. vm_compute. reflexivity. Qed.
Lemma in_tys : forall t, In t tys.
Proof. intros t. destruct t; cbn; tauto. Qed.
Theorem associate_bits : forall a b c, exists (x : val f64 a) (y : val f64 b) (z : val f64 c),
  ~ identical (parts _ (mul (mulTy a b) c (mul a b x y) z)) (parts _ (mul a (mulTy b c) x (mul b c y z))).
Proof.
  intros a b c. exists (along low a), (along low b), (along high c). apply differ.
  pose proof unassoc_all as K. apply (proj1 (forallb_forall _ _)) with (x := a) in K; [|apply in_tys]. apply (proj1 (forallb_forall _ _)) with (x := b) in K; [|apply in_tys].
  apply (proj1 (forallb_forall _ _)) with (x := c) in K; [|apply in_tys]. unfold unassoc in K. apply negb_true_iff in K. exact K.
Qed.
(** Zero times infinity in the absent parts of a MultiVector. *)
Lemma infinite_bits : ~ identical (parts _ (mul TVec TVec (Vec (B754_infinity false : f64) (f64_lit 1 0) (f64_lit 1 0)) (Vec (f64_lit 1 0) (f64_lit 1 0) (f64_lit 1 0))))
  (parts TMvec (mul TMvec TMvec (to_mv TVec (Vec (B754_infinity false : f64) (f64_lit 1 0) (f64_lit 1 0))) (to_mv TVec (Vec (f64_lit 1 0) (f64_lit 1 0) (f64_lit 1 0))))).
Proof. apply differ. vm_compute. reflexivity. Qed.

(** ** Example *)
Ltac fins := apply Forall_forall; let H := fresh in intros ? H; refine (proj1 (forallb_forall is_finite _) _ _ H); vm_compute; reflexivity.
Lemma wit_fin : forall t, all_finite t (wit t).
Proof. intros t. unfold all_finite. destruct t; fins. Qed.
Lemma wit'_fin : forall t, all_finite t (wit' t).
Proof. intros t. unfold all_finite. destruct t; fins. Qed.
Lemma example_bits : let x := wit TSpin in let y := wit' TSpin in
  ~ In (TSpin, TSpin) no_reverse /\ ~ In (TSpin, TDplx) no_dual_left /\ ~ In (TVec, TDplx) own_order /\
  finites (parts _ (mul TSpin TSpin x (reverse TSpin x))) /\ finites (parts _ (mul TSpin TSpin x (dirverse TSpin x))) /\
  ~ identical (parts _ (mul TSpin TSpin x y)) (parts _ (mul TSpin TSpin y x)) /\
  ~ identical (parts _ (mul TSpin TSpin x y)) (parts TMvec (mul TMvec TMvec (to_mv TSpin x) (to_mv TSpin y))).
Proof.
  intros x y. subst x y.
  split; [intros H; cbn in H; intuition discriminate|]. split; [intros H; cbn in H; intuition discriminate|].
  split; [intros H; cbn in H; intuition discriminate|]. unfold finites. split; [fins|]. split; [fins|].
  split; apply differ; vm_compute; reflexivity.
Qed.
