(** * nearlyEquals on arrays and objects, operator==: proofs. *)

Require Import Reals ZArith List Bool Lra Lia.
From Flocq Require Import Core BinarySingleNaN.
Require Import Verif.Num Verif.Types Verif.Priv Verif.Const Verif.Validity Verif.Compare
  Verif.Rel Verif.B64 Verif.B64Facts Verif.SpecCl Verif.SpecValid Verif.ValidFacts Verif.NullFacts
  Verif.CompareFacts.
Import ListNotations.
Local Open Scope R_scope.

(** ** Generic shape: an object compares through the arrays of its grades. *)
Definition grades {F} (t : ty) : val F t -> list (list F) :=
  match t with
  | TDub => fun x => [[x]]
  | TSca => fun x => [arr1_list (scaData x)]
  | TVec => fun x => [arr3_list (vecData x)]
  | TBiv => fun x => [arr3_list (bivData x)]
  | TTri => fun x => [arr1_list (triData x)]
  | TSpin => fun x => [arr1_list (scaData (spinSca x)); arr3_list (bivData (spinBiv x))]
  | TImsp => fun x => [arr3_list (vecData (imspVec x)); arr1_list (triData (imspTri x))]
  | TCplx => fun x => [arr1_list (scaData (cplxSca x)); arr1_list (triData (cplxTri x))]
  | TDplx => fun x => [arr3_list (vecData (dplxVec x)); arr3_list (bivData (dplxBiv x))]
  | TMvec => fun x => [arr1_list (scaData (mvSca x)); arr3_list (vecData (mvVec x));
                       arr3_list (bivData (mvBiv x)); arr1_list (triData (mvTri x))]
  end.
Lemma grades_elems : forall F t (x : val F t), concat (grades t x) = elems t x.
Proof. intros F t x; destruct t; dvs; reflexivity. Qed.
Fixpoint all2 {A} (f : A -> A -> bool) (l m : list A) : bool :=
  match l, m with
  | [], [] => true
  | x :: l', y :: m' => f x y && all2 f l' m'
  | _, _ => false
  end.
Lemma nearly_grades : forall {F} `{Arith F} t (x y : val F t) tol, t <> TDub ->
  nearlyEquals t x y tol = all2 (fun a b => nearlyEquals_arr a b tol) (grades t x) (grades t y).
Proof.
  intros F AF t x y tol Ht. destruct t; [now elim Ht|..]; dvs;
    cbv -[nearlyEquals_arr andb]; rewrite ?andb_true_r, ?andb_assoc; reflexivity.
Qed.
Lemma grades_nonempty : forall F t (x : val F t), Forall (fun l => l <> []) (grades t x).
Proof. intros F t x; destruct t; dvs; repeat constructor; discriminate. Qed.

(** ** Invalid operands and useless tolerances *)
Lemma arr_invalid : forall (a b : list f64) tol,
  Exists (fun v => isValid_Dub v = false) a \/ Exists (fun v => isValid_Dub v = false) b ->
  nearlyEquals_arr a b tol = false.
Proof.
  intros a b tol H. unfold nearlyEquals_arr.
  destruct H as [H|H]; rewrite (isValid_arr_false _ H); [|rewrite andb_false_r]; reflexivity.
Qed.
Lemma all2_false : forall A (f : A -> A -> bool) (P : A -> Prop),
  (forall a b, P a -> f a b = false) -> forall l m, Exists P l -> all2 f l m = false.
Proof.
  intros A f P Hf l. induction l as [|x l IH]; intros m H; [inversion H|].
  destruct m as [|y m]; [reflexivity|]. cbn. inversion H; subst.
  - rewrite Hf; auto.
  - rewrite IH; auto. apply andb_false_r.
Qed.
Lemma all2_false_r : forall A (f : A -> A -> bool) (P : A -> Prop),
  (forall a b, P b -> f a b = false) -> forall m l, Exists P m -> all2 f l m = false.
Proof.
  intros A f P Hf m. induction m as [|x m IH]; intros l H; [inversion H|].
  destruct l as [|y l]; [reflexivity|]. cbn. inversion H; subst.
  - rewrite Hf; auto.
  - rewrite IH; auto. apply andb_false_r.
Qed.
Lemma Exists_concat' : forall A (P : A -> Prop) (l : list (list A)), Exists P (concat l) -> Exists (Exists P) l.
Proof.
  intros A P l. induction l as [|a l IH]; cbn; intros H; [inversion H|].
  apply Exists_app in H. destruct H as [H|H]; [left; exact H|right; auto].
Qed.
Lemma invalid_exists : forall t (x : val f64 t), ~ all_valid t x ->
  Exists (fun v => isValid_Dub v = false) (elems t x).
Proof.
  intros t x H. unfold all_valid in H. apply Exists_exists.
  assert (D : Forall (fun v => isValid_Dub v = true) (elems t x) \/
              Exists (fun v => isValid_Dub v = false) (elems t x)).
  { clear H. induction (elems t x) as [|v l IH]; [left; constructor|].
    destruct (isValid_Dub v) eqn:E; [|right; left; exact E].
    destruct IH as [IH|IH]; [left; constructor; auto|right; right; auto]. }
  destruct D as [D|D]; [|apply Exists_exists; exact D].
  exfalso. apply H. eapply Forall_impl; [|exact D]. intros v. apply isValid_number.
Qed.
Lemma dub_invalid : forall x y tol : f64, isValid_Dub x = false \/ isValid_Dub y = false ->
  nearlyEqualsRel x y tol = false.
Proof.
  intros x y tol H. unfold nearlyEqualsRel, bothAreValid.
  destruct H as [H|H]; rewrite H; [|rewrite andb_false_r]; reflexivity.
Qed.
Lemma nearly_invalid : forall t (x y : val f64 t) tol, ~ all_valid t x \/ ~ all_valid t y ->
  nearlyEquals t x y tol = false.
Proof.
  intros t x y tol H.
  assert (D : Exists (fun v => isValid_Dub v = false) (elems t x) \/ Exists (fun v => isValid_Dub v = false) (elems t y)).
  { destruct H as [H|H]; [left|right]; apply invalid_exists, H. }
  clear H. assert (T : t = TDub \/ t <> TDub) by (destruct t; auto; right; discriminate).
  destruct T as [->|T].
  - apply dub_invalid. destruct D as [D|D]; inversion D as [? ? K|? ? K]; subst; try (inversion K; fail); auto.
  - rewrite nearly_grades by exact T. rewrite <- !grades_elems in D.
    destruct D as [D|D]; apply Exists_concat' in D.
    + eapply all2_false; [|exact D]. intros a b Ha. apply arr_invalid; auto.
    + eapply all2_false_r; [|exact D]. intros a b Ha. apply arr_invalid; auto.
Qed.

Lemma small_nonpos : forall v tol : f64, Bltb (B754_zero false) tol = false -> isSmallAbs v tol = false.
Proof.
  intros v tol H. destruct (isSmallAbs v tol) eqn:E; auto. apply small_pos in E. congruence.
Qed.
Lemma diff_nonpos : forall a b tol : f64, Bltb (B754_zero false) tol = false -> isSmallAbsDiff a b tol = false.
Proof. intros a b tol H. apply small_nonpos, H. Qed.
Lemma abs_nonpos : forall a b tol : f64, Bltb (B754_zero false) tol = false -> nearlyEqualsAbs a b tol = false.
Proof. intros a b tol H. unfold nearlyEqualsAbs. rewrite diff_nonpos by exact H. destruct (bothAreValid a b); reflexivity. Qed.
Lemma rel_nonpos : forall a b tol : f64, Bltb (B754_zero false) tol = false -> nearlyEqualsRel a b tol = false.
Proof.
  intros a b tol H. unfold nearlyEqualsRel. rewrite !diff_nonpos by exact H.
  destruct (bothAreValid a b); [destruct (nltb _ _)|]; reflexivity.
Qed.
Lemma allSmall_false : forall a b (tol : f64), allSmallDiff a b tol false = false.
Proof. intros [|x a] [|y b] tol; reflexivity. Qed.
Lemma arr_nonpos : forall (a b : list f64) tol, Bltb (B754_zero false) tol = false -> nearlyEquals_arr a b tol = false.
Proof.
  intros a b tol H. unfold nearlyEquals_arr. cbv zeta.
  destruct (_ && _); [|reflexivity]. destruct (nltb _ _).
  - destruct a, b; try reflexivity. rewrite abs_nonpos by exact H. apply allSmall_false.
  - apply small_nonpos, H.
Qed.
Lemma nearly_nonpos : forall t (x y : val f64 t) tol, Bltb (B754_zero false) tol = false ->
  nearlyEquals t x y tol = false.
Proof.
  intros t x y tol H. assert (T : t = TDub \/ t <> TDub) by (destruct t; auto; right; discriminate).
  destruct T as [->|T]; [apply rel_nonpos, H|]. rewrite nearly_grades by exact T.
  apply (all2_false _ _ (fun _ => True)); [intros; apply arr_nonpos, H|].
  destruct t; dvs; try (now elim T); left; exact I.
Qed.

(** ** Reflexivity *)
Definition nonneg (x : f64) : bool :=
  match x with B754_zero false | B754_infinity false | B754_finite false _ _ _ => true | _ => false end.
Lemma nonneg_fin : forall x : f64, fin x = true -> Bsign x = false -> nonneg x = true.
Proof. intros [[]|[]| |[] m e H]; cbn; congruence. Qed.
Lemma sq_nonneg : forall x : f64, fin x = true -> nonneg (Bmult mode_NE x x) = true.
Proof.
  intros x Hx. pose proof (Bmult_correct 53 1024 _ _ mode_NE x x) as C.
  destruct (Rlt_bool _ _).
  - destruct C as (_ & F & S). rewrite Hx in F. cbn in F. apply nonneg_fin; auto.
    rewrite S, xorb_nilpotent; auto. destruct (Bmult mode_NE x x); try reflexivity; discriminate F.
  - rewrite xorb_nilpotent in C. destruct (Bmult mode_NE x x) as [s|s| |s m e H]; cbn in C; try discriminate C.
    injection C as ->. reflexivity.
Qed.
Lemma nonneg_cases : forall x : f64, nonneg x = true -> (x = pinf) \/ (fin x = true /\ Bsign x = false).
Proof. intros [[]|[]| |[] m e H]; cbn; intros E; auto; discriminate. Qed.
Lemma nonneg_b2r : forall x : f64, nonneg x = true -> 0 <= b2r x.
Proof.
  intros [[]|[]| |[] m e H]; cbn; intros E; try discriminate; try lra.
  apply F2R_ge_0. cbn. lia.
Qed.
Lemma add_nonneg : forall x y : f64, nonneg x = true -> nonneg y = true -> nonneg (Bplus mode_NE x y) = true.
Proof.
  intros x y Hx Hy. pose proof (nonneg_b2r x Hx) as Rx. pose proof (nonneg_b2r y Hy) as Ry.
  destruct (nonneg_cases x Hx) as [->|[Fx Sx]].
  - destruct (nonneg_cases y Hy) as [->|[Fy Sy]]; [reflexivity|]. destruct y as [[]|[]| |[] m e H]; try discriminate; reflexivity.
  - destruct (nonneg_cases y Hy) as [->|[Fy Sy]]; [destruct x as [[]|[]| |[] m e H]; try discriminate; reflexivity|].
    pose proof (Bplus_correct 53 1024 _ _ mode_NE x y Fx Fy) as C. destruct (Rlt_bool _ _).
    + destruct C as (_ & F & S). apply nonneg_fin; auto. rewrite S, Sx, Sy.
      destruct (Rcompare_spec (b2r x + b2r y) 0); try reflexivity. lra.
    + destruct C as (C & _). rewrite Sx in C. destruct (Bplus mode_NE x y) as [s|s| |s m e H]; cbn in C; try discriminate C.
      injection C as ->. reflexivity.
Qed.
Lemma inner_nonneg : forall (l : list f64) (acc : f64), Forall (fun v => fin v = true) l -> nonneg acc = true ->
  nonneg (inner_product l l acc) = true.
Proof.
  induction l as [|x l IH]; intros acc Hl Ha; cbn [inner_product]; auto. inversion Hl; subst.
  apply IH; auto. apply add_nonneg; auto. apply sq_nonneg; auto.
Qed.
Lemma sumSq_self : forall l : list f64, Forall (fun v => fin v = true) l ->
  sumSqDif l l (B754_zero false : f64) = (B754_zero false : f64).
Proof.
  induction l as [|x l IH]; intros Hl; cbn [sumSqDif]; auto. inversion Hl; subst. cbv zeta.
  change (nsub x x) with (Bminus mode_NE x x). rewrite sub_self by assumption. apply IH. assumption.
Qed.
Lemma allSmall_self : forall (l : list f64) tol, Forall (fun v => fin v = true) l ->
  Bltb (B754_zero false) tol = true -> allSmallDiff l l tol true = true.
Proof.
  induction l as [|x l IH]; intros tol Hl Ht; cbn [allSmallDiff]; auto. inversion Hl; subst.
  rewrite diff_refl by assumption. apply IH; assumption.
Qed.
Lemma min_lit : fin (lim_min : f64) = true /\ b2r (lim_min : f64) = bpow radix2 (-1022).
Proof. apply pow_lit. lia. Qed.
Lemma arr_refl : forall (l : list f64) tol, l <> [] -> Forall valid_number l ->
  Bltb (B754_zero false) tol = true -> nearlyEquals_arr l l tol = true.
Proof.
  intros l tol Hn Hl Ht. unfold nearlyEquals_arr. cbv zeta.
  assert (Hf : Forall (fun v => fin v = true) l) by (eapply Forall_impl; [|exact Hl]; apply valid_fin).
  assert (Hv : isValid_arr l = true).
  { apply isValid_arr_true; auto. eapply Forall_impl; [|exact Hl]. intros v. apply isValid_number. }
  rewrite Hv. cbn [andb].
  change (nzero : f64) with (B754_zero false : f64).
  rewrite sumSq_self by exact Hf.
  pose proof (inner_nonneg l (B754_zero false) Hf eq_refl) as Hi.
  set (r := inner_product l l (B754_zero false : f64)) in *. clearbody r.
  destruct (nltb (nsqrt r) lim_min) eqn:E.
  - destruct l as [|x l]; [congruence|]. inversion Hl; inversion Hf; subst.
    rewrite abs_refl by assumption. apply allSmall_self; assumption.
  - assert (D : ndiv (B754_zero false : f64) r = (B754_zero false : f64)).
    { destruct r as [[]|[]| |[] m e H]; try discriminate Hi; try reflexivity.
      exfalso. change (Bltb (B754_zero false) (lim_min : f64) = false) in E.
      rewrite Bltb_correct in E by (try reflexivity; apply min_lit).
      rewrite (proj2 min_lit) in E. rewrite Rlt_bool_true in E; [discriminate|apply bpow_gt_0]. }
    rewrite D. exact Ht.
Qed.
Lemma all2_refl : forall A (f : A -> A -> bool) l, Forall (fun a => f a a = true) l -> all2 f l l = true.
Proof. intros A f l H. induction H as [|x l Hx Hl IH]; cbn; auto. rewrite Hx. exact IH. Qed.
Lemma nearly_refl : forall t (x : val f64 t) tol, all_valid t x -> Bltb (B754_zero false) tol = true ->
  nearlyEquals t x x tol = true.
Proof.
  intros t x tol H Ht. assert (T : t = TDub \/ t <> TDub) by (destruct t; auto; right; discriminate).
  destruct T as [->|T].
  - apply rel_refl; auto. unfold all_valid in H. inversion H; assumption.
  - rewrite nearly_grades by exact T. apply all2_refl. unfold all_valid in H. rewrite <- grades_elems in H.
    pose proof (grades_nonempty _ t x) as N. revert N H. induction (grades t x) as [|a l IH]; intros N H; constructor.
    + cbn in H. apply Forall_app in H. inversion N; subst. apply arr_refl; tauto.
    + cbn in H. apply Forall_app in H. inversion N; subst. apply IH; tauto.
Qed.

(** ** operator== *)
Lemma eqeq_elems : forall {F} `{Arith F} t f (x y : val F t), eqeq t = Some f ->
  f x y = all2 neqb (elems t x) (elems t y).
Proof.
  intros F AF t f x y E. destruct t; try discriminate E; injection E as <-; dvs;
    cbv -[neqb andb]; rewrite ?andb_true_r, ?andb_assoc; reflexivity.
Qed.
Lemma beqb_sym : forall x y : f64, Beqb x y = Beqb y x.
Proof.
  intros x y. unfold Beqb, SpecFloat.SFeqb. pose proof (Bcompare_swap 53 1024 x y) as S. unfold Bcompare in S.
  rewrite S. destruct (SpecFloat.SFcompare (B2SF x) (B2SF y)) as [[]|]; reflexivity.
Qed.
Lemma beqb_cases : forall x y : f64, Beqb x y = true <->
  (is_nan x = false /\ x = y) \/ (fin x = true /\ fin y = true /\ b2r x = 0 /\ b2r y = 0).
Proof.
  intros x y. split.
  - intros E. destruct (fin x) eqn:Fx; [destruct (fin y) eqn:Fy|].
    + rewrite Beqb_correct in E by assumption.
      destruct (Req_bool_spec (b2r x) (b2r y)) as [K|K]; [|discriminate].
      destruct (Req_dec (b2r x) 0) as [Z|Z]; [right; repeat split; congruence|]. left.
      split; [destruct x; try reflexivity; discriminate|].
      destruct x as [s|s| |s m e H], y as [s'|s'| |s' m' e' H']; try discriminate; try (cbn in Z, K; exfalso; lra).
      apply B2R_inj; auto.
    + exfalso. destruct x as [s|s| |[] m e H], y as [s'|[]| |s' m' e' H']; discriminate.
    + destruct x as [s|[]| |s m e H], y as [s'|[]| |[] m' e' H']; try discriminate; left; auto.
  - intros [[N <-]|(Fx & Fy & Zx & Zy)].
    + rewrite Beqb_refl, N. reflexivity.
    + rewrite Beqb_correct by assumption. apply Req_bool_true. congruence.
Qed.
Lemma all2_spec : forall A (f : A -> A -> bool) l m, all2 f l m = true <-> Forall2 (fun a b => f a b = true) l m.
Proof.
  intros A f l. induction l as [|x l IH]; intros [|y m]; cbn; split; intros H; try discriminate; try (constructor; fail);
    try (inversion H; fail).
  - apply andb_prop in H. constructor; [tauto|]. apply IH; tauto.
  - inversion H; subst. rewrite H3. apply IH; assumption.
Qed.
