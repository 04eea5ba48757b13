(** * Following non-finite numbers through the operators (proofs only).

    A run of the model on booleans ([true] = spoilt) tells which components
    must be spoilt; [spoils P] says that once an operand has property [P], so
    has the result. *)

Require Import ZArith Bool List.
From Flocq Require Import Core BinarySingleNaN.
Require Import Verif.Num Verif.Types Verif.Priv Verif.OpsUni Verif.OpsAdd Verif.OpsSub
  Verif.OpsMul Verif.Const Verif.Func Verif.Rel Verif.B64 Verif.B64Facts.
Import ListNotations.

Global Instance Ring0_taint : Ring0 bool := {|
  nzero := false; none_ := false; nadd := orb; nsub := orb; nmul := orb; nopp := fun b => b
|}.

Record spoils (P : f64 -> bool) : Prop := {
  sp_add_l : forall x y, P x = true -> P (nadd x y) = true;
  sp_add_r : forall x y, P y = true -> P (nadd x y) = true;
  sp_sub_l : forall x y, P x = true -> P (nsub x y) = true;
  sp_sub_r : forall x y, P y = true -> P (nsub x y) = true;
  sp_mul_l : forall x y, P x = true -> P (nmul x y) = true;
  sp_mul_r : forall x y, P y = true -> P (nmul x y) = true;
  sp_opp : forall x, P x = true -> P (nopp x) = true
}.

Lemma taint_rel : forall P, spoils P ->
  ring_rel Ring0_B Ring0_taint (fun x b => b = true -> P x = true).
Proof.
  intros P H. split; cbn [nzero none_ nadd nsub nmul nopp Ring0_taint].
  - discriminate.
  - discriminate.
  - intros a b c d Ha Hb E. apply orb_prop in E. destruct E as [E|E];
      [apply (sp_add_l P H)|apply (sp_add_r P H)]; auto.
  - intros a b c d Ha Hb E. apply orb_prop in E. destruct E as [E|E];
      [apply (sp_sub_l P H)|apply (sp_sub_r P H)]; auto.
  - intros a b c d Ha Hb E. apply orb_prop in E. destruct E as [E|E];
      [apply (sp_mul_l P H)|apply (sp_mul_r P H)]; auto.
  - intros a c Ha E. apply (sp_opp P H); auto.
Qed.

Lemma spoils_nan : spoils is_nan.
Proof.
  split; [exact bplus_nan_l|exact bplus_nan_r|exact bminus_nan_l|exact bminus_nan_r
    |exact bmult_nan_l|exact bmult_nan_r|].
  intros x H. cbn. rewrite is_nan_Bopp. exact H.
Qed.

Definition nonfin (x : f64) : bool := negb (fin x).
Lemma nonfin_true : forall x, nonfin x = true <-> fin x = false.
Proof. intros x; unfold nonfin; destruct (fin x); split; cbn; congruence. Qed.

Lemma spoils_nonfin : spoils nonfin.
Proof.
  assert (A : forall x y : f64, nonfin (nadd x y) = true \/ (fin x = true /\ fin y = true)).
  { intros x y. destruct (fin (nadd x y)) eqn:E; [right|left; apply nonfin_true; exact E].
    apply bplus_fin in E. tauto. }
  assert (S : forall x y : f64, nonfin (nsub x y) = true \/ (fin x = true /\ fin y = true)).
  { intros x y. destruct (fin (nsub x y)) eqn:E; [right|left; apply nonfin_true; exact E].
    apply bminus_fin in E. tauto. }
  assert (M : forall x y : f64, nonfin (nmul x y) = true \/ (fin x = true /\ fin y = true)).
  { intros x y. destruct (fin (nmul x y)) eqn:E; [right|left; apply nonfin_true; exact E].
    apply bmult_fin in E. tauto. }
  split; [intros x y H; apply nonfin_true in H..|intros x H; apply nonfin_true in H].
  - destruct (A x y) as [K|[K1 K2]]; [exact K|congruence].
  - destruct (A x y) as [K|[K1 K2]]; [exact K|congruence].
  - destruct (S x y) as [K|[K1 K2]]; [exact K|congruence].
  - destruct (S x y) as [K|[K1 K2]]; [exact K|congruence].
  - destruct (M x y) as [K|[K1 K2]]; [exact K|congruence].
  - destruct (M x y) as [K|[K1 K2]]; [exact K|congruence].
  - apply nonfin_true. cbn. rewrite is_finite_Bopp. exact H.
Qed.

(** The taint pattern of a value. *)
Definition pat (P : f64 -> bool) (t : ty) (x : val f64 t) : val bool t := mapv P t x.
Lemma pat_rel : forall P t x, relv (fun x b => b = true -> P x = true) t x (pat P t x).
Proof.
  intros P t x; unfold relv, pat; destruct t; dvs; cbv;
    repeat (apply Forall2_cons; [exact (fun H => H)|]); apply Forall2_nil.
Qed.
(** The pattern claiming nothing. *)
Definition clean (t : ty) : val bool t := zero t.
Lemma clean_rel : forall P t (x : val f64 t), relv (fun x b => b = true -> P x = true) t x (clean t).
Proof.
  intros P t x; unfold relv, clean; destruct t; dvs; cbv;
    repeat (apply Forall2_cons; [discriminate|]); apply Forall2_nil.
Qed.

Lemma rel_Forall : forall P t (x : val f64 t) (b : val bool t),
  relv (fun x b => b = true -> P x = true) t x b ->
  Exists (fun v => v = true) (elems t b) -> Exists (fun v => P v = true) (elems t x).
Proof.
  intros P t x b H E. unfold relv in H. revert E. induction H as [|v w l l' Hv Hl IH]; intros E.
  - inversion E.
  - inversion E; subst; [left; auto|right; auto].
Qed.

(** Some component of the result is spoilt as soon as some component of an
    operand is. *)
Lemma pat_Exists : forall P t x, Exists (fun v => P v = true) (elems t x) ->
  Exists (fun v => v = true) (elems t (pat P t x)).
Proof.
  intros P t x H. unfold pat. assert (E : elems t (mapv P t x) = map P (elems t x)).
  { destruct t; dvs; reflexivity. }
  rewrite E. apply Exists_exists in H. destruct H as (v & Hv & Pv).
  apply Exists_exists. exists (P v). split; [apply in_map; exact Hv|exact Pv].
Qed.

Definition anyb (t : ty) (b : val bool t) : bool := existsb (fun v => v) (elems t b).
Lemma anyb_Exists : forall t b, anyb t b = true <-> Exists (fun v => v = true) (elems t b).
Proof.
  intros t b. unfold anyb. rewrite existsb_exists, Exists_exists. split; intros (v & H); exists v; tauto.
Qed.
Definition anybo (o : option ty) : oval bool o -> bool :=
  match o with Some t => anyb t | None => fun _ => true end.

Ltac bools := dvs; repeat match goal with b : bool |- _ => destruct b end;
  first [reflexivity | discriminate].

Lemma mul_taint_l : forall a b (x : val bool a) , anyb a x = true ->
  anyb (mulTy a b) (mul a b x (clean b)) = true.
Proof. intros a b x; destruct a, b; bools. Qed.
Lemma mul_taint_r : forall a b (y : val bool b) , anyb b y = true ->
  anyb (mulTy a b) (mul a b (clean a) y) = true.
Proof. intros a b x; destruct a, b; bools. Qed.
Lemma add_taint_l : forall a b (x : val bool a) , anyb a x = true ->
  anybo (addTy a b) (add a b x (clean b)) = true.
Proof. intros a b x; destruct a, b; try reflexivity; bools. Qed.
Lemma add_taint_r : forall a b (y : val bool b) , anyb b y = true ->
  anybo (addTy a b) (add a b (clean a) y) = true.
Proof. intros a b x; destruct a, b; try reflexivity; bools. Qed.
Lemma sub_taint_l : forall a b (x : val bool a) , anyb a x = true ->
  anybo (subTy a b) (sub a b x (clean b)) = true.
Proof. intros a b x; destruct a, b; try reflexivity; bools. Qed.
Lemma sub_taint_r : forall a b (y : val bool b) , anyb b y = true ->
  anybo (subTy a b) (sub a b (clean a) y) = true.
Proof. intros a b x; destruct a, b; try reflexivity; bools. Qed.
