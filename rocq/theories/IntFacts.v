(** * Exactness on small integers: proofs. *)

Require Import Reals ZArith List Bool Lra Lia.
From Flocq Require Import Core BinarySingleNaN.
Require Import Verif.Num Verif.Types Verif.Priv Verif.OpsUni Verif.OpsAdd Verif.OpsSub
  Verif.OpsMul Verif.Const Verif.Func Verif.SpecCl Verif.RealInst Verif.AlgMul Verif.AlgFacts Verif.AlgThm Verif.Rel
  Verif.B64 Verif.B64Facts Verif.SpecRound.
Import ListNotations.
Local Open Scope R_scope.

(** Exact value and a bound of its magnitude. *)
Definition RZ : Type := (R * Z)%type.
Definition Ring0_RZ : Ring0 RZ := {|
  nzero := (0, 1%Z); none_ := (1, 1%Z);
  nadd p q := (fst p + fst q, (snd p + snd q)%Z);
  nsub p q := (fst p - fst q, (snd p + snd q)%Z);
  nmul p q := (fst p * fst q, (snd p * snd q)%Z);
  nopp p := (- fst p, snd p) |}.
(** Bounds alone. *)
Definition Ring0_bound : Ring0 Z := {|
  nzero := 1%Z; none_ := 1%Z; nadd := Z.add; nsub := Z.add; nmul := Z.mul; nopp := fun z => z |}.

Definition good (x : f64) (p : RZ) : Prop :=
  (1 <= snd p)%Z /\ ((snd p <= 2 ^ 53)%Z ->
   fin x = true /\ exists n : Z, fst p = IZR n /\ (Z.abs n <= snd p)%Z /\ b2r x = fst p).

Lemma rnd_int : forall n : Z, (Z.abs n <= 2 ^ 53)%Z -> rnd64 (IZR n) = IZR n.
Proof. intros n Hn. apply round_generic; [apply valid_rnd_N|apply int_format, Hn]. Qed.
Lemma int_lt : forall n : Z, (Z.abs n <= 2 ^ 53)%Z -> Rabs (IZR n) < bpow radix2 1024.
Proof.
  intros n Hn. rewrite <- abs_IZR. apply Rle_lt_trans with (bpow radix2 53); [|apply bpow_lt; lia].
  change (bpow radix2 53) with (IZR (2 ^ 53)). apply IZR_le, Hn.
Qed.
Lemma good_rel : ring_rel Ring0_B Ring0_RZ good.
Proof.
  split.
  - split; cbn; [lia|]. intros _. split; [reflexivity|]. exists 0%Z. repeat split; lia.
  - split; cbn [snd fst none_ Ring0_RZ]; [lia|]. intros _. destruct one_ok as [A B]. split; [exact A|]. exists 1%Z.
    repeat split; [lia|exact B].
  - intros a b p q [P1 Hp] [Q1 Hq]. destruct p as [p pb], q as [q qb]. unfold good; cbn [fst snd nadd nsub nmul nopp Ring0_RZ Ring0_B] in *. split; [lia|]. intros B.
    destruct Hp as (Fa & n & E1 & B1 & R1); [lia|]. destruct Hq as (Fb & m & E2 & B2 & R2); [lia|].
    assert (Bn : (Z.abs (n + m) <= 2 ^ 53)%Z) by lia.
    assert (Rn : b2r a + b2r b = IZR (n + m)) by (rewrite R1, R2, E1, E2, plus_IZR; reflexivity).
    destruct (bplus_ok a b Fa Fb) as [F E]; [rewrite Rn, rnd_int by exact Bn; apply int_lt, Bn|].
    split; [exact F|]. exists (n + m)%Z. rewrite E, Rn, rnd_int, plus_IZR, E1, E2 by exact Bn. repeat split. lia.
  - intros a b p q [P1 Hp] [Q1 Hq]. destruct p as [p pb], q as [q qb]. unfold good; cbn [fst snd nadd nsub nmul nopp Ring0_RZ Ring0_B] in *. split; [lia|]. intros B.
    destruct Hp as (Fa & n & E1 & B1 & R1); [lia|]. destruct Hq as (Fb & m & E2 & B2 & R2); [lia|].
    assert (Bn : (Z.abs (n - m) <= 2 ^ 53)%Z) by lia.
    assert (Rn : b2r a - b2r b = IZR (n - m)) by (rewrite R1, R2, E1, E2, minus_IZR; reflexivity).
    destruct (bminus_ok a b Fa Fb) as [F E]; [rewrite Rn, rnd_int by exact Bn; apply int_lt, Bn|].
    split; [exact F|]. exists (n - m)%Z. rewrite E, Rn, rnd_int, minus_IZR, E1, E2 by exact Bn. repeat split. lia.
  - intros a b p q [P1 Hp] [Q1 Hq]. destruct p as [p pb], q as [q qb]. unfold good; cbn [fst snd nadd nsub nmul nopp Ring0_RZ Ring0_B] in *. split; [nia|]. intros B.
    destruct Hp as (Fa & n & E1 & B1 & R1); [nia|]. destruct Hq as (Fb & m & E2 & B2 & R2); [nia|].
    assert (Bm : (Z.abs (n * m) <= pb * qb)%Z) by (rewrite Z.abs_mul; apply Z.mul_le_mono_nonneg; lia).
    assert (Bn : (Z.abs (n * m) <= 2 ^ 53)%Z) by lia.
    assert (Rn : b2r a * b2r b = IZR (n * m)) by (rewrite R1, R2, E1, E2, mult_IZR; reflexivity).
    destruct (bmult_ok a b Fa Fb) as [F E]; [rewrite Rn, rnd_int by exact Bn; apply int_lt, Bn|].
    split; [exact F|]. exists (n * m)%Z. rewrite E, Rn, rnd_int, mult_IZR, E1, E2 by exact Bn. repeat split. lia.
  - intros a p [P1 Hp]. destruct p as [p pb]. unfold good; cbn [fst snd nadd nsub nmul nopp Ring0_RZ Ring0_B] in *. split; [lia|]. intros B.
    destruct Hp as (Fa & n & E1 & B1 & R1); [lia|]. split; [change (fin (Bopp a) = true); rewrite is_finite_Bopp; exact Fa|].
    exists (- n)%Z. change (nopp a) with (Bopp a). rewrite opp_IZR, E1, B2R_Bopp, R1, E1. repeat split. lia.
Qed.
Definition isfst (p : RZ) (r : R) : Prop := fst p = r.
Definition issnd (p : RZ) (z : Z) : Prop := snd p = z.
Lemma fst_rel : ring_rel Ring0_RZ Ring0_R isfst.
Proof. split; unfold isfst; cbn; intros; subst; reflexivity. Qed.
Lemma snd_rel : ring_rel Ring0_RZ Ring0_bound issnd.
Proof. split; unfold issnd; cbn; intros; subst; reflexivity. Qed.

(** An operand with all bounds 2^24, and its exact value. *)
Definition pairs (t : ty) (x : val f64 t) : val RZ t := mapv (fun v : f64 => (b2r v, (2 ^ 24)%Z)) t x.
Definition exactv (t : ty) (x : val f64 t) : val R t := mapv (fun v : f64 => b2r v) t x.
Lemma elems_mapv : forall A B (f : A -> B) t (x : val A t), elems t (mapv f t x) = map f (elems t x).
Proof. intros A B f t x; destruct t; dvs; reflexivity. Qed.
Lemma pairs_good : forall t x, small_integers t x -> relv good t x (pairs t x).
Proof.
  intros t x H. unfold relv, pairs. rewrite elems_mapv. unfold small_integers in H.
  induction H as [|v l (F & n & B & E) Hl IH]; cbn [map]; constructor; auto.
  split; cbn [fst snd]; [lia|]. intros _. split; [exact F|]. exists n. auto.
Qed.
Lemma pairs_fst : forall t x, relv isfst t (pairs t x) (exactv t x).
Proof.
  intros t x. unfold relv, pairs, exactv. rewrite !elems_mapv. induction (elems t x); cbn [map]; constructor; auto. reflexivity.
Qed.
Lemma pairs_snd : forall t x, relv issnd t (pairs t x) (mapv (fun _ : f64 => (2 ^ 24)%Z) t x).
Proof.
  intros t x. unfold relv, pairs. rewrite !elems_mapv. induction (elems t x); cbn [map]; constructor; auto. reflexivity.
Qed.

(** Finite components with given exact values. *)
Definition exact_rel (v : f64) (r : R) : Prop := fin v = true /\ b2r v = r.
Lemma exact_list : forall (l : list f64) (m : list RZ) (r : list R) (z : list Z),
  Forall2 good l m -> Forall2 isfst m r -> Forall2 issnd m z -> Forall (fun b => (b <= 2 ^ 53)%Z) z ->
  Forall2 exact_rel l r.
Proof.
  intros l m r z G. revert r z. induction G as [|v p l m Gv G IH]; intros r z A B C;
    inversion A; inversion B; subst; constructor.
  - destruct Gv as [_ Gv]. unfold isfst, issnd in *. subst. inversion C; subst. destruct Gv as (F & n & E1 & _ & E2); [assumption|].
    split; auto.
  - inversion C; subst. eapply IH; eauto.
Qed.
Definition constv {A} (c : A) (t : ty) : val A t :=
  match t with
  | TDub => c | TSca => Sca c | TVec => Vec c c c | TBiv => Biv c c c | TTri => Tri c
  | TSpin => mkSpin (Sca c) (Biv c c c) | TImsp => mkImsp (Vec c c c) (Tri c)
  | TCplx => mkCplx (Sca c) (Tri c) | TDplx => mkDplx (Vec c c c) (Biv c c c)
  | TMvec => mkMvec (Sca c) (Vec c c c) (Biv c c c) (Tri c)
  end.
Lemma mapv_const : forall A B (c : B) t (x : val A t), mapv (fun _ => c) t x = constv c t.
Proof. intros A B c t x; destruct t; dvs; reflexivity. Qed.
Lemma forallb_le : forall l, forallb (fun z => Z.leb z (2 ^ 53)) l = true -> Forall (fun z => (z <= 2 ^ 53)%Z) l.
Proof. intros l H. rewrite forallb_forall in H. apply Forall_forall. intros z Hz. apply Z.leb_le, H, Hz. Qed.
Lemma mul_bound : forall a b (x : val f64 a) (y : val f64 b),
  Forall (fun z => (z <= 2 ^ 53)%Z) (elems (mulTy a b)
    (@mul Z Ring0_bound a b (mapv (fun _ : f64 => (2 ^ 24)%Z) a x) (mapv (fun _ : f64 => (2 ^ 24)%Z) b y))).
Proof.
  intros a b x y. rewrite !mapv_const. apply forallb_le. clear. destruct a, b; vm_compute; reflexivity.
Qed.
Lemma add_bound : forall a b (x : val f64 a) (y : val f64 b),
  if_exists (fun t r => Forall (fun z => (z <= 2 ^ 53)%Z) (elems t r)) (addTy a b)
    (@add Z Ring0_bound a b (mapv (fun _ : f64 => (2 ^ 24)%Z) a x) (mapv (fun _ : f64 => (2 ^ 24)%Z) b y)).
Proof.
  intros a b x y. rewrite !mapv_const. clear. destruct a, b; try exact I; apply forallb_le; vm_compute; reflexivity.
Qed.
Lemma sub_bound : forall a b (x : val f64 a) (y : val f64 b),
  if_exists (fun t r => Forall (fun z => (z <= 2 ^ 53)%Z) (elems t r)) (subTy a b)
    (@sub Z Ring0_bound a b (mapv (fun _ : f64 => (2 ^ 24)%Z) a x) (mapv (fun _ : f64 => (2 ^ 24)%Z) b y)).
Proof.
  intros a b x y. rewrite !mapv_const. clear. destruct a, b; try exact I; apply forallb_le; vm_compute; reflexivity.
Qed.
Lemma magSq_bound : forall t (x : val f64 t),
  (@magSq Z Ring0_bound t (mapv (fun _ : f64 => (2 ^ 24)%Z) t x) <= 2 ^ 53)%Z.
Proof. intros t x. rewrite mapv_const. clear. apply Z.leb_le. destruct t; vm_compute; reflexivity. Qed.

(** Two values with the same components are the same. *)
Lemma exact_val : forall t (x : val f64 t) (r : val R t), relv exact_rel t x r ->
  all_finite t x /\ exactv t x = r.
Proof.
  intros t x r H. unfold relv in H. split.
  - unfold all_finite. induction H as [|? ? ? ? [? _]]; constructor; auto.
  - unfold exactv. destruct t; dvs; cbv -[exact_rel B2R] in H |- *; inv2; unfold exact_rel in *;
      repeat match goal with H : _ /\ _ |- _ => destruct H end; subst; reflexivity.
Qed.
Lemma mul_exact : forall a b (x : val f64 a) (y : val f64 b), small_integers a x -> small_integers b y ->
  all_finite (mulTy a b) (mul a b x y) /\
  ceq (exactly (mulTy a b) (mul a b x y)) (gp (exactly a x) (exactly b y)).
Proof.
  intros a b x y Hx Hy.
  pose proof (mul_rel good_rel a b _ _ _ _ (pairs_good a x Hx) (pairs_good b y Hy)) as G.
  pose proof (mul_rel fst_rel a b _ _ _ _ (pairs_fst a x) (pairs_fst b y)) as P1.
  pose proof (mul_rel snd_rel a b _ _ _ _ (pairs_snd a x) (pairs_snd b y)) as P2.
  pose proof (exact_list _ _ _ _ G P1 P2 (mul_bound a b x y)) as E.
  apply exact_val in E. destruct E as [F E]. split; [exact F|].
  intros k. unfold exactly. fold (exactv (mulTy a b) (mul a b x y)). rewrite E. apply mul_den.
Qed.
Lemma add_exact : forall a b (x : val f64 a) (y : val f64 b), small_integers a x -> small_integers b y ->
  if_exists (fun t r => all_finite t r /\ ceq (exactly t r) (cadd (exactly a x) (exactly b y)))
    (addTy a b) (add a b x y).
Proof.
  intros a b x y Hx Hy.
  pose proof (add_rel good_rel a b _ _ _ _ (pairs_good a x Hx) (pairs_good b y Hy)) as G.
  pose proof (add_rel fst_rel a b _ _ _ _ (pairs_fst a x) (pairs_fst b y)) as P1.
  pose proof (add_rel snd_rel a b _ _ _ _ (pairs_snd a x) (pairs_snd b y)) as P2.
  pose proof (add_bound a b x y) as B. pose proof (add_den a b (exactv a x) (exactv b y)) as D.
  revert G P1 P2 B D. generalize (add a b x y), (@add RZ Ring0_RZ a b (pairs a x) (pairs b y)),
    (@add R Ring0_R a b (exactv a x) (exactv b y)),
    (@add Z Ring0_bound a b (mapv (fun _ : f64 => (2 ^ 24)%Z) a x) (mapv (fun _ : f64 => (2 ^ 24)%Z) b y)).
  destruct (addTy a b) as [t|]; cbn [relo if_exists oval]; [|trivial]. intros r p q z G P1 P2 B D.
  pose proof (exact_list _ _ _ _ G P1 P2 B) as E. apply exact_val in E. destruct E as [F E]. split; [exact F|].
  intros k. unfold exactly. fold (exactv t r). rewrite E. apply D.
Qed.
Lemma sub_exact : forall a b (x : val f64 a) (y : val f64 b), small_integers a x -> small_integers b y ->
  if_exists (fun t r => all_finite t r /\ ceq (exactly t r)
      (if backward_sub a b then csub (exactly b y) (exactly a x) else csub (exactly a x) (exactly b y)))
    (subTy a b) (sub a b x y).
Proof.
  intros a b x y Hx Hy.
  pose proof (sub_rel good_rel a b _ _ _ _ (pairs_good a x Hx) (pairs_good b y Hy)) as G.
  pose proof (sub_rel fst_rel a b _ _ _ _ (pairs_fst a x) (pairs_fst b y)) as P1.
  pose proof (sub_rel snd_rel a b _ _ _ _ (pairs_snd a x) (pairs_snd b y)) as P2.
  pose proof (sub_bound a b x y) as B. pose proof (sub_den a b (exactv a x) (exactv b y)) as D.
  revert G P1 P2 B D. generalize (sub a b x y), (@sub RZ Ring0_RZ a b (pairs a x) (pairs b y)),
    (@sub R Ring0_R a b (exactv a x) (exactv b y)),
    (@sub Z Ring0_bound a b (mapv (fun _ : f64 => (2 ^ 24)%Z) a x) (mapv (fun _ : f64 => (2 ^ 24)%Z) b y)).
  destruct (subTy a b) as [t|]; cbn [relo if_exists oval]; [|trivial]. intros r p q z G P1 P2 B D.
  pose proof (exact_list _ _ _ _ G P1 P2 B) as E. apply exact_val in E. destruct E as [F E]. split; [exact F|].
  intros k. unfold exactly. fold (exactv t r). rewrite E. apply D.
Qed.
Lemma magSq_exact : forall t (x : val f64 t), small_integers t x ->
  fin (magSq t x) = true /\ b2r (magSq t x) = cnorm2 (exactly t x).
Proof.
  intros t x Hx.
  pose proof (magSq_rel good_rel t _ _ (pairs_good t x Hx)) as [_ G].
  pose proof (magSq_rel fst_rel t _ _ (pairs_fst t x)) as P1.
  pose proof (magSq_rel snd_rel t _ _ (pairs_snd t x)) as P2.
  unfold isfst, issnd in *. rewrite P2 in G. destruct G as (F & n & _ & _ & E); [apply magSq_bound|].
  split; [exact F|]. etransitivity; [exact E|]. rewrite P1. apply magSq_den.
Qed.
