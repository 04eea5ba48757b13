(** * Products, sums and squared magnitudes that do not overflow: proofs. *)

Require Import Reals ZArith List Bool Lra Lia.
From Flocq Require Import Core BinarySingleNaN.
Require Import Verif.Num Verif.Types Verif.Priv Verif.OpsUni Verif.OpsAdd Verif.OpsSub
  Verif.OpsMul Verif.Const Verif.Func Verif.SpecCl Verif.RealInst Verif.AlgMul Verif.AlgFacts Verif.Rel
  Verif.B64 Verif.B64Facts Verif.SpecRound Verif.IntFacts Verif.SpecAcc.
Import ListNotations.
Local Open Scope R_scope.

(** Symbolic bounds: zero, a component of the first or the second operand, a
    sum of two components, a sum of [n] products; [Bad]: anything else. *)
Inductive tag : Type := Z0 | L1 | L2 | Sm | Pr (n : nat) | Bad.
Definition tadd (same : bool) (p q : tag) : tag :=
  match p, q with
  | Z0, t => t
  | t, Z0 => t
  | L1, L2 | L2, L1 => if same then Sm else Bad
  | Pr n, Pr m => Pr (n + m)
  | _, _ => Bad
  end.
Definition tmul (same : bool) (p q : tag) : tag :=
  match p, q with
  | Z0, (Z0 | L1 | L2) => Z0
  | (L1 | L2), Z0 => Z0
  | L1, L2 | L2, L1 => Pr 1
  | L1, L1 | L2, L2 => if same then Pr 1 else Bad
  | _, _ => Bad
  end.
Definition Ring0_tag (same : bool) : Ring0 tag := {|
  nzero := Z0; none_ := Bad; nadd := tadd same; nsub := tadd same; nmul := tmul same; nopp := fun t => t |}.

Section Bounds.
Context (a b : Z) (same : bool) (Hsame : same = true -> a = b).

Definition tbound (t : tag) : R :=
  match t with
  | Z0 | Bad => 0
  | L1 => bpow radix2 a
  | L2 => bpow radix2 b
  | Sm => bpow radix2 (a + 1)
  | Pr n => INR n * bpow radix2 (a + b)
  end.
Definition tok (t : tag) : Prop :=
  match t with
  | Bad => False
  | Pr n => (n <= 8)%nat /\ (-1074 <= a + b)%Z /\ (a + b + 3 <= 1023)%Z
  | Sm => same = true /\ (-1075 <= a <= 1022)%Z
  | _ => True
  end.
Definition bounded (x : f64) (t : tag) : Prop := tok t -> fin x = true /\ Rabs (b2r x) <= tbound t.

Lemma rnd_le_format : forall x m, generic_format radix2 fexp64 m -> Rabs x <= m -> Rabs (rnd64 x) <= m.
Proof.
  intros x m Hm Hx.
  assert (E : rnd64 m = m) by (apply round_generic; [apply valid_rnd_N | exact Hm]).
  apply Rabs_le; apply Rabs_le_inv in Hx. split.
  - rewrite <- E, <- rnd_opp; apply rnd_mono; lra.
  - rewrite <- E; apply rnd_mono; lra.
Qed.
Lemma zero_real : forall x, Rabs x <= 0 -> x = 0.
Proof. intros x H; apply Rabs_le_inv in H; lra. Qed.
Lemma lt_emax : forall x : f64, Rabs (b2r x) < bpow radix2 1024.
Proof. intros x; apply abs_B2R_lt_emax. Qed.
Lemma fmt_bpow : forall e, (-1074 <= e)%Z -> generic_format radix2 fexp64 (bpow radix2 e).
Proof. intros e He; apply generic_format_bpow; unfold SpecFloat.fexp, SpecFloat.emin; lia. Qed.
Lemma fmt_n : forall (n : nat) e, (n <= 8)%nat -> (-1074 <= e)%Z -> generic_format radix2 fexp64 (INR n * bpow radix2 e).
Proof.
  intros n e Hn He. apply generic_format_F2R' with (Float radix2 (Z.of_nat n) e).
  - unfold F2R; cbn [Fnum Fexp]; rewrite INR_IZR_INZ; reflexivity.
  - intros H; cbn [Fexp]. unfold cexp, SpecFloat.fexp, SpecFloat.emin.
    assert (mag radix2 (INR n * bpow radix2 e) <= e + 4)%Z; [|lia].
    apply mag_le_bpow; [exact H|]. rewrite bpow_plus, Rmult_comm, Rabs_mult, (Rabs_pos_eq (bpow radix2 e)) by apply bpow_ge_0.
    apply Rmult_lt_compat_l; [apply bpow_gt_0|]. rewrite Rabs_pos_eq by apply pos_INR.
    change (bpow radix2 4) with 16. apply le_INR in Hn. cbn [INR] in Hn; lra.
Qed.
Lemma small_n : forall (n : nat), tok (Pr n) -> INR n * bpow radix2 (a + b) < bpow radix2 1024.
Proof.
  intros n (Hn & Hlo & Hhi). apply Rle_lt_trans with (bpow radix2 (a + b + 3)); [|apply bpow_lt; lia].
  rewrite (bpow_plus radix2 (a + b) 3), Rmult_comm; apply Rmult_le_compat_l; [apply bpow_ge_0|].
  change (bpow radix2 3) with 8; apply le_INR in Hn; cbn [INR] in Hn; lra.
Qed.
Lemma rnd_n : forall n x, tok (Pr n) -> Rabs x <= INR n * bpow radix2 (a + b) ->
  Rabs (rnd64 x) <= INR n * bpow radix2 (a + b) /\ Rabs (rnd64 x) < bpow radix2 1024.
Proof.
  intros n x Hn Hx. assert (H : Rabs (rnd64 x) <= INR n * bpow radix2 (a + b)) by (apply rnd_le_format; [apply fmt_n; apply Hn | exact Hx]).
  split; [exact H|]. eapply Rle_lt_trans; [exact H | apply small_n, Hn].
Qed.
Lemma rnd_s : forall x, tok Sm -> Rabs x <= bpow radix2 (a + 1) ->
  Rabs (rnd64 x) <= bpow radix2 (a + 1) /\ Rabs (rnd64 x) < bpow radix2 1024.
Proof.
  intros x [S Hs] Hx. assert (H : Rabs (rnd64 x) <= bpow radix2 (a + 1)) by (apply rnd_le_format; [apply fmt_bpow; lia | exact Hx]).
  split; [exact H|]. eapply Rle_lt_trans; [exact H | apply bpow_lt; lia].
Qed.

(** One addition. *)
Lemma plus_bound : forall (x y : f64) p q, bounded x p -> bounded y q -> bounded (Bplus mode_NE x y) (tadd same p q).
Proof.
  intros x y p q Hx Hy T.
  assert (Zl : fin x = true /\ Rabs (b2r x) <= 0 -> fin y = true -> fin (Bplus mode_NE x y) = true /\ b2r (Bplus mode_NE x y) = b2r y).
  { intros [Fx Zx] Fy. apply zero_real in Zx. pose proof (bplus_ok x y Fx Fy) as K. rewrite Zx, Rplus_0_l, rnd_id in K.
    apply K, lt_emax. }
  assert (Zr : fin y = true /\ Rabs (b2r y) <= 0 -> fin x = true -> fin (Bplus mode_NE x y) = true /\ b2r (Bplus mode_NE x y) = b2r x).
  { intros [Fx Zx] Fy. apply zero_real in Zx. pose proof (bplus_ok x y Fy Fx) as K. rewrite Zx, Rplus_0_r, rnd_id in K.
    apply K, lt_emax. }
  assert (S2 : fin x = true /\ Rabs (b2r x) <= bpow radix2 a -> fin y = true /\ Rabs (b2r y) <= bpow radix2 a -> tok Sm ->
    fin (Bplus mode_NE x y) = true /\ Rabs (b2r (Bplus mode_NE x y)) <= bpow radix2 (a + 1)).
  { intros [Fx Bx] [Fy By] S.
    destruct (rnd_s (b2r x + b2r y) S) as [K1 K2].
    { rewrite bpow_plus. change (bpow radix2 1) with 2. pose proof (Rabs_triang (b2r x) (b2r y)); lra. }
    destruct (bplus_ok x y Fx Fy K2) as [F E]; rewrite E; auto. }
  unfold bounded in *.
  destruct p, q; cbn [tadd tbound] in *; try contradiction T;
    try (solve [destruct (Hx Logic.I) as [Fx Bx]; destruct (Hy T) as [Fy By]; destruct (Zl (conj Fx Bx) Fy) as [F E]; rewrite E; auto]);
    try (solve [destruct (Hx T) as [Fx Bx]; destruct (Hy Logic.I) as [Fy By]; destruct (Zr (conj Fy By) Fx) as [F E]; rewrite E; auto]).
  - destruct same eqn:S; [|contradiction T]. cbn [tbound]; apply S2; auto; [apply (Hx Logic.I)|].
    rewrite (Hsame eq_refl); apply (Hy Logic.I).
  - destruct same eqn:S; [|contradiction T]. cbn [tbound]; apply S2; auto; [|apply (Hy Logic.I)].
    rewrite (Hsame eq_refl); apply (Hx Logic.I).
  - assert (T1 : tok (Pr n)) by (destruct T as (T & ?); split; [lia | assumption]).
    assert (T2 : tok (Pr n0)) by (destruct T as (T & ?); split; [lia | assumption]).
    destruct (Hx T1) as [Fx Bx]; destruct (Hy T2) as [Fy By].
    destruct (rnd_n (n + n0) (b2r x + b2r y) T) as [K1 K2].
    { rewrite plus_INR. pose proof (Rabs_triang (b2r x) (b2r y)); lra. }
    destruct (bplus_ok x y Fx Fy K2) as [F E]; rewrite E; auto.
Qed.
Lemma mult_bound : forall (x y : f64) p q, bounded x p -> bounded y q -> bounded (Bmult mode_NE x y) (tmul same p q).
Proof.
  intros x y p q Hx Hy T.
  assert (Zl : fin x = true /\ Rabs (b2r x) <= 0 -> fin y = true -> fin (Bmult mode_NE x y) = true /\ Rabs (b2r (Bmult mode_NE x y)) <= 0).
  { intros [Fx Zx] Fy. apply zero_real in Zx. pose proof (bmult_ok x y Fx Fy) as K. rewrite Zx, Rmult_0_l, round_0, Rabs_R0 in K by apply valid_rnd_N.
    destruct (K (bpow_gt_0 _ _)) as [F E]. rewrite E, Rabs_R0; split; [exact F | lra]. }
  assert (Zr : fin y = true /\ Rabs (b2r y) <= 0 -> fin x = true -> fin (Bmult mode_NE x y) = true /\ Rabs (b2r (Bmult mode_NE x y)) <= 0).
  { intros [Fx Zx] Fy. apply zero_real in Zx. pose proof (bmult_ok x y Fy Fx) as K. rewrite Zx, Rmult_0_r, round_0, Rabs_R0 in K by apply valid_rnd_N.
    destruct (K (bpow_gt_0 _ _)) as [F E]. rewrite E, Rabs_R0; split; [exact F | lra]. }
  assert (S2 : forall e1 e2, tok (Pr 1) -> (e1 + e2 = a + b)%Z -> fin x = true /\ Rabs (b2r x) <= bpow radix2 e1 -> fin y = true /\ Rabs (b2r y) <= bpow radix2 e2 ->
    fin (Bmult mode_NE x y) = true /\ Rabs (b2r (Bmult mode_NE x y)) <= INR 1 * bpow radix2 (a + b)).
  { intros e1 e2 T1 Ee [Fx Bx] [Fy By].
    destruct (rnd_n 1 (b2r x * b2r y) T1) as [K1 K2].
    { rewrite <- Ee, bpow_plus, Rabs_mult, Rmult_1_l. apply Rmult_le_compat; auto; apply Rabs_pos. }
    destruct (bmult_ok x y Fx Fy K2) as [F E]; rewrite E; auto. }
  unfold bounded in *.
  destruct p, q; cbn [tmul tbound] in *; try contradiction T; try (specialize (Hx Logic.I); specialize (Hy Logic.I));
    try (solve [apply Zl; [exact Hx | apply Hy]]); try (solve [apply Zr; [exact Hy | apply Hx]]).
  - destruct same eqn:S; [|contradiction T]. pose proof (Hsame eq_refl); cbn [tbound]. apply (S2 a a); auto; lia.
  - apply (S2 a b); auto.
  - apply (S2 b a); auto; lia.
  - destruct same eqn:S; [|contradiction T]. pose proof (Hsame eq_refl); cbn [tbound]. apply (S2 b b); auto; lia.
Qed.
Lemma opp_bound : forall (x : f64) p, bounded x p -> bounded (Bopp x) p.
Proof. intros x p H T; rewrite is_finite_Bopp, B2R_Bopp, Rabs_Ropp; auto. Qed.
Lemma bounded_rel : ring_rel Ring0_B (Ring0_tag same) bounded.
Proof.
  split.
  - intros _; split; [reflexivity|]. cbn. rewrite Rabs_R0; lra.
  - intros [].
  - intros x y p q; apply plus_bound.
  - intros x y p q Hx Hy. change (nsub x y) with (Bminus mode_NE x y); rewrite bminus_opp.
    apply plus_bound; [exact Hx | apply opp_bound, Hy].
  - intros x y p q; apply mult_bound.
  - intros x p; apply opp_bound.
Qed.
Lemma within_L1 : forall t x, within a t x -> relv bounded t x (@constv tag L1 t).
Proof.
  intros t x H. unfold relv. rewrite <- (mapv_const f64 tag L1 t x), elems_mapv. unfold within in H.
  induction H as [|v l Hv Hl IH]; cbn [map]; constructor; auto. intros _; exact Hv.
Qed.
Lemma within_L2 : forall t x, within b t x -> relv bounded t x (@constv tag L2 t).
Proof.
  intros t x H. unfold relv. rewrite <- (mapv_const f64 tag L2 t x), elems_mapv. unfold within in H.
  induction H as [|v l Hv Hl IH]; cbn [map]; constructor; auto. intros _; exact Hv.
Qed.
Definition prodtag (t : tag) : bool := match t with Pr n => Nat.leb n 8 | Z0 => true | _ => false end.
Lemma prod_list : forall (l : list f64) (m : list tag), (-1074 <= a + b)%Z -> (a + b + 3 <= 1023)%Z -> Forall2 bounded l m -> forallb prodtag m = true ->
  Forall (fun v : f64 => fin v = true /\ Rabs (b2r v) <= bpow radix2 (a + b + 3)) l.
Proof.
  intros l m Hlo Hhi H; induction H as [|v t l m Hv H IH]; intros B; constructor.
  - cbn [forallb] in B; apply andb_true_iff in B; destruct B as [B _].
    unfold bounded in Hv. destruct t; try discriminate B; cbn [prodtag tok tbound] in *.
    + destruct (Hv Logic.I) as [F E]; split; [exact F|]. pose proof (bpow_ge_0 radix2 (a + b + 3)); lra.
    + apply Nat.leb_le in B. destruct (Hv (conj B (conj Hlo Hhi))) as [F E]; split; [exact F|]. eapply Rle_trans; [exact E|].
      rewrite (bpow_plus radix2 (a + b) 3), Rmult_comm; apply Rmult_le_compat_l; [apply bpow_ge_0|].
      change (bpow radix2 3) with 8; apply le_INR in B; cbn [INR] in B; lra.
  - cbn [forallb] in B; apply andb_true_iff in B; apply IH, B.
Qed.
Definition sumtag (t : tag) : bool := match t with Z0 | L1 | L2 | Sm => true | _ => false end.
Lemma sum_list : forall (l : list f64) (m : list tag), tok Sm -> Forall2 bounded l m -> forallb sumtag m = true ->
  Forall (fun v : f64 => fin v = true /\ Rabs (b2r v) <= bpow radix2 (a + 1)) l.
Proof.
  intros l m S H; induction H as [|v t l m Hv H IH]; intros B; constructor.
  - cbn [forallb] in B; apply andb_true_iff in B; destruct B as [B _].
    assert (P : 0 <= bpow radix2 a <= bpow radix2 (a + 1)).
    { rewrite bpow_plus; change (bpow radix2 1) with 2; pose proof (bpow_ge_0 radix2 a); lra. }
    unfold bounded in Hv. destruct t; try discriminate B; cbn [tok tbound] in *; destruct S as [S Hs];
      [destruct (Hv Logic.I) as [F E]|destruct (Hv Logic.I) as [F E]|destruct (Hv Logic.I) as [F E]; rewrite <- (Hsame S) in E|destruct (Hv (conj S Hs)) as [F E]];
      (split; [exact F|]); lra.
  - cbn [forallb] in B; apply andb_true_iff in B; apply IH, B.
Qed.
End Bounds.

Lemma mul_within : forall (ea eb : Z) a b (x : val f64 a) (y : val f64 b), (-1074 <= ea + eb)%Z -> (ea + eb + 3 <= 1023)%Z ->
  within ea a x -> within eb b y -> within (ea + eb + 3) (mulTy a b) (mul a b x y).
Proof.
  intros ea eb a b x y H1 H2 Hx Hy.
  pose proof (@mul_rel f64 tag Ring0_B (Ring0_tag false) _ (bounded_rel ea eb false ltac:(discriminate)) a b _ _ _ _
    (within_L1 ea eb false a x Hx) (within_L2 ea eb false b y Hy)) as H.
  eapply (prod_list ea eb); [exact H1 | exact H2 | exact H|]. clear; destruct a, b; vm_compute; reflexivity.
Qed.
Lemma magSq_within : forall (e : Z) t (x : val f64 t), (-537 <= e <= 510)%Z -> within e t x ->
  is_finite (magSq t x) = true /\ Rabs (B2R (magSq t x)) <= bpow radix2 (2 * e + 3).
Proof.
  intros e t x He Hx.
  pose proof (@magSq_rel f64 tag Ring0_B (Ring0_tag true) _ (bounded_rel e e true ltac:(reflexivity)) t _ _ (within_L1 e e true t x Hx)) as H.
  pose proof (prod_list e e true [magSq t x] [_] ltac:(lia) ltac:(lia) (Forall2_cons _ _ H (Forall2_nil _))) as K.
  assert (B : forallb prodtag [@magSq tag (Ring0_tag true) t (constv L1 t)] = true) by (clear; destruct t; vm_compute; reflexivity).
  specialize (K B); inversion K; subst. replace (2 * e)%Z with (e + e)%Z by lia; assumption.
Qed.
Lemma add_within : forall (e : Z) a b (x : val f64 a) (y : val f64 b), (-1075 <= e <= 1022)%Z ->
  within e a x -> within e b y -> if_exists (fun t r => within (e + 1) t r) (addTy a b) (add a b x y).
Proof.
  intros e a b x y He Hx Hy.
  pose proof (@add_rel f64 tag Ring0_B (Ring0_tag true) _ (bounded_rel e e true ltac:(reflexivity)) a b _ _ _ _
    (within_L1 e e true a x Hx) (within_L2 e e true b y Hy)) as H.
  assert (B : if_exists (fun t r => forallb sumtag (elems t r) = true) (addTy a b)
     (@add tag (Ring0_tag true) a b (constv L1 a) (constv L2 b))) by (clear; destruct a, b; vm_compute; auto).
  revert H B. generalize (add a b x y), (@add tag (Ring0_tag true) a b (constv L1 a) (constv L2 b)).
  destruct (addTy a b) as [c|]; cbn [oval if_exists relo]; [|auto].
  intros r m H B. apply (sum_list e e true ltac:(reflexivity) _ _ (conj eq_refl He) H B).
Qed.
Lemma sub_within : forall (e : Z) a b (x : val f64 a) (y : val f64 b), (-1075 <= e <= 1022)%Z ->
  within e a x -> within e b y -> if_exists (fun t r => within (e + 1) t r) (subTy a b) (sub a b x y).
Proof.
  intros e a b x y He Hx Hy.
  pose proof (@sub_rel f64 tag Ring0_B (Ring0_tag true) _ (bounded_rel e e true ltac:(reflexivity)) a b _ _ _ _
    (within_L1 e e true a x Hx) (within_L2 e e true b y Hy)) as H.
  assert (B : if_exists (fun t r => forallb sumtag (elems t r) = true) (subTy a b)
     (@sub tag (Ring0_tag true) a b (constv L1 a) (constv L2 b))) by (clear; destruct a, b; vm_compute; auto).
  revert H B. generalize (sub a b x y), (@sub tag (Ring0_tag true) a b (constv L1 a) (constv L2 b)).
  destruct (subTy a b) as [c|]; cbn [oval if_exists relo]; [|auto].
  intros r m H B. apply (sum_list e e true ltac:(reflexivity) _ _ (conj eq_refl He) H B).
Qed.
