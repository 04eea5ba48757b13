(** * Rounding in nearlyEquals of arrays (any length): proofs. *)

Require Import Reals ZArith List Bool Lra Lia.
From Flocq Require Import Core BinarySingleNaN.
Require Import Verif.Num Verif.Types Verif.Priv Verif.Const Verif.Validity Verif.Compare
  Verif.Rel Verif.B64 Verif.B64Facts Verif.SpecCl Verif.SpecValid Verif.SpecCompare
  Verif.ValidFacts Verif.NullFacts Verif.CompareFacts Verif.ArrFacts.
Import ListNotations.
Local Open Scope R_scope.

Lemma u53_le : u53 <= / 2.
Proof. unfold u53. change (/2) with (bpow radix2 (-1)). apply bpow_le. lia. Qed.
Lemma sq_pos : forall x : R, 0 <= x * x.
Proof. intros x. apply Rle_0_sqr. Qed.
Lemma norm2_pos : forall l, 0 <= norm2 l.
Proof. induction l as [|x l IH]; cbn; [lra|]. pose proof (sq_pos (b2r x)). unfold norm2 in IH. lra. Qed.
Lemma dist2_pos : forall g r, 0 <= dist2 g r.
Proof.
  unfold dist2. intros g r. induction (combine g r) as [|[x y] l IH]; cbn; [lra|].
  pose proof (sq_pos (b2r x - b2r y)). lra.
Qed.
Lemma norm2_cons : forall x l, norm2 (x :: l) = b2r x * b2r x + norm2 l.
Proof. reflexivity. Qed.
Lemma dist2_cons : forall x y g r, dist2 (x :: g) (y :: r) = (b2r x - b2r y) * (b2r x - b2r y) + dist2 g r.
Proof. reflexivity. Qed.

Lemma rnd_pos : forall x, 0 <= x -> 0 <= rnd64 x.
Proof. intros x H. rewrite <- (round_0 radix2 fexp64 (Znearest (fun x => negb (Z.even x)))). apply rnd_mono, H. Qed.
Lemma err_minus : forall x y : f64,
  Rabs (rnd64 (b2r x - b2r y) - (b2r x - b2r y)) <= u53 * Rabs (b2r x - b2r y).
Proof.
  intros x y. pose proof (err_plus x (Bopp y)) as E. rewrite B2R_Bopp in E. exact E.
Qed.
(** Two-sided forms for nonnegative exact values. *)
Lemma plus_lo : forall x y : f64, 0 <= b2r x + b2r y -> (1 - u53) * (b2r x + b2r y) <= rnd64 (b2r x + b2r y).
Proof. intros x y H. pose proof (err_plus x y) as E. rewrite (Rabs_pos_eq (b2r x + b2r y)) in E by exact H. apply Rabs_le_inv in E. lra. Qed.
Lemma plus_hi : forall x y : f64, 0 <= b2r x + b2r y -> rnd64 (b2r x + b2r y) <= (1 + u53) * (b2r x + b2r y).
Proof. intros x y H. pose proof (err_plus x y) as E. rewrite (Rabs_pos_eq (b2r x + b2r y)) in E by exact H. apply Rabs_le_inv in E. lra. Qed.
Lemma any_lo : forall x, 0 <= x -> (1 - u53) * x - eta <= rnd64 x.
Proof. intros x H. pose proof (err_any x) as E. rewrite (Rabs_pos_eq x) in E by exact H. apply Rabs_le_inv in E. lra. Qed.
Lemma any_hi : forall x, 0 <= x -> rnd64 x <= (1 + u53) * x + eta.
Proof. intros x H. pose proof (err_any x) as E. rewrite (Rabs_pos_eq x) in E by exact H. apply Rabs_le_inv in E. lra. Qed.
Lemma minus_sq_lo : forall x y : f64, let d := b2r x - b2r y in
  (1 - u53) * (1 - u53) * (d * d) <= rnd64 d * rnd64 d.
Proof.
  intros x y d. pose proof (err_minus x y) as E. fold d in E. pose proof u53_pos as U. pose proof u53_le as U'.
  assert (A : (1 - u53) * Rabs d <= Rabs (rnd64 d)).
  { pose proof (Rabs_triang_inv d (d - rnd64 d)) as T. replace (d - (d - rnd64 d)) with (rnd64 d) in T by ring.
    rewrite Rabs_minus_sym in E. lra. }
  assert (B : ((1 - u53) * Rabs d) * ((1 - u53) * Rabs d) <= Rabs (rnd64 d) * Rabs (rnd64 d)).
  { apply Rmult_le_compat; auto; apply Rmult_le_pos; try lra; apply Rabs_pos. }
  rewrite <- !Rabs_mult, (Rabs_pos_eq (rnd64 d * rnd64 d)) in B by apply sq_pos.
  replace ((1 - u53) * Rabs d * ((1 - u53) * Rabs d)) with ((1 - u53) * (1 - u53) * (Rabs d * Rabs d)) in B by ring.
  rewrite <- Rabs_mult, (Rabs_pos_eq (d * d)) in B by apply sq_pos. exact B.
Qed.
Lemma minus_sq_hi : forall x y : f64, let d := b2r x - b2r y in
  rnd64 d * rnd64 d <= (1 + u53) * (1 + u53) * (d * d).
Proof.
  intros x y d. pose proof (err_minus x y) as E. fold d in E. pose proof u53_pos as U. pose proof u53_le as U'.
  assert (A : Rabs (rnd64 d) <= (1 + u53) * Rabs d).
  { pose proof (Rabs_triang d (rnd64 d - d)) as T. replace (d + (rnd64 d - d)) with (rnd64 d) in T by ring. lra. }
  assert (B : Rabs (rnd64 d) * Rabs (rnd64 d) <= ((1 + u53) * Rabs d) * ((1 + u53) * Rabs d)).
  { apply Rmult_le_compat; auto; apply Rabs_pos. }
  rewrite <- !Rabs_mult, (Rabs_pos_eq (rnd64 d * rnd64 d)) in B by apply sq_pos.
  replace ((1 + u53) * Rabs d * ((1 + u53) * Rabs d)) with ((1 + u53) * (1 + u53) * (Rabs d * Rabs d)) in B by ring.
  rewrite <- Rabs_mult, (Rabs_pos_eq (d * d)) in B by apply sq_pos. exact B.
Qed.

(** ** The inner product of the reference with itself *)
Local Notation M := (Bmult mode_NE).
Local Notation P := (Bplus mode_NE).
Local Notation S' := (Bminus mode_NE).
Lemma inner_cons : forall (x : f64) l acc, inner_product (x :: l) (x :: l) acc = inner_product l l (P acc (M x x)).
Proof. reflexivity. Qed.
Lemma inner_fin : forall (l : list f64) acc, fin (inner_product l l acc) = true -> fin acc = true.
Proof.
  induction l as [|x l IH]; intros acc H; auto. rewrite inner_cons in H. apply IH in H. apply bplus_fin in H. tauto.
Qed.
Lemma pow1 : forall n, 0 < (1 - u53) ^ n <= 1.
Proof.
  pose proof u53_pos. pose proof u53_le. induction n as [|n [IH1 IH2]]; cbn [pow]; [lra|]. split.
  - apply Rmult_lt_0_compat; lra.
  - apply Rle_trans with (1 * 1); [apply Rmult_le_compat; lra|lra].
Qed.
Lemma pow2 : forall n, 1 <= (1 + u53) ^ n.
Proof. intros n. apply pow_R1_Rle. pose proof u53_pos. lra. Qed.
Lemma inner_hi : forall (l : list f64) acc, 0 <= b2r acc -> fin (inner_product l l acc) = true ->
  let n := length l in
  b2r (inner_product l l acc) <=
  (1 + u53) ^ n * b2r acc + (1 + u53) ^ (n + 1) * norm2 l + INR n * (1 + u53) ^ n * eta.
Proof.
  pose proof u53_pos as U. pose proof eta_pos as He.
  induction l as [|x l IH]; intros acc Ha H; cbv zeta.
  - cbn [length inner_product sumSqDif Nat.add pow INR]; unfold norm2, dist2; cbn [combine fold_right]; lra.
  - rewrite inner_cons in *. pose proof (inner_fin _ _ H) as H1. apply bplus_fin in H1. destruct H1 as (A1 & A2 & A3).
    apply bmult_fin in A2. destruct A2 as (_ & A2 & A4).
    pose proof (any_hi (b2r x * b2r x) (sq_pos _)) as E1. rewrite <- A4 in E1.
    pose proof (rnd_pos (b2r x * b2r x) (sq_pos _)) as E2. rewrite <- A4 in E2.
    assert (E3' : 0 <= b2r acc + b2r (M x x)) by lra. pose proof (plus_hi acc (M x x) E3') as E3. rewrite <- A3 in E3.
    assert (E4 : 0 <= b2r (P acc (M x x))) by (rewrite A3; apply rnd_pos; lra).
    specialize (IH _ E4 H). cbv zeta in IH. rewrite norm2_cons. cbn [length].
    set (n := length l) in *. rewrite S_INR. cbn [Nat.add pow] in *.
    pose proof (pow2 n) as Hn. set (q := (1 + u53) ^ n) in *. 
    rewrite pow_add, pow_1 in *. fold q in IH. fold q.
    set (s := b2r x * b2r x) in *. set (m := norm2 l) in *.
    assert (E5 : b2r (P acc (M x x)) <= (1 + u53) * (b2r acc + ((1 + u53) * s + eta))).
    { eapply Rle_trans; [exact E3|]. apply Rmult_le_compat_l; lra. }
    eapply Rle_trans; [exact IH|].
    pose proof (Rmult_le_compat_l q _ _ ltac:(lra) E5) as E6.
    pose proof (norm2_pos l) as Nm. fold m in Nm. pose proof (pos_INR n) as Hi.
    assert (T1 : 0 <= q * u53 * ((1 + u53) * m)) by (repeat apply Rmult_le_pos; lra).
    assert (T2 : 0 <= u53 * (INR n * q * eta)) by (repeat apply Rmult_le_pos; lra).
    fold q. nra.
Qed.
Lemma inner_lo : forall (l : list f64) acc, 0 <= b2r acc -> fin (inner_product l l acc) = true ->
  let n := length l in
  (1 - u53) ^ n * b2r acc + (1 - u53) ^ (n + 1) * norm2 l - INR n * eta <=
  b2r (inner_product l l acc).
Proof.
  pose proof u53_pos as U. pose proof eta_pos as He. pose proof u53_le as U'.
  induction l as [|x l IH]; intros acc Ha H; cbv zeta.
  - cbn [length inner_product sumSqDif Nat.add pow INR]; unfold norm2, dist2; cbn [combine fold_right]; lra.
  - rewrite inner_cons in *. pose proof (inner_fin _ _ H) as H1. apply bplus_fin in H1. destruct H1 as (A1 & A2 & A3).
    apply bmult_fin in A2. destruct A2 as (_ & A2 & A4).
    pose proof (any_lo (b2r x * b2r x) (sq_pos _)) as E1. rewrite <- A4 in E1.
    pose proof (rnd_pos (b2r x * b2r x) (sq_pos _)) as E2. rewrite <- A4 in E2.
    assert (E3' : 0 <= b2r acc + b2r (M x x)) by lra. pose proof (plus_lo acc (M x x) E3') as E3. rewrite <- A3 in E3.
    assert (E4 : 0 <= b2r (P acc (M x x))) by (rewrite A3; apply rnd_pos; lra).
    specialize (IH _ E4 H). cbv zeta in IH. rewrite norm2_cons. cbn [length].
    set (n := length l) in *. rewrite S_INR. cbn [Nat.add pow] in *.
    pose proof (pow1 n) as Hn. set (q := (1 - u53) ^ n) in *. 
    rewrite pow_add, pow_1 in *. fold q in IH. fold q.
    pose proof (sq_pos (b2r x)) as Sp. pose proof (norm2_pos l) as Nm.
    set (s := b2r x * b2r x) in *. set (m := norm2 l) in *.
    assert (E5 : (1 - u53) * (b2r acc + ((1 - u53) * s - eta)) <= b2r (P acc (M x x))).
    { eapply Rle_trans; [|exact E3]. apply Rmult_le_compat_l; lra. }
    eapply Rle_trans; [|exact IH].
    pose proof (Rmult_le_compat_l q _ _ ltac:(lra) E5) as E6.
    assert (T1 : 0 <= q * u53 * ((1 - u53) * m)) by (repeat apply Rmult_le_pos; lra).
    assert (T2 : q * ((1 - u53) * eta) <= 1 * (1 * eta)).
    { apply Rmult_le_compat; try lra. apply Rmult_le_pos; lra. apply Rmult_le_compat; lra. }
    fold q. nra.
Qed.

(** It does not overflow when the exact value stays in range. *)
Lemma pow1023 : bpow radix2 1023 < bpow radix2 1024.
Proof. apply bpow_lt. lia. Qed.
Lemma rnd_1023 : forall x, 0 <= x <= bpow radix2 1023 -> Rabs (rnd64 x) < bpow radix2 1024.
Proof.
  intros x [H1 H2]. rewrite Rabs_pos_eq by (apply rnd_pos; exact H1).
  apply Rle_lt_trans with (bpow radix2 1023); [|apply pow1023].
  rewrite <- (round_generic radix2 fexp64 (Znearest (fun x => negb (Z.even x))) (bpow radix2 1023)).
  - apply rnd_mono, H2.
  - apply generic_format_bpow. unfold SpecFloat.fexp, SpecFloat.emin. lia.
Qed.
Lemma inner_ok : forall (l : list f64) acc, Forall (fun v => fin v = true) l -> fin acc = true -> 0 <= b2r acc ->
  let n := length l in
  (1 + u53) ^ n * b2r acc + (1 + u53) ^ (n + 1) * norm2 l + INR n * (1 + u53) ^ n * eta <= bpow radix2 1023 ->
  fin (inner_product l l acc) = true.
Proof.
  pose proof u53_pos as U. pose proof eta_pos as He.
  induction l as [|x l IH]; intros acc Hl Fa Ha; cbv zeta; intros B; [exact Fa|].
  inversion Hl as [|? ? Fx Hl']; subst. rewrite inner_cons. rewrite norm2_cons in B. cbn [length] in B.
  set (n := length l) in *. rewrite S_INR in B. cbn [Nat.add pow] in B. rewrite pow_add, pow_1 in B.
  pose proof (pow2 n) as Hn. pose proof (norm2_pos l) as Nm. pose proof (sq_pos (b2r x)) as Sp.
  pose proof (pos_INR n) as Hi. 
  set (q := (1 + u53) ^ n) in *. set (s := b2r x * b2r x) in *. set (m := norm2 l) in *.
  assert (Q1 : 1 <= (1 + u53) * q) by nra.
  assert (B1 : b2r acc <= (1 + u53) * q * b2r acc) by nra.
  assert (B2 : (1 + u53) * (s + m) <= (1 + u53) * (q * (1 + u53)) * (s + m)).
  { apply Rmult_le_compat_r; nra. }
  assert (B3 : eta <= (1 + u53) * q * eta) by nra.
  assert (B4 : 0 <= INR n * ((1 + u53) * q) * eta) by (repeat apply Rmult_le_pos; lra).
  assert (B5 : s + m <= (1 + u53) * (s + m)) by nra.
  assert (B6 : (INR n + 1) * ((1 + u53) * q) * eta = INR n * ((1 + u53) * q) * eta + (1 + u53) * q * eta) by ring.
  assert (B0 : b2r acc + (1 + u53) * (s + m) + eta <= bpow radix2 1023).
  { rewrite B6 in B. lra. }
  assert (T : 0 <= s <= bpow radix2 1023) by lra.
  destruct (bmult_ok x x Fx Fx (rnd_1023 s T)) as [F1 R1]. fold s in R1.
  pose proof (any_hi s Sp) as E1. rewrite <- R1 in E1. pose proof (rnd_pos s Sp) as E2. rewrite <- R1 in E2.
  assert (T2 : 0 <= b2r acc + b2r (M x x) <= bpow radix2 1023) by nra.
  destruct (bplus_ok acc (M x x) Fa F1 (rnd_1023 _ T2)) as [F2 R2].
  assert (E3' : 0 <= b2r acc + b2r (M x x)) by lra. pose proof (plus_hi acc (M x x) E3') as E3. rewrite <- R2 in E3.
  assert (E4 : 0 <= b2r (P acc (M x x))) by (rewrite R2; apply rnd_pos; lra).
  apply IH; auto. cbv zeta. fold n. rewrite pow_add, pow_1. fold q. fold m.
  assert (E5 : b2r (P acc (M x x)) <= (1 + u53) * (b2r acc + ((1 + u53) * s + eta))).
  { eapply Rle_trans; [exact E3|]. apply Rmult_le_compat_l; lra. }
  pose proof (Rmult_le_compat_l q _ _ ltac:(lra) E5) as E6.
  assert (T1 : 0 <= q * u53 * ((1 + u53) * m)) by (repeat apply Rmult_le_pos; lra).
  assert (T3 : 0 <= u53 * (INR n * q * eta)) by (repeat apply Rmult_le_pos; lra).
  nra.
Qed.

(** ** The squared difference *)
Lemma dif_cons : forall (x y : f64) g r acc,
  sumSqDif (x :: g) (y :: r) acc = sumSqDif g r (P acc (M (S' x y) (S' x y))).
Proof. reflexivity. Qed.
Lemma dif_fin : forall (g r : list f64) acc, fin (sumSqDif g r acc) = true -> fin acc = true.
Proof.
  induction g as [|x g IH]; intros [|y r] acc H; auto. rewrite dif_cons in H. apply IH in H. apply bplus_fin in H. tauto.
Qed.
Lemma dif_pos : forall (g r : list f64) acc, 0 <= b2r acc -> fin (sumSqDif g r acc) = true ->
  0 <= b2r (sumSqDif g r acc).
Proof.
  induction g as [|x g IH]; intros [|y r] acc Ha H; auto. rewrite dif_cons in *.
  apply IH; auto. apply dif_fin in H. apply bplus_fin in H. destruct H as (_ & H & ->).
  apply rnd_pos. apply bmult_fin in H. destruct H as (_ & _ & ->). pose proof (rnd_pos _ (sq_pos (b2r (S' x y)))). lra.
Qed.
Lemma dif_lo : forall (g r : list f64) acc, 0 <= b2r acc -> fin (sumSqDif g r acc) = true ->
  length g = length r -> let n := length g in
  (1 - u53) ^ n * b2r acc + (1 - u53) ^ (n + 3) * dist2 g r - INR n * eta <= b2r (sumSqDif g r acc).
Proof.
  pose proof u53_pos as U. pose proof eta_pos as He. pose proof u53_le as U'.
  induction g as [|x g IH]; intros [|y r] acc Ha H HL; try discriminate HL; cbv zeta.
  - cbn [length inner_product sumSqDif Nat.add pow INR]; unfold norm2, dist2; cbn [combine fold_right]; lra.
  - rewrite dif_cons in *. pose proof (dif_fin _ _ _ H) as H1. apply bplus_fin in H1. destruct H1 as (A1 & A2 & A3).
    apply bmult_fin in A2. destruct A2 as (_ & A2 & A4). apply bminus_fin in A2. destruct A2 as (_ & _ & A5).
    pose proof (any_lo (b2r (S' x y) * b2r (S' x y)) (sq_pos _)) as E1. rewrite <- A4 in E1.
    pose proof (rnd_pos (b2r (S' x y) * b2r (S' x y)) (sq_pos _)) as E2. rewrite <- A4 in E2.
    pose proof (minus_sq_lo x y) as E0. cbv zeta in E0. rewrite <- A5 in E0.
    set (p := M (S' x y) (S' x y)) in *.
    assert (E3' : 0 <= b2r acc + b2r p) by lra. pose proof (plus_lo acc p E3') as E3. rewrite <- A3 in E3.
    assert (E4 : 0 <= b2r (P acc p)) by (rewrite A3; apply rnd_pos; lra).
    specialize (IH r _ E4 H ltac:(cbn in HL; lia)). cbv zeta in IH. rewrite dist2_cons. cbn [length].
    set (n := length g) in *. rewrite S_INR. cbn [Nat.add pow] in *.
    pose proof (pow1 n) as Hn. rewrite pow_add in *. set (q := (1 - u53) ^ n) in *.
    pose proof (sq_pos (b2r x - b2r y)) as Sp. pose proof (dist2_pos g r) as Nm.
    set (s := (b2r x - b2r y) * (b2r x - b2r y)) in *. set (m := dist2 g r) in *.
    set (w := 1 - u53) in *. assert (W : 0 < w <= 1) by (unfold w; lra).
    assert (E7 : w * (w * w * s) - eta <= b2r p).
    { eapply Rle_trans; [|exact E1]. apply Rplus_le_compat_r. apply Rmult_le_compat_l; [lra|exact E0]. }
    assert (E5 : w * (b2r acc + (w * (w * w * s) - eta)) <= b2r (P acc p)).
    { eapply Rle_trans; [|exact E3]. apply Rmult_le_compat_l; lra. }
    eapply Rle_trans; [|exact IH].
    pose proof (Rmult_le_compat_l q _ _ ltac:(lra) E5) as E6.
    assert (T1 : w * (q * w ^ 3) * m <= q * w ^ 3 * m).
    { rewrite <- (Rmult_1_l (q * w ^ 3 * m)), Rmult_assoc. apply Rmult_le_compat_r; [|lra].
      repeat apply Rmult_le_pos; try lra; apply pow_le; lra. }
    assert (T2 : q * (w * eta) <= 1 * (1 * eta)).
    { apply Rmult_le_compat; try lra. apply Rmult_le_pos; lra. apply Rmult_le_compat; lra. }
    replace (w ^ 3) with (w * w * w) in * by ring.
    replace (w * (q * (w * w * w)) * (s + m)) with (q * w * (w * (w * w * s)) + w * (q * (w * w * w)) * m) by ring.
    replace (q * (w * (b2r acc + (w * (w * w * s) - eta)))) with (q * w * b2r acc + q * w * (w * (w * w * s)) - q * (w * eta)) in E6 by ring.
    replace (w * q * b2r acc) with (q * w * b2r acc) by ring. lra.
Qed.
Lemma dif_hi : forall (g r : list f64) acc, 0 <= b2r acc -> fin (sumSqDif g r acc) = true ->
  length g = length r -> let n := length g in
  b2r (sumSqDif g r acc) <=
  (1 + u53) ^ n * b2r acc + (1 + u53) ^ (n + 3) * dist2 g r + INR n * (1 + u53) ^ n * eta.
Proof.
  pose proof u53_pos as U. pose proof eta_pos as He. pose proof u53_le as U'.
  induction g as [|x g IH]; intros [|y r] acc Ha H HL; try discriminate HL; cbv zeta.
  - cbn [length inner_product sumSqDif Nat.add pow INR]; unfold norm2, dist2; cbn [combine fold_right]; lra.
  - rewrite dif_cons in *. pose proof (dif_fin _ _ _ H) as H1. apply bplus_fin in H1. destruct H1 as (A1 & A2 & A3).
    apply bmult_fin in A2. destruct A2 as (_ & A2 & A4). apply bminus_fin in A2. destruct A2 as (_ & _ & A5).
    pose proof (any_hi (b2r (S' x y) * b2r (S' x y)) (sq_pos _)) as E1. rewrite <- A4 in E1.
    pose proof (rnd_pos (b2r (S' x y) * b2r (S' x y)) (sq_pos _)) as E2. rewrite <- A4 in E2.
    pose proof (minus_sq_hi x y) as E0. cbv zeta in E0. rewrite <- A5 in E0.
    set (p := M (S' x y) (S' x y)) in *.
    assert (E3' : 0 <= b2r acc + b2r p) by lra. pose proof (plus_hi acc p E3') as E3. rewrite <- A3 in E3.
    assert (E4 : 0 <= b2r (P acc p)) by (rewrite A3; apply rnd_pos; lra).
    specialize (IH r _ E4 H ltac:(cbn in HL; lia)). cbv zeta in IH. rewrite dist2_cons. cbn [length].
    set (n := length g) in *. rewrite S_INR. cbn [Nat.add pow] in *.
    pose proof (pow2 n) as Hn. rewrite pow_add in *. set (q := (1 + u53) ^ n) in *.
    pose proof (sq_pos (b2r x - b2r y)) as Sp. pose proof (dist2_pos g r) as Nm. pose proof (pos_INR n) as Hi.
    set (s := (b2r x - b2r y) * (b2r x - b2r y)) in *. set (m := dist2 g r) in *.
    set (w := 1 + u53) in *. assert (W : 1 <= w) by (unfold w; lra).
    assert (E7 : b2r p <= w * (w * w * s) + eta).
    { eapply Rle_trans; [exact E1|]. apply Rplus_le_compat_r. apply Rmult_le_compat_l; [lra|exact E0]. }
    assert (E5 : b2r (P acc p) <= w * (b2r acc + (w * (w * w * s) + eta))).
    { eapply Rle_trans; [exact E3|]. apply Rmult_le_compat_l; lra. }
    eapply Rle_trans; [exact IH|].
    pose proof (Rmult_le_compat_l q _ _ ltac:(lra) E5) as E6.
    assert (T1 : q * w ^ 3 * m <= w * (q * w ^ 3) * m).
    { rewrite <- (Rmult_1_l (q * w ^ 3 * m)), (Rmult_assoc w). apply Rmult_le_compat_r; [|lra].
      repeat apply Rmult_le_pos; try lra; apply pow_le; lra. }
    assert (T2 : INR n * q * eta <= INR n * (w * q) * eta).
    { apply Rmult_le_compat_r; [lra|]. apply Rmult_le_compat_l; [lra|]. nra. }
    replace (w ^ 3) with (w * w * w) in * by ring.
    replace (w * (q * (w * w * w)) * (s + m)) with (q * w * (w * (w * w * s)) + w * (q * (w * w * w)) * m) by ring.
    replace (q * (w * (b2r acc + (w * (w * w * s) + eta)))) with (q * w * b2r acc + q * w * (w * (w * w * s)) + q * (w * eta)) in E6 by ring.
    replace (w * q * b2r acc) with (q * w * b2r acc) by ring.
    replace ((INR n + 1) * (w * q) * eta) with (INR n * (w * q) * eta + q * (w * eta)) by ring. lra.
Qed.
