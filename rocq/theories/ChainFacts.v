(** * Chains of comparisons: proofs. *)

Require Import Reals ZArith List Bool Lra Lia.
From Flocq Require Import Core BinarySingleNaN.
Require Import Verif.Num Verif.Types Verif.Priv Verif.OpsUni Verif.Const Verif.Validity Verif.Compare Verif.Rel
  Verif.B64 Verif.B64Facts Verif.SpecValid Verif.SpecCompare Verif.SpecScale Verif.SpecChain
  Verif.ValidFacts Verif.CompareFacts Verif.ArrFacts Verif.ArrErr Verif.CompareThm Verif.AccFacts Verif.ScaleThm Verif.AcceptFacts.
Import ListNotations.
Local Open Scope R_scope.

(** ** The triangle inequality *)
Lemma mink2 : forall a b p q, sqrt ((a + b) * (a + b) + (p + q) * (p + q)) <= sqrt (a * a + p * p) + sqrt (b * b + q * q).
Proof.
  intros a b p q. pose proof (sq_pos a). pose proof (sq_pos b). pose proof (sq_pos p). pose proof (sq_pos q).
  set (m := sqrt (a * a + p * p)). set (n := sqrt (b * b + q * q)).
  assert (M : m * m = a * a + p * p) by (apply sqrt_sqrt; lra). assert (N : n * n = b * b + q * q) by (apply sqrt_sqrt; lra).
  assert (M0 : 0 <= m) by apply sqrt_pos. assert (N0 : 0 <= n) by apply sqrt_pos.
  assert (C : a * b + p * q <= m * n).
  { apply Rsqr_incr_0_var; [|apply Rmult_le_pos; assumption]. unfold Rsqr.
    replace (m * n * (m * n)) with ((m * m) * (n * n)) by ring. rewrite M, N. pose proof (sq_pos (a * q - b * p)). nra. }
  rewrite <- (sqrt_square (m + n)) by lra. apply sqrt_le_1_alt. nra.
Qed.
Lemma mink_step : forall a b d p q, 0 <= p -> 0 <= q -> 0 <= d -> sqrt d <= sqrt p + sqrt q ->
  sqrt ((a + b) * (a + b) + d) <= sqrt (a * a + p) + sqrt (b * b + q).
Proof.
  intros a b d p q Hp Hq Hd H. pose proof (mink2 a b (sqrt p) (sqrt q)) as M. rewrite !sqrt_sqrt in M by assumption.
  eapply Rle_trans; [|exact M]. apply sqrt_le_1_alt. pose proof (sqrt_pos d). pose proof (sqrt_sqrt d Hd).
  assert (sqrt d * sqrt d <= (sqrt p + sqrt q) * (sqrt p + sqrt q)) by (apply Rmult_le_compat; assumption). lra.
Qed.
Lemma dist_triangle : forall g r k : list f64, length g = length r -> length r = length k ->
  sqrt (dist2 g k) <= sqrt (dist2 g r) + sqrt (dist2 r k).
Proof.
  induction g as [|x g IH]; intros [|y r] [|z k] L1 L2; try discriminate.
  - unfold dist2. cbn. rewrite sqrt_0. lra.
  - rewrite !dist2_cons. replace (b2r x - b2r z) with ((b2r x - b2r y) + (b2r y - b2r z)) by ring.
    apply mink_step; try apply dist2_pos. apply IH; auto.
Qed.
Lemma norm_triangle : forall g r : list f64, length g = length r -> sqrt (norm2 g) <= sqrt (dist2 g r) + sqrt (norm2 r).
Proof.
  induction g as [|x g IH]; intros [|y r] L1; try discriminate.
  - unfold dist2, norm2. cbn. rewrite sqrt_0. lra.
  - rewrite dist2_cons, !norm2_cons. replace (b2r x * b2r x) with ((b2r x - b2r y + b2r y) * (b2r x - b2r y + b2r y)) by ring.
    apply mink_step; try apply dist2_pos; try apply norm2_pos. apply IH; auto.
Qed.
Lemma dist_sym : forall g r : list f64, dist2 g r = dist2 r g.
Proof.
  induction g as [|x g IH]; intros [|y r]; try reflexivity. rewrite !dist2_cons, (IH r). ring.
Qed.

(** ** One comparison, as a bound on lengths *)
Lemma sound_root : forall (g r : list f64) tol, g <> [] -> (length g <= 3)%nat -> length g = length r -> fin tol = true ->
  bpow radix2 (-53) <= b2r tol -> plain_grade r -> nearlyEquals_arr g r tol = true ->
  sqrt (dist2 g r) <= allowed tol * sqrt (norm2 r).
Proof.
  intros g r tol Hn Hl HL Ht T [B1 B2] E. apply arr_sound_short in E; auto.
  2:{ split; [exact B1|]. eapply Rle_trans; [exact B2|]. apply bpow_le; lia. }
  pose proof (norm2_pos r) as PN. pose proof (bpow_gt_0 radix2 (-53)) as P53.
  set (w := b2r tol) in *.
  assert (W : bpow radix2 (-160) <= bpow radix2 (-54) * (w * w)).
  { change (-160)%Z with (-54 + (-53 + -53))%Z. rewrite !bpow_plus. apply Rmult_le_compat_l; [apply bpow_ge_0|]. apply Rmult_le_compat; lra. }
  unfold allowed. fold w. rewrite <- (sqrt_square ((1 + bpow radix2 (-49)) * w)) by (apply Rmult_le_pos; [pose proof (bpow_gt_0 radix2 (-49))|]; lra).
  rewrite <- sqrt_mult; [|apply sq_pos|exact PN]. apply sqrt_le_1_alt. eapply Rle_trans; [exact E|]. apply Rmult_le_compat_r; [exact PN|].
  assert (E54 : bpow radix2 (-49) = 32 * bpow radix2 (-54)) by (change 32 with (bpow radix2 5); rewrite <- bpow_plus; reflexivity).
  assert (S54 : 0 < bpow radix2 (-54) <= / 1024) by (split; [apply bpow_gt_0|change (/1024) with (bpow radix2 (-10)); apply bpow_le; lia]).
  rewrite E54. set (z := bpow radix2 (-54)) in *. pose proof (sq_pos w) as Pw. set (q := w * w) in *.
  replace ((1 + 32 * z) * w * ((1 + 32 * z) * w)) with ((1 + 32 * z) * ((1 + 32 * z) * q)) by (unfold q; ring).
  apply Rmult_le_compat_l; [lra|]. assert (0 <= z * q) by (apply Rmult_le_pos; lra). lra.
Qed.
Lemma nearly_valid : forall t (x y : val f64 t) tol, nearlyEquals t x y tol = true -> all_valid t x /\ all_valid t y.
Proof.
  intros t x y tol E.
  assert (Dc : forall z : val f64 t, all_valid t z \/ ~ all_valid t z) by (intros z; apply Classical_Prop.classic).
  destruct (Dc x) as [X|X]; [|rewrite nearly_invalid in E by auto; discriminate].
  destruct (Dc y) as [Y|Y]; [|rewrite nearly_invalid in E by auto; discriminate]. auto.
Qed.
Lemma zero_inner : forall l : list f64, vanishing_grade l -> fin (inner_product l l (B754_zero false : f64)) = true.
Proof.
  intros l. generalize (eq_refl : b2r (B754_zero false) = 0) (eq_refl : fin (B754_zero false) = true). generalize (B754_zero false : f64).
  induction l as [|v l IH]; intros acc E F Z; [exact F|]. inversion Z as [|? ? [Fv Ev] Z']; subst. cbn [inner_product].
  assert (W : Rabs (rnd64 0) < bpow radix2 1024) by (rewrite round_0 by apply valid_rnd_N; rewrite Rabs_R0; apply bpow_gt_0).
  destruct (bmult_ok v v Fv Fv) as [G1 G2]; [rewrite Ev, Rmult_0_l; exact W|]. rewrite Ev, Rmult_0_l, round_0 in G2 by apply valid_rnd_N.
  destruct (bplus_ok acc (Bmult mode_NE v v) F G1) as [K1 K2]; [rewrite E, G2, Rplus_0_l; exact W|].
  rewrite E, G2, Rplus_0_l, round_0 in K2 by apply valid_rnd_N. apply IH; auto.
Qed.
Section Slice.
Context (t : ty) (p : nat * nat) (Nt : t <> TDub) (Hp : In p (slices t)).
Let s (x : val f64 t) : list f64 := slice (elems t x) p.
Lemma s_length : forall x y, length (s x) = length (s y).
Proof. intros x y. unfold s. rewrite (proj1 (proj2 (slice_shape t x p Hp))), (proj1 (proj2 (slice_shape t y p Hp))). reflexivity. Qed.
Lemma s_near : forall x y tol, nearlyEquals t x y tol = true -> nearlyEquals_arr (s x) (s y) tol = true.
Proof. intros x y tol E. apply object_slices in E; [|exact Nt]. rewrite Forall_forall in E. exact (E p Hp). Qed.
Lemma s_sound : forall x y tol, fin tol = true -> bpow radix2 (-53) <= b2r tol -> plain_grade (s y) -> nearlyEquals t x y tol = true ->
  sqrt (dist2 (s x) (s y)) <= allowed tol * sqrt (norm2 (s y)).
Proof.
  intros x y tol Ht T P E. destruct (slice_shape t x p Hp) as (N & L & S3). apply sound_root; auto; [unfold s; lia|apply s_length|apply s_near, E].
Qed.
Lemma dist_self : forall l : list f64, dist2 l l = 0.
Proof. induction l as [|v l IH]; [reflexivity|]. rewrite dist2_cons, IH. ring. Qed.
Lemma last_cons : forall A (l : list A) y x, last (y :: l) x = last l y.
Proof. intros A l. induction l as [|z l IH]; intros y x; [reflexivity|]. change (last (z :: l) x = last (z :: l) y). rewrite !IH. reflexivity. Qed.
Lemma chain_plain : forall tol, fin tol = true -> bpow radix2 (-53) <= b2r tol -> forall l x,
  linked (fun a b => nearlyEquals t a b tol = true) x l -> Forall (fun y => plain_grade (s y)) l ->
  sqrt (dist2 (s x) (s (last l x))) <= ((1 + allowed tol) ^ length l - 1) * sqrt (norm2 (s (last l x))).
Proof.
  intros tol Ht T. assert (A0 : 0 <= allowed tol).
  { unfold allowed. pose proof (bpow_gt_0 radix2 (-53)). pose proof (bpow_gt_0 radix2 (-49)). apply Rmult_le_pos; lra. }
  induction l as [|y l IH]; intros x K P.
  - cbn [last length pow]. rewrite dist_self, sqrt_0. lra.
  - rewrite last_cons. inversion P as [|? ? P1 P2]; subst. destruct K as [K1 K2]. specialize (IH y K2 P2).
    set (z := last l y) in *. pose proof (dist_triangle (s x) (s y) (s z) (s_length _ _) (s_length _ _)) as D.
    pose proof (norm_triangle (s y) (s z) (s_length _ _)) as N. pose proof (s_sound x y tol Ht T P1 K1) as S1.
    cbn [length pow]. set (q := (1 + allowed tol) ^ length l) in *. set (a := allowed tol) in *. set (n := sqrt (norm2 (s z))) in *.
    assert (Y : a * sqrt (norm2 (s y)) <= a * (q * n)) by (apply Rmult_le_compat_l; lra). lra.
Qed.
Lemma zero_small : forall x y tol, fin tol = true -> vanishing_grade (s y) -> nearlyEquals t x y tol = true -> Forall (fun v => Rabs (b2r v) <= b2r tol) (s x).
Proof.
  intros x y tol Ht Z E. apply s_near in E. destruct (slice_shape t x p Hp) as (N & L & S3).
  apply arr_unfold in E; [|exact N|apply s_length|apply zero_inner, Z]. destruct E as (_ & _ & [[_ E]|[E _]]).
  - pose proof (s_length x y) as _. clear - E Z Ht. unfold vanishing_grade in Z. induction E as [|v w g r Hv E IH]; constructor.
    + inversion Z as [|? ? [Fw Ew] _]; subst. apply small_real in Hv; [|exact Ht]. destruct Hv as [Fm Hm].
      change (nsub v w) with (Bminus mode_NE v w) in *. destruct (bminus_fin _ _ Fm) as (Fv & _ & Em). rewrite Em, Ew, Rminus_0_r, rnd_id in Hm. lra.
    + inversion Z; subst. apply IH; assumption.
  - exfalso. apply E. eapply Forall_impl; [|exact Z]. intros v [_ ->]. pose proof eta_pos. lra.
Qed.
End Slice.

(** ** Objects *)
Lemma root_accept : forall (g r : list f64) c, 0 <= c -> sqrt (dist2 g r) <= (1 - bpow radix2 (-47)) * c * sqrt (norm2 r) ->
  dist2 g r <= (1 - bpow radix2 (-47)) * (c * c) * norm2 r.
Proof.
  intros g r c Hc H. pose proof (dist2_pos g r) as D. pose proof (norm2_pos r) as N.
  assert (Z47 : 0 < bpow radix2 (-47) <= / 2) by (split; [apply bpow_gt_0|change (/2) with (bpow radix2 (-1)); apply bpow_le; lia]).
  set (z := bpow radix2 (-47)) in *. rewrite <- (sqrt_sqrt _ D), <- (sqrt_sqrt _ N). pose proof (sqrt_pos (dist2 g r)) as S1. pose proof (sqrt_pos (norm2 r)) as S2.
  set (d := sqrt (dist2 g r)) in *. set (n := sqrt (norm2 r)) in *.
  apply Rle_trans with (((1 - z) * c * n) * ((1 - z) * c * n)); [apply Rmult_le_compat; lra|].
  replace ((1 - z) * c * n * ((1 - z) * c * n)) with ((1 - z) * ((1 - z) * ((c * n) * (c * n)))) by ring.
  replace ((1 - z) * (c * c) * (n * n)) with ((1 - z) * ((c * n) * (c * n))) by ring.
  apply Rmult_le_compat_l; [lra|]. pose proof (sq_pos (c * n)). nra.
Qed.
Lemma chain_accept : forall t (x : val f64 t) l (tol tol' t' : f64), t <> TDub -> fin tol = true -> fin tol' = true -> bpow radix2 (-53) <= b2r tol ->
  l <> [] -> linked (fun a b => nearlyEquals t a b tol = true) x l ->
  Forall (fun p => Forall (fun y => plain_grade (slice (elems t y) p)) l \/ Forall (fun y => vanishing_grade (slice (elems t y) p)) l) (slices t) ->
  (1 + allowed tol) ^ length l - 1 <= (1 - bpow radix2 (-47)) * b2r t' -> b2r t' <= 1 -> b2r t' < b2r tol' ->
  nearlyEquals t x (last l x) tol' = true.
Proof.
  intros t x l tol tol' t' Nt Ht Ht' T Nl K G Q T1 Lt.
  pose proof (bpow_gt_0 radix2 (-53)) as P53. pose proof (bpow_gt_0 radix2 (-49)) as P49.
  assert (Z47 : 0 < bpow radix2 (-47) <= / 2) by (split; [apply bpow_gt_0|change (/2) with (bpow radix2 (-1)); apply bpow_le; lia]).
  assert (A0 : b2r tol <= allowed tol) by (unfold allowed; nra).
  assert (A1 : allowed tol <= (1 + allowed tol) ^ length l - 1).
  { destruct l as [|y l]; [contradiction|]. cbn [length pow]. assert (1 <= (1 + allowed tol) ^ length l) by (apply pow_R1_Rle; lra). nra. }
  assert (T0 : b2r tol <= b2r t').
  { assert ((1 - bpow radix2 (-47)) * b2r t' <= b2r t'); [|lra]. assert (0 < b2r t') by nra. nra. }
  assert (V1 : all_valid t x) by (destruct l as [|y l]; [contradiction|]; apply (nearly_valid t x y tol), K).
  assert (V2 : all_valid t (last l x)).
  { clear - K Nl. revert x K. induction l as [|y l IH]; intros x K; [contradiction|]. rewrite last_cons. destruct K as [K1 K2].
    destruct l as [|z l]; [apply (nearly_valid t x y tol), K1|]. apply IH; [discriminate|exact K2]. }
  apply (object_accept t x (last l x) tol' t'); auto.
  - split; [|exact T1]. apply Rle_trans with (bpow radix2 (-53)); [apply bpow_le; lia|lra].
  - rewrite Forall_forall in *. intros p Hp. cbv zeta. destruct (G p Hp) as [P|Z].
    + right. split.
      * clear - Nl P. revert x. induction P as [|y l Py P IH]; intros x; [contradiction|]. rewrite last_cons. destruct l as [|z l]; [exact Py|]. apply IH. discriminate.
      * apply root_accept; [lra|]. eapply Rle_trans; [apply (chain_plain t p Nt Hp tol Ht T l x K P)|]. apply Rmult_le_compat_r; [apply sqrt_pos|exact Q].
    + left. split.
      * clear - Nl Z. revert x. induction Z as [|y l Py P IH]; intros x; [contradiction|]. rewrite last_cons. destruct l as [|z l]; [|apply IH; discriminate].
        eapply Forall_impl; [|exact Py]. intros v Hv. apply Hv.
      * destruct l as [|y l]; [contradiction|]. inversion Z; subst. eapply Forall_impl; [|apply (zero_small t p Nt Hp x y tol Ht); [assumption|apply K]].
        intros v Hv. cbn beta in Hv. lra.
Qed.
Lemma symmetric_accept : forall t (x y : val f64 t) (tol tol' t' : f64), t <> TDub -> fin tol = true -> fin tol' = true -> bpow radix2 (-53) <= b2r tol ->
  nearlyEquals t x y tol = true ->
  Forall (fun p => (plain_grade (slice (elems t x) p) /\ plain_grade (slice (elems t y) p)) \/ (vanishing_grade (slice (elems t x) p) /\ vanishing_grade (slice (elems t y) p))) (slices t) ->
  allowed tol <= (1 - allowed tol) * ((1 - bpow radix2 (-47)) * b2r t') -> 0 < b2r t' <= 1 -> b2r t' < b2r tol' ->
  nearlyEquals t y x tol' = true.
Proof.
  intros t x y tol tol' t' Nt Ht Ht' T K G Q T1 Lt.
  pose proof (bpow_gt_0 radix2 (-53)) as P53. pose proof (bpow_gt_0 radix2 (-49)) as P49.
  assert (Z47 : 0 < bpow radix2 (-47) <= / 2) by (split; [apply bpow_gt_0|change (/2) with (bpow radix2 (-1)); apply bpow_le; lia]).
  assert (A0 : b2r tol <= allowed tol) by (unfold allowed; nra).
  set (a := allowed tol) in *. set (z := bpow radix2 (-47)) in *. set (w := b2r t') in *.
  assert (Pa : 0 < 1 - a).
  { destruct (Rle_lt_dec (1 - a) 0) as [D|D]; [|exact D]. exfalso. assert (0 <= (1 - z) * w) by (apply Rmult_le_pos; lra). nra. }
  assert (T0 : b2r tol <= w).
  { assert ((1 - a) * ((1 - z) * w) <= 1 * (1 * w)); [|lra]. apply Rmult_le_compat; try lra; [apply Rmult_le_pos; lra|apply Rmult_le_compat_r; lra]. }
  destruct (nearly_valid t x y tol K) as [V1 V2].
  apply (object_accept t y x tol' t'); auto.
  - split; [|apply T1]. apply Rle_trans with (bpow radix2 (-53)); [apply bpow_le; lia|unfold w in *; lra].
  - rewrite Forall_forall in *. intros p Hp. cbv zeta. destruct (G p Hp) as [[P1 P2]|[Z1 Z2]].
    + right. split; [exact P1|]. fold z. fold w. apply root_accept; [lra|]. fold z.
      pose proof (s_sound t p Nt Hp x y tol Ht T P2 K) as S1. rewrite dist_sym in S1.
      pose proof (norm_triangle (slice (elems t y) p) (slice (elems t x) p) (s_length t p Hp y x)) as N. fold a in S1.
      set (d := sqrt (dist2 _ _)) in *. set (ny := sqrt (norm2 (slice (elems t y) p))) in *. set (nx := sqrt (norm2 (slice (elems t x) p))) in *.
      assert (Py : 0 <= ny) by apply sqrt_pos.
      assert (R1 : a * ny <= (1 - a) * ((1 - z) * w) * ny) by (apply Rmult_le_compat_r; assumption).
      assert (R2 : (1 - z) * w * ((1 - a) * ny) <= (1 - z) * w * nx) by (apply Rmult_le_compat_l; [apply Rmult_le_pos; lra|lra]). lra.
    + left. split; [eapply Forall_impl; [|exact Z1]; intros v Hv; apply Hv|].
      eapply Forall_impl; [|exact Z2]. intros v [_ ->]. rewrite Rabs_R0. unfold w in *; lra.
Qed.

(** ** Round numbers: two comparisons, and one turned round *)
Lemma allowed_le : forall tol : f64, 0 <= b2r tol -> allowed tol <= (1 + / 1024) * b2r tol.
Proof. intros tol H. unfold allowed. apply Rmult_le_compat_r; [exact H|]. apply Rplus_le_compat_l. change (/1024) with (bpow radix2 (-10)). apply bpow_le; lia. Qed.
Lemma scaled_tol : forall (tol : f64) c, (c = 3 \/ c = 5)%Z -> fin tol = true -> bpow radix2 (-53) <= b2r tol <= / 4 ->
  exists t' : f64, (1 - / 1024) * (IZR c / 2) * b2r tol <= b2r t' <= (1 + / 1024) * (IZR c / 2) * b2r tol.
Proof.
  intros tol c Hc Ht [T1 T2]. pose proof (bpow_gt_0 radix2 (-53)) as P53. destruct (lit_val c (-1)) as (Fc & Vc & _); [lia|lia|]. change (bpow radix2 (-1)) with (/ 2) in Vc.
  assert (C : 3 <= IZR c <= 5) by (destruct Hc as [-> | ->]; lra).
  assert (B : bpow radix2 (-1000) <= Rabs (b2r (f64_lit c (-1)) * b2r tol)).
  { rewrite Vc, Rabs_pos_eq by nra. apply Rle_trans with (bpow radix2 (-53)); [apply bpow_le; lia|nra]. }
  destruct (round_factor _ B) as (d & Ed & Hd). rewrite Vc in Ed.
  assert (P : 0 <= IZR c * / 2 * b2r tol <= 1) by nra. 
  rewrite u53_val in Hd. apply Rabs_le_inv in Hd.
  destruct (bmult_ok (f64_lit c (-1)) tol Fc Ht) as [F E].
  { rewrite Vc, Ed. apply Rle_lt_trans with (bpow radix2 3); [|apply bpow_lt; lia]. change (bpow radix2 3) with 8.
    set (q := IZR c * / 2 * b2r tol) in *. assert (0 <= q * (1 + d)) by (apply Rmult_le_pos; lra). rewrite Rabs_pos_eq by assumption. nra. }
  exists (Bmult mode_NE (f64_lit c (-1)) tol). rewrite E, Vc, Ed. unfold Rdiv. rewrite !(Rmult_assoc _ (IZR c * / 2)).
  set (q := IZR c * / 2 * b2r tol) in *. split; rewrite (Rmult_comm _ q); apply Rmult_le_compat_l; lra.
Qed.
Lemma three_times : forall t (x y z : val f64 t) (tol tol' : f64), t <> TDub -> fin tol = true -> fin tol' = true ->
  bpow radix2 (-53) <= b2r tol <= / 8 -> 3 * b2r tol <= b2r tol' ->
  nearlyEquals t x y tol = true -> nearlyEquals t y z tol = true ->
  Forall (fun p => (plain_grade (slice (elems t y) p) /\ plain_grade (slice (elems t z) p)) \/ (vanishing_grade (slice (elems t y) p) /\ vanishing_grade (slice (elems t z) p))) (slices t) ->
  nearlyEquals t x z tol' = true.
Proof.
  intros t x y z tol tol' Nt Ht Ht' [T1 T2] L K1 K2 G. pose proof (bpow_gt_0 radix2 (-53)) as P53.
  destruct (scaled_tol tol 5) as (t' & B1 & B2); [auto|exact Ht|lra|].
  pose proof (allowed_le tol ltac:(lra)) as A. 
  assert (Z47 : 0 < bpow radix2 (-47) <= / 1024) by (split; [apply bpow_gt_0|change (/1024) with (bpow radix2 (-10)); apply bpow_le; lia]).
  assert (A0 : 0 <= allowed tol) by (unfold allowed; pose proof (bpow_gt_0 radix2 (-49)); apply Rmult_le_pos; lra).
  apply (chain_accept t x [y; z] tol tol' t'); auto; try lra.
  - discriminate.
  - cbn. auto.
  - eapply Forall_impl; [|exact G]. intros p [[? ?]|[? ?]]; [left|right]; repeat (apply Forall_cons || apply Forall_nil); assumption.
  - cbn [length pow]. set (a := allowed tol) in *. set (w := b2r tol) in *. nra.
Qed.
Lemma two_times : forall t (x y : val f64 t) (tol tol' : f64), t <> TDub -> fin tol = true -> fin tol' = true ->
  bpow radix2 (-53) <= b2r tol <= / 4 -> 2 * b2r tol <= b2r tol' -> nearlyEquals t x y tol = true ->
  Forall (fun p => (plain_grade (slice (elems t x) p) /\ plain_grade (slice (elems t y) p)) \/ (vanishing_grade (slice (elems t x) p) /\ vanishing_grade (slice (elems t y) p))) (slices t) ->
  nearlyEquals t y x tol' = true.
Proof.
  intros t x y tol tol' Nt Ht Ht' [T1 T2] L K G. pose proof (bpow_gt_0 radix2 (-53)) as P53.
  destruct (scaled_tol tol 3) as (t' & B1 & B2); [auto|exact Ht|lra|].
  pose proof (allowed_le tol ltac:(lra)) as A. 
  assert (Z47 : 0 < bpow radix2 (-47) <= / 1024) by (split; [apply bpow_gt_0|change (/1024) with (bpow radix2 (-10)); apply bpow_le; lia]).
  assert (A0 : 0 <= allowed tol) by (unfold allowed; pose proof (bpow_gt_0 radix2 (-49)); apply Rmult_le_pos; lra).
  apply (symmetric_accept t x y tol tol' t'); auto; try lra.
  set (a := allowed tol) in *. set (w := b2r tol) in *. set (z := bpow radix2 (-47)) in *. set (u := b2r t') in *.
  assert (S1 : (1 - / 1024) * u <= (1 - z) * u) by (apply Rmult_le_compat_r; lra).
  assert (S2 : (1 - a) * ((1 - / 1024) * u) <= (1 - a) * ((1 - z) * u)) by (apply Rmult_le_compat_l; lra).
  assert (S3 : (3 / 4 - / 1024) * ((1 - / 1024) * ((1 - / 1024) * (3 / 2) * w)) <= (1 - a) * ((1 - / 1024) * u)).
  { apply Rmult_le_compat; lra. }
  lra.
Qed.

(** ** Cases *)
Lemma not_same_tolerance : let s n := Sca (f64_lit n 0) in
  nearlyEquals TSca (s 4%Z) (s 5%Z) (f64_lit 1 (-2)) = true /\ nearlyEquals TSca (s 5%Z) (s 6%Z) (f64_lit 1 (-2)) = true /\
  nearlyEquals TSca (s 4%Z) (s 6%Z) (f64_lit 1 (-2)) = false /\ 
  nearlyEquals TSca (s 5%Z) (s 4%Z) (f64_lit 1 (-2)) = false.
Proof. repeat split; vm_compute; reflexivity. Qed.
Lemma zero_between : forall tol : f64, fin tol = true -> b2r tol <= 1 ->
  let s := fun m e => Sca (f64_lit m e) in
  nearlyEquals TSca (s 1%Z (-60)%Z) (s 0%Z 0%Z) (f64_lit 1 (-50)) = true /\ nearlyEquals TSca (s 0%Z 0%Z) (s 1%Z (-60)%Z) tol = false.
Proof.
  intros tol Ht HT. cbv zeta. split; [vm_compute; reflexivity|].
  change (nearlyEquals_arr [f64_lit 0 0] [f64_lit 1 (-60)] tol = false).
  rewrite (ratio_reject _ _ (f64_lit 1 0) tol); [reflexivity|vm_compute; reflexivity|vm_compute; reflexivity|vm_compute; reflexivity|exact Ht|exact HT|].
  rewrite (proj1 (proj2 (lit_val 1 0 ltac:(lia) ltac:(lia)))). change (bpow radix2 0) with 1. rewrite Rmult_1_r, Rabs_R1. lra.
Qed.
Lemma chain_case : let s n := mkSpin (Sca (f64_lit n 0)) (Biv (f64_lit 0 0) (f64_lit 0 0) (f64_lit 0 0)) in
  nearlyEquals TSpin (s 15%Z) (s 16%Z) (f64_lit 1 (-3)) = true /\ nearlyEquals TSpin (s 16%Z) (s 17%Z) (f64_lit 1 (-3)) = true /\
  Forall (fun p => (plain_grade (slice (elems TSpin (s 16%Z)) p) /\ plain_grade (slice (elems TSpin (s 17%Z)) p)) \/
                   (vanishing_grade (slice (elems TSpin (s 16%Z)) p) /\ vanishing_grade (slice (elems TSpin (s 17%Z)) p))) (slices TSpin).
Proof.
  cbv zeta. split; [vm_compute; reflexivity|]. split; [vm_compute; reflexivity|].
  assert (P : forall n, (1 <= n < 32)%Z -> plain_grade [f64_lit n 0]).
  { intros n Hn. unfold plain_grade, norm2. cbn [fold_right]. rewrite (proj1 (proj2 (lit_val n 0 ltac:(lia) ltac:(lia)))). change (bpow radix2 0) with 1.
    assert (1 <= IZR n <= 32) as [N1 N2] by (split; apply IZR_le; lia).
    split; [apply Rle_trans with (bpow radix2 0); [apply bpow_le; lia|change (bpow radix2 0) with 1; nra]|].
    apply Rle_trans with (bpow radix2 10); [change (bpow radix2 10) with 1024; nra|apply bpow_le; lia]. }
  assert (Z : fin (f64_lit 0 0) = true /\ b2r (f64_lit 0 0) = 0).
  { destruct (lit_val 0 0 ltac:(lia) ltac:(lia)) as (A & B & _). split; [exact A|]. rewrite B. ring. }
  apply Forall_cons; [left; split; apply P; lia|]. apply Forall_cons; [right|apply Forall_nil].
  split; repeat (apply Forall_cons || apply Forall_nil); exact Z.
Qed.
