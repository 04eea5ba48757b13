(** * Scaling by powers of two, derived functions: proofs. *)

Require Import Reals ZArith List Bool Lra Lia.
From Flocq Require Import Core BinarySingleNaN.
Require Import Verif.Num Verif.Types Verif.Priv Verif.OpsUni Verif.OpsAdd Verif.OpsSub
  Verif.OpsMul Verif.Const Verif.Func Verif.Validity Verif.Compare Verif.SpecCl Verif.SpecFunc Verif.Rel Verif.IntFacts
  Verif.B64 Verif.B64Facts Verif.SpecRound Verif.SpecValid Verif.SpecCompare Verif.SpecScale Verif.ScaleFacts Verif.SpecAcc Verif.BoundFacts Verif.AccFacts Verif.ValidFacts Verif.CompareFacts Verif.ArrFacts Verif.CompareThm.
Import ListNotations.
Local Open Scope R_scope.

(** ** Ranges *)
Definition rng (a b : Z) (v : f64) : Prop := is_finite v = true /\ (B2R v = 0 \/ bpow radix2 a <= Rabs (B2R v) <= bpow radix2 b).
Lemma near_le : forall z e, (-1074 <= e)%Z -> Rabs z <= bpow radix2 e -> Rabs (nearest64 z) <= bpow radix2 e.
Proof. intros z e He H. apply (rnd_le_format z); [apply fmt_bpow, He|exact H]. Qed.
Lemma near_ge : forall z e, (-1074 <= e)%Z -> bpow radix2 e <= Rabs z -> bpow radix2 e <= Rabs (nearest64 z).
Proof.
  intros z e He H. apply abs_round_ge_generic; [apply FLT_exp_valid; reflexivity|apply valid_rnd_N|apply (fmt_bpow e He)|exact H].
Qed.
Lemma near_fin : forall z e, (-1074 <= e <= 1023)%Z -> Rabs z <= bpow radix2 e -> Rlt_bool (Rabs (nearest64 z)) (bpow radix2 1024) = true.
Proof. intros z e He H. apply Rlt_bool_true. eapply Rle_lt_trans; [apply (near_le z e); [lia|exact H]|apply bpow_lt; lia]. Qed.
Lemma near_zero : nearest64 0 = 0.
Proof. apply round_0, valid_rnd_N. Qed.
Lemma rng_real : forall a b z, (-1074 <= a)%Z -> (-1074 <= b)%Z -> z = 0 \/ bpow radix2 a <= Rabs z <= bpow radix2 b ->
  nearest64 z = 0 \/ bpow radix2 a <= Rabs (nearest64 z) <= bpow radix2 b.
Proof. intros a b z Ha Hb [->|[H1 H2]]; [left; apply near_zero|right; split; [apply near_ge|apply near_le]; assumption]. Qed.
Lemma rng_mult : forall a b c d (v w : f64), rng a b v -> rng c d w -> (-1074 <= a + c)%Z -> (-1074 <= b + d <= 1023)%Z -> rng (a + c) (b + d) (Bmult mode_NE v w).
Proof.
  intros a b c d v w [Fv Hv] [Fw Hw] H1 H2.
  assert (P : B2R v * B2R w = 0 \/ bpow radix2 (a + c) <= Rabs (B2R v * B2R w) <= bpow radix2 (b + d)).
  { destruct Hv as [->|Hv]; [left; ring|]. destruct Hw as [->|Hw]; [left; ring|]. right. rewrite Rabs_mult, !bpow_plus.
    split; apply Rmult_le_compat; try apply bpow_ge_0; try apply Rabs_pos; try apply Hv; try apply Hw. }
  pose proof (Bmult_correct 53 1024 _ _ mode_NE v w) as C. change (round radix2 _ _ _) with (nearest64 (B2R v * B2R w)) in C.
  rewrite (near_fin _ (b + d)) in C; [|lia|destruct P as [->|P]; [rewrite Rabs_R0; apply bpow_ge_0|apply P]].
  destruct C as (V & F & _). split; [rewrite F, Fv, Fw; reflexivity|]. rewrite V. apply rng_real; [lia|lia|exact P].
Qed.
Lemma rng_under : forall a b c d e (v w : f64), rng a b v -> rng c d w -> (-1022 <= a + c)%Z -> (-1022 <= a + c + e)%Z -> no_underflow e v w.
Proof.
  intros a b c d e v w [Fv Hv] [Fw Hw] H1 H2. unfold no_underflow. destruct Hv as [->|Hv]; [left; ring|]. destruct Hw as [->|Hw]; [left; ring|]. right.
  assert (P : bpow radix2 (a + c) <= Rabs (B2R v * B2R w)).
  { rewrite Rabs_mult, bpow_plus. apply Rmult_le_compat; try apply bpow_ge_0; [apply Hv|apply Hw]. }
  split; [eapply Rle_trans; [|exact P]; apply bpow_le; lia|].
  apply Rle_trans with (bpow radix2 e * bpow radix2 (a + c)); [rewrite <- bpow_plus; apply bpow_le; lia|apply Rmult_le_compat_l; [apply bpow_ge_0|exact P]].
Qed.
(** Two pairs in range: the product does not underflow before or after. *)
Lemma rng_under2 : forall a b c d j k (v w v' w' : f64), rng a b v -> rng c d w -> scaled j v v' -> scaled k w w' -> rng a b v' -> rng c d w' ->
  (-1022 <= a + c)%Z -> no_underflow (j + k) v w.
Proof.
  intros a b c d j k v w v' w' [Fv Hv] [Fw Hw] (_ & _ & Vv & _) (_ & _ & Vw & _) [_ Hv'] [_ Hw'] H. unfold no_underflow.
  pose proof (bpow_gt_0 radix2 a) as Pa. pose proof (bpow_gt_0 radix2 c) as Pc.
  destruct Hv as [->|Hv]; [left; ring|]. destruct Hw as [->|Hw]; [left; ring|]. right.
  assert (Q : bpow radix2 (j + k) * Rabs (B2R v * B2R w) = Rabs (B2R v') * Rabs (B2R w')).
  { rewrite Vv, Vw, !Rabs_mult, !(Rabs_pos_eq (bpow _ _)) by apply bpow_ge_0. rewrite bpow_plus. ring. }
  assert (N : forall x y e, bpow radix2 a <= Rabs x \/ bpow radix2 c <= Rabs x -> y = bpow radix2 e * x -> y <> 0).
  { intros x y e Hx ->. apply Rmult_integral_contrapositive_currified; [pose proof (bpow_gt_0 radix2 e); lra|]. intros ->. rewrite Rabs_R0 in Hx. lra. }
  destruct Hv' as [Z|Hv']; [exfalso; apply (N (B2R v) (B2R v') j); [left; apply Hv|exact Vv|exact Z]|].
  destruct Hw' as [Z|Hw']; [exfalso; apply (N (B2R w) (B2R w') k); [right; apply Hw|exact Vw|exact Z]|].
  rewrite Q, Rabs_mult.
  assert (B : bpow radix2 (-1022) <= bpow radix2 a * bpow radix2 c) by (rewrite <- bpow_plus; apply bpow_le; lia).
  split; (eapply Rle_trans; [exact B|apply Rmult_le_compat; try apply bpow_ge_0]); [apply Hv|apply Hw|apply Hv'|apply Hw'].
Qed.
Lemma between_within : forall n t x, betweenv n t x -> within n t x.
Proof.
  intros n t x H. unfold within. eapply Forall_impl; [|exact H]. intros v [F [->|B]]; split; try exact F; [rewrite Rabs_R0; apply bpow_ge_0|apply B].
Qed.
Lemma between_in : forall n t x v, betweenv n t x -> In v (elems t x) -> rng (- n) n v.
Proof. intros n t x v H I0. unfold betweenv in H. rewrite Forall_forall in H. apply (H v I0). Qed.

(** ** Magnitude *)
Lemma scaled_pair : forall e t x x' v, scaledv e t x x' -> In v (elems t x) -> exists v', In v' (elems t x') /\ scaled e v v'.
Proof.
  intros e t x x' v H. unfold scaledv in H. induction H as [|a b l m Hs H IH]; intros I0; [destruct I0|].
  destruct I0 as [->|I0]; [exists b; split; [left; reflexivity|exact Hs]|]. destruct (IH I0) as (v' & J & S). exists v'. split; [right; exact J|exact S].
Qed.
Lemma magSq_range : forall n e t x x', (n <= 400)%Z -> scaledv e t x x' -> betweenv n t x -> betweenv n t x' -> scaled (e + e) (magSq t x) (magSq t x').
Proof.
  intros n e t x x' Hn S B B'.
  assert (W : forall y, betweenv n t y -> is_finite (magSq t y) = true).
  { intros y By. destruct (magSq_within 400 t y) as [F _]; [lia| |exact F]. apply between_within in By. unfold within in *. eapply Forall_impl; [|exact By].
    intros v [F H]. split; [exact F|]. eapply Rle_trans; [exact H|apply bpow_le; lia]. }
  apply magSq_scaled; auto. intros u w Iu Iw. destruct (scaled_pair e t x x' u S Iu) as (u' & Iu' & Su), (scaled_pair e t x x' w S Iw) as (w' & Iw' & Sw).
  apply (rng_under2 (- n) n (- n) n e e u w u' w'); auto; [apply (between_in n t x)|apply (between_in n t x)|apply (between_in n t x')|apply (between_in n t x')|lia]; assumption.
Qed.
Lemma magnitude_range : forall n e t x x', (n <= 400)%Z -> scaledv e t x x' -> betweenv n t x -> betweenv n t x' -> scaled e (magnitude t x) (magnitude t x').
Proof.
  intros n e t x x' Hn S B B'. apply sqrt_scaled; [apply (magSq_range n); assumption|]. apply notneg_pos, magSq_notneg.
Qed.

(** ** Direction and inverse *)
Lemma elems_eq : forall A t (x y : val A t), elems t x = elems t y -> x = y.
Proof. intros A t x y; destruct t; dvs; cbn; intros E; injection E; intros; subst; reflexivity. Qed.
Lemma scaled0_eq : forall t x x', scaledv 0 t x x' -> x' = x.
Proof.
  intros t x x' H. apply elems_eq. unfold scaledv in H. induction H as [|v w l m Hs H IH]; [reflexivity|]. rewrite IH, (scaled_0 v w Hs). reflexivity.
Qed.
Lemma rng_one : rng 0 0 (none_ : f64).
Proof. destruct one_ok as [F V]. split; [exact F|]. right. rewrite V, Rabs_R1. change (bpow radix2 0) with 1. lra. Qed.
Lemma rng_div : forall a b c d (v w : f64), rng a b v -> rng c d w -> B2R w <> 0 -> (-1074 <= a - d)%Z -> (-1074 <= b - c <= 1023)%Z ->
  rng (a - d) (b - c) (Bdiv mode_NE v w) /\ (B2R v / B2R w = 0 \/ bpow radix2 (a - d) <= Rabs (B2R v / B2R w)).
Proof.
  intros a b c d v w [Fv Hv] [Fw Hw] Nw H1 H2. destruct Hw as [Z|Hw]; [contradiction|].
  assert (Pw : 0 < Rabs (B2R w)) by (apply Rabs_pos_lt, Nw).
  assert (I1 : bpow radix2 (- d) <= / Rabs (B2R w) <= bpow radix2 (- c)).
  { rewrite !bpow_opp. split; apply Rinv_le_contravar; [exact Pw|apply Hw|apply bpow_gt_0|apply Hw]. }
  assert (P : B2R v / B2R w = 0 \/ bpow radix2 (a - d) <= Rabs (B2R v / B2R w) <= bpow radix2 (b - c)).
  { unfold Rdiv. destruct Hv as [->|Hv]; [left; ring|]. right. rewrite Rabs_mult, Rabs_inv. unfold Zminus. rewrite !bpow_plus.
    split; apply Rmult_le_compat; try apply bpow_ge_0; try apply Rabs_pos; try apply Hv; try apply I1. apply Rlt_le, Rinv_0_lt_compat, Pw. }
  pose proof (Bdiv_correct 53 1024 _ _ mode_NE v w Nw) as C. change (round radix2 _ _ _) with (nearest64 (B2R v / B2R w)) in C.
  rewrite (near_fin _ (b - c)) in C; [|lia|destruct P as [->|P]; [rewrite Rabs_R0; apply bpow_ge_0|apply P]].
  destruct C as (V & F & _). split; [split; [rewrite F; exact Fv|]; rewrite V; apply rng_real; [lia|lia|exact P]|]. destruct P as [P|P]; [left; exact P|right; apply P].
Qed.
Lemma div_range : forall a b c d j k (v w v' w' : f64), rng a b v -> rng c d w -> rng a b v' -> rng c d w' -> scaled j v v' -> scaled k w w' -> B2R w <> 0 ->
  (-1022 <= a - d)%Z -> (-1074 <= b - c <= 1023)%Z -> scaled (j - k) (Bdiv mode_NE v w) (Bdiv mode_NE v' w') /\ rng (a - d) (b - c) (Bdiv mode_NE v w) /\ rng (a - d) (b - c) (Bdiv mode_NE v' w').
Proof.
  intros a b c d j k v w v' w' Hv Hw Hv' Hw' Sv Sw Nw H1 H2. destruct Sv as (Fv & Fv' & Vv & Sv). destruct Sw as (Fw & Fw' & Vw & Sw).
  pose proof (bpow_gt_0 radix2 j) as Pj. pose proof (bpow_gt_0 radix2 k) as Pk.
  assert (Nw' : B2R w' <> 0) by (rewrite Vw; apply Rmult_integral_contrapositive_currified; [lra|exact Nw]).
  destruct (rng_div a b c d v w Hv Hw Nw) as [R1 Q1]; [lia|lia|]. destruct (rng_div a b c d v' w' Hv' Hw' Nw') as [R2 Q2]; [lia|lia|].
    split; [|split; assumption]. apply div_scaled; try (repeat split; assumption); try apply R1; try apply R2; try exact Nw.
    assert (E : bpow radix2 (j - k) * Rabs (B2R v / B2R w) = Rabs (B2R v' / B2R w')).
    { rewrite Vv, Vw. rewrite <- (Rabs_pos_eq (bpow radix2 (j - k))) by apply bpow_ge_0. rewrite <- Rabs_mult. f_equal. unfold Zminus. rewrite bpow_plus, bpow_opp. field. split; [exact Nw|lra]. }
    rewrite E. assert (B : bpow radix2 (-1022) <= bpow radix2 (a - d)) by (apply bpow_le; lia). destruct Q1 as [Q1|Q1]; [left; exact Q1|]. destruct Q2 as [Q2|Q2]; [|right; lra].
    exfalso. pose proof (bpow_gt_0 radix2 (a - d)). rewrite Q2, Rabs_R0 in E. apply Rmult_integral in E. pose proof (bpow_gt_0 radix2 (j - k)). lra.
Qed.
Lemma norm_comp : forall t (x : val f64 t) v, In v (elems t x) -> Rabs (B2R v) <= cnorm (exactly t x).
Proof.
  intros t x v I0. pose proof (elems_comp t x) as C. rewrite Forall_forall in C. destruct (C v I0) as [k E]. rewrite E. apply comp_le_norm.
Qed.
Lemma magSq_rng : forall t x, betweenv 200 t x -> nonzero t x -> rng (-401) 403 (magSq t x) /\ B2R (magSq t x) <> 0.
Proof.
  intros t x B N. destruct (magSq_within 200 t x) as [F U]; [lia|apply between_within, B|]. change (2 * 200 + 3)%Z with 403%Z in U.
  unfold nonzero in N. rewrite Exists_exists in N. destruct N as (v & I0 & Nv).
  assert (Lv : bpow radix2 (-200) <= cnorm (exactly t x)).
  { eapply Rle_trans; [|apply (norm_comp t x v I0)]. destruct (between_in 200 t x v B I0) as [_ [Z|H]]; [contradiction|apply H]. }
  pose proof (magSq_rel_error t x F) as E. assert (L480 : bpow radix2 (-480) <= cnorm (exactly t x)) by (eapply Rle_trans; [|exact Lv]; apply bpow_le; lia).
  specialize (E L480). apply sq_lower in Lv. rewrite cnorm_sq' in Lv. change (-200 + -200)%Z with (-400)%Z in Lv. set (N2 := cnorm2 _) in *.
  rewrite u53_val in E. apply Rabs_le_inv in E. assert (Q : bpow radix2 (-401) = / 2 * bpow radix2 (-400)) by (change (-401)%Z with (-1 + -400)%Z; rewrite bpow_plus; reflexivity).
  pose proof (bpow_gt_0 radix2 (-400)) as P. assert (Pm : bpow radix2 (-401) <= B2R (magSq t x)) by lra.
  split; [|lra]. split; [exact F|]. right. split; [rewrite Rabs_pos_eq by lra; exact Pm|exact U].
Qed.
Lemma magnitude_rng : forall t x, betweenv 200 t x -> nonzero t x -> rng (-201) 202 (magnitude t x) /\ 0 < B2R (magnitude t x).
Proof.
  intros t x B N. destruct (magSq_rng t x B N) as [[F [Z|[H1 H2]]] Nz]; [contradiction|]. pose proof (magSq_notneg t x) as NN. destruct (bsqrt_ok _ F NN) as [G V].
  pose proof (notneg_pos _ NN) as P. rewrite Rabs_pos_eq in H1, H2 by exact P. change (magnitude t x) with (Bsqrt mode_NE (magSq t x)).
  assert (S1 : forall e, sqrt (bpow radix2 (e + e)) = bpow radix2 e) by (intros e; rewrite bpow_plus; apply sqrt_square, bpow_ge_0).
  assert (L1 : bpow radix2 (-201) <= sqrt (B2R (magSq t x))).
  { rewrite <- (S1 (-201)%Z). apply sqrt_le_1_alt. eapply Rle_trans; [|exact H1]. apply bpow_le; lia. }
  assert (L2 : sqrt (B2R (magSq t x)) <= bpow radix2 202).
  { rewrite <- (S1 202%Z). apply sqrt_le_1_alt. eapply Rle_trans; [exact H2|]. apply bpow_le; lia. }
  assert (P2 : 0 <= sqrt (B2R (magSq t x))) by apply sqrt_pos.
  assert (Pn : 0 <= nearest64 (sqrt (B2R (magSq t x)))).
  { rewrite <- near_zero. apply round_le; [apply FLT_exp_valid; reflexivity|apply valid_rnd_N|exact P2]. }
  assert (R1 : bpow radix2 (-201) <= Rabs (nearest64 (sqrt (B2R (magSq t x)))) <= bpow radix2 202).
  { split; [apply near_ge; [lia|rewrite Rabs_pos_eq; assumption]|apply near_le; [lia|rewrite Rabs_pos_eq; assumption]]. }
  change (rnd64 (sqrt (b2r (magSq t x)))) with (nearest64 (sqrt (B2R (magSq t x)))) in V.
  split; [split; [exact G|right; rewrite V; exact R1]|]. rewrite V. rewrite Rabs_pos_eq in R1 by exact Pn. pose proof (bpow_gt_0 radix2 (-201)). lra.
Qed.
Lemma nonzero_scaled : forall e t x x', scaledv e t x x' -> nonzero t x -> nonzero t x'.
Proof.
  intros e t x x' S N. unfold nonzero in *. rewrite Exists_exists in *. destruct N as (v & I0 & Nv). destruct (scaled_pair e t x x' v S I0) as (v' & I1 & (_ & _ & V & _)).
  exists v'. split; [exact I1|]. rewrite V. apply Rmult_integral_contrapositive_currified; [|exact Nv]. pose proof (bpow_gt_0 radix2 e). lra.
Qed.
Lemma scale_range : forall a b j e t (r r' : f64) x x', rng a b r -> rng a b r' -> scaled j r r' -> (-822 <= a)%Z -> (-874 <= b <= 823)%Z ->
  scaledv e t x x' -> betweenv 200 t x -> betweenv 200 t x' -> scaledv (j + e) t (scale t r x) (scale t r' x').
Proof.
  intros a b j e t r r' x x' Rr Rr' Sr Ha Hb S B B'. unfold scaledv, betweenv in *. rewrite !elems_scale.
  induction S as [|v w l m Hs S IH]; [constructor|]. inversion B; inversion B'; subst. cbn [map]. constructor; [|apply IH; assumption].
  apply mult_scaled; [exact Sr|exact Hs|apply (rng_under2 a b (-200) 200 j e r v r' w); auto; lia| |].
  - apply (rng_mult a b (-200) 200); auto; lia.
  - apply (rng_mult a b (-200) 200); auto; lia.
Qed.
Lemma direction_form : forall t x, betweenv 200 t x -> nonzero t x -> direction t x = scale t (Bdiv mode_NE (none_ : f64) (magnitude t x)) x.
Proof.
  intros t x B N. destruct (magnitude_rng t x B N) as [[F [Z|[H1 H2]]] P]; [lra|]. unfold direction, pairMagDirFrom. cbn [snd].
  change (nltb lim_denorm_min (magnitude t x)) with (Bltb (f64_lit 1 (-1074)) (magnitude t x)).
  rewrite tiny_lt; [reflexivity|exact F|]. rewrite Rabs_pos_eq in H1 by lra. eapply Rlt_le_trans; [|exact H1]. apply bpow_lt; lia.
Qed.
Lemma scaled_one : scaled 0 (none_ : f64) none_.
Proof. apply scaled_refl, one_ok. Qed.
Lemma direction_same : forall e t x x', scaledv e t x x' -> betweenv 200 t x -> betweenv 200 t x' -> nonzero t x -> direction t x' = direction t x.
Proof.
  intros e t x x' S B B' N. pose proof (nonzero_scaled e t x x' S N) as N'. rewrite (direction_form t x B N), (direction_form t x' B' N').
  destruct (magnitude_rng t x B N) as [R1 P1], (magnitude_rng t x' B' N') as [R2 P2].
  destruct (div_range 0 0 (-201) 202 0 e none_ (magnitude t x) none_ (magnitude t x') rng_one R1 rng_one R2 scaled_one) as (D & D1 & D2);
    [apply (magnitude_range 200); auto; lia|lra|lia|lia|].
  apply scaled0_eq. replace 0%Z with (0 - e + e)%Z by lia. eapply scale_range; [exact D1|exact D2|exact D|lia|lia|exact S|exact B|exact B'].
Qed.
Definition blade_inv (t : ty) (x : val f64 t) : val f64 t := scale t (Bdiv mode_NE (none_ : f64) (magSq t x)) (reverse t x).
Lemma between_reverse : forall n t x, betweenv n t x -> betweenv n t (reverse t x).
Proof.
  intros n t x H. assert (O : forall v, between n v -> between n (Bopp v)) by (intros v [F D]; split; [rewrite is_finite_Bopp; exact F|rewrite B2R_Bopp, Rabs_Ropp; destruct D as [->|D]; [left; ring|right; exact D]]).
  unfold betweenv in *. destruct t; dvs; cbv -[between Bopp] in *; repeat match goal with H : Forall _ (_ :: _) |- _ => inversion H; clear H; subst end; repeat (apply Forall_cons || apply Forall_nil); auto.
Qed.
Lemma inverse_range : forall e t x x', scaledv e t x x' -> betweenv 200 t x -> betweenv 200 t x' -> nonzero t x -> scaledv (- e) t (blade_inv t x) (blade_inv t x').
Proof.
  intros e t x x' S B B' N. pose proof (nonzero_scaled e t x x' S N) as N'. unfold blade_inv.
  destruct (magSq_rng t x B N) as [R1 P1], (magSq_rng t x' B' N') as [R2 P2].
  destruct (div_range 0 0 (-401) 403 0 (e + e) none_ (magSq t x) none_ (magSq t x') rng_one R1 rng_one R2 scaled_one) as (D & D1 & D2);
    [apply (magSq_range 200); auto; lia|exact P1|lia|lia|].
  replace (- e)%Z with (0 - (e + e) + e)%Z by lia. eapply scale_range; [exact D1|exact D2|exact D|lia|lia|apply (unary_scaled e t x x' S)|apply between_reverse, B|apply between_reverse, B'].
Qed.

(** ** Comparison *)
Fixpoint sumsq (ds : list f64) (acc : f64) : f64 :=
  match ds with [] => acc | d :: ds => sumsq ds (Bplus mode_NE acc (Bmult mode_NE d d)) end.
Lemma inner_sumsq : forall l acc, inner_product l l acc = sumsq l acc.
Proof. induction l as [|v l IH]; intros acc; [reflexivity|]. cbn [inner_product sumsq]. apply IH. Qed.
Fixpoint difs (g r : list f64) : list f64 :=
  match g, r with a :: g, b :: r => Bminus mode_NE a b :: difs g r | _, _ => [] end.
Lemma sumdif_sumsq : forall g r acc, sumSqDif g r acc = sumsq (difs g r) acc.
Proof. induction g as [|a g IH]; intros [|b r] acc; try reflexivity. cbn [sumSqDif difs sumsq]. apply IH. Qed.

Lemma plus_nn : forall (a b : f64) p, is_finite a = true -> is_finite b = true -> 0 <= B2R a <= bpow radix2 p -> 0 <= B2R b <= bpow radix2 p -> (-1074 <= p <= 1022)%Z ->
  is_finite (Bplus mode_NE a b) = true /\ B2R a <= B2R (Bplus mode_NE a b) <= bpow radix2 (p + 1) /\ B2R b <= B2R (Bplus mode_NE a b) /\
  (B2R a = 0 -> B2R b = 0 -> B2R (Bplus mode_NE a b) = 0).
Proof.
  intros a b p Fa Fb Ha Hb Hp.
  assert (U : Rabs (B2R a + B2R b) <= bpow radix2 (p + 1)).
  { rewrite Rabs_pos_eq by lra. rewrite Z.add_comm, bpow_plus. change (bpow radix2 1) with 2. lra. }
  pose proof (Bplus_correct 53 1024 _ _ mode_NE a b Fa Fb) as C. change (round radix2 _ _ _) with (nearest64 (B2R a + B2R b)) in C.
  rewrite (near_fin _ (p + 1)) in C; [|lia|exact U]. destruct C as (V & F & _). split; [exact F|]. rewrite V.
  assert (M : forall v : f64, B2R v <= B2R a + B2R b -> B2R v <= nearest64 (B2R a + B2R b)).
  { intros v H. rewrite <- (nearest_fmt (B2R v)) by apply fmt_f64. apply round_le; [apply FLT_exp_valid; reflexivity|apply valid_rnd_N|exact H]. }
  split; [split; [apply M; lra|]|split; [apply M; lra|]].
  - eapply Rle_trans; [apply Rle_abs|]. apply near_le; [lia|exact U].
  - intros -> ->. rewrite Rplus_0_r. apply near_zero.
Qed.
Lemma square_rng : forall lo hi d, rng lo hi d -> (-1074 <= lo + lo)%Z -> (-1074 <= hi + hi <= 1023)%Z -> rng (lo + lo) (hi + hi) (Bmult mode_NE d d) /\ 0 <= B2R (Bmult mode_NE d d) /\
  (B2R d = 0 -> B2R (Bmult mode_NE d d) = 0) /\ (B2R d <> 0 -> bpow radix2 (lo + lo) <= B2R (Bmult mode_NE d d)).
Proof.
  intros lo hi d H H1 H2. pose proof (rng_mult lo hi lo hi d d H H H1 H2) as R1. pose proof (notneg_pos _ (notneg_square d)) as P. split; [exact R1|]. split; [exact P|].
  pose proof (bmult_fin d d (proj1 R1)) as (_ & _ & V). split.
  - intros Z. rewrite V, Z, Rmult_0_r. apply near_zero.
  - intros N. destruct H as [_ [Z|H]]; [contradiction|]. rewrite <- (Rabs_pos_eq (B2R (Bmult mode_NE d d))) by exact P.
    rewrite V. apply (near_ge (B2R d * B2R d)); [lia|]. rewrite Rabs_mult, bpow_plus. apply Rmult_le_compat; try apply bpow_ge_0; apply H.
Qed.
Lemma sumsq_bound : forall lo hi ds p acc, Forall (rng lo hi) ds -> is_finite acc = true -> 0 <= B2R acc <= bpow radix2 p -> (-1074 <= lo + lo)%Z -> (-1074 <= hi + hi <= p)%Z ->
  (p + Z.of_nat (length ds) <= 1023)%Z ->
  is_finite (sumsq ds acc) = true /\ B2R acc <= B2R (sumsq ds acc) <= bpow radix2 (p + Z.of_nat (length ds)) /\
  (Exists (fun d : f64 => B2R d <> 0) ds -> bpow radix2 (lo + lo) <= B2R (sumsq ds acc)) /\
  (B2R acc = 0 -> B2R (sumsq ds acc) = 0 \/ bpow radix2 (lo + lo) <= B2R (sumsq ds acc)).
Proof.
  intros lo hi ds. induction ds as [|d ds IH]; intros p acc H F A H1 H2 H3; cbn [sumsq].
  - cbn [length Z.of_nat]. rewrite Z.add_0_r. split; [exact F|]. split; [lra|]. split; [intros E; inversion E|left; assumption].
  - inversion H as [|? ? Hd Hds]; subst. cbn [length] in H3. rewrite Nat2Z.inj_succ in H3.
    destruct (square_rng lo hi d Hd) as ([Fq Rq] & Pq & Zq & Nq); [lia|lia|]. set (q := Bmult mode_NE d d) in *.
    assert (Uq : B2R q <= bpow radix2 p).
    { destruct Rq as [->|Rq]; [apply bpow_ge_0|]. rewrite Rabs_pos_eq in Rq by exact Pq. eapply Rle_trans; [apply Rq|apply bpow_le; lia]. }
    destruct (plus_nn acc q p F Fq A (conj Pq Uq)) as (F2 & A2 & B2 & Z2); [lia|]. set (s := Bplus mode_NE acc q) in *.
    destruct (IH (p + 1)%Z s Hds F2) as (F3 & A3 & E3 & Z3); [lra|lia|lia|lia|]. cbn [length]. rewrite Nat2Z.inj_succ.
    replace (p + Z.succ (Z.of_nat (length ds)))%Z with (p + 1 + Z.of_nat (length ds))%Z by lia.
    assert (K : B2R d <> 0 -> bpow radix2 (lo + lo) <= B2R (sumsq ds s)) by (intros N; specialize (Nq N); lra).
    split; [exact F3|]. split; [lra|]. split.
    + intros E. inversion E; subst; [apply K; assumption|apply E3; assumption].
    + intros Z. destruct (Req_dec (B2R d) 0) as [Zd|Nd]; [apply Z3, Z2; [exact Z|apply Zq, Zd]|right; apply K, Nd].
Qed.
Lemma sumsq_fin : forall ds acc, is_finite (sumsq ds acc) = true -> is_finite acc = true.
Proof. induction ds as [|d ds IH]; intros acc H; [exact H|]. cbn [sumsq] in H. apply IH in H. apply (bplus_fin _ _ H). Qed.
Lemma sumsq_scaled : forall lo hi e ds ds' acc acc', Forall2 (scaled e) ds ds' -> Forall (rng lo hi) ds -> Forall (rng lo hi) ds' -> (-1022 <= lo + lo)%Z ->
  scaled (e + e) acc acc' -> is_finite (sumsq ds acc) = true -> is_finite (sumsq ds' acc') = true -> scaled (e + e) (sumsq ds acc) (sumsq ds' acc').
Proof.
  intros lo hi e ds ds' acc acc' H. revert acc acc'. induction H as [|d d' ds ds' Hd H IH]; intros acc acc' R1 R2 Hl A F F'; [exact A|].
  inversion R1; inversion R2; subst. cbn [sumsq] in *. pose proof (sumsq_fin _ _ F) as G. pose proof (sumsq_fin _ _ F') as G'.
  apply IH; auto. apply plus_scaled; auto. apply mult_scaled; auto; [|apply (bplus_fin _ _ G)|apply (bplus_fin _ _ G')].
  apply (rng_under2 lo hi lo hi e e d d d' d'); auto.
Qed.
Lemma on_grid : forall v : f64, B2R v = 0 \/ bpow radix2 (-200) <= Rabs (B2R v) -> exists m, B2R v = IZR m * bpow radix2 (-252).
Proof.
  intros v [->|H]; [exists 0%Z; ring|]. pose proof (fmt_f64 v) as F. unfold generic_format in F. rewrite F. unfold F2R; cbn [Fnum Fexp].
  set (m := Ztrunc _). set (c := cexp radix2 (FLT_exp (-1074) 53) (B2R v)).
  assert (C : (-252 <= c)%Z).
  { unfold c, cexp, FLT_exp. assert (-199 <= mag radix2 (B2R v))%Z; [|lia]. apply mag_ge_bpow. exact H. }
  exists (m * 2 ^ (c + 252))%Z. rewrite mult_IZR. change 2%Z with (radix_val radix2). rewrite IZR_Zpower by lia. rewrite Rmult_assoc, <- bpow_plus. do 2 f_equal. lia.
Qed.
Lemma minus_rng : forall g r : f64, rng (-200) 200 g -> rng (-200) 200 r -> rng (-252) 201 (Bminus mode_NE g r).
Proof.
  intros g r [Fg Hg] [Fr Hr].
  assert (U : Rabs (B2R g - B2R r) <= bpow radix2 201).
  { unfold Rminus. eapply Rle_trans; [apply Rabs_triang|]. rewrite Rabs_Ropp. change 201%Z with (1 + 200)%Z. rewrite bpow_plus. change (bpow radix2 1) with 2. pose proof (bpow_gt_0 radix2 200).
    assert (Rabs (B2R g) <= bpow radix2 200) by (destruct Hg as [->|Hg]; [rewrite Rabs_R0; lra|apply Hg]).
    assert (Rabs (B2R r) <= bpow radix2 200) by (destruct Hr as [->|Hr]; [rewrite Rabs_R0; lra|apply Hr]). lra. }
  pose proof (Bminus_correct 53 1024 _ _ mode_NE g r Fg Fr) as C. change (round radix2 _ _ _) with (nearest64 (B2R g - B2R r)) in C.
  rewrite (near_fin _ 201) in C; [|lia|exact U]. destruct C as (V & F & _). split; [exact F|]. rewrite V. apply rng_real; [lia|lia|].
  destruct (on_grid g) as [m Em]; [tauto|]. destruct (on_grid r) as [n En]; [tauto|]. rewrite Em, En in *. rewrite <- Rmult_minus_distr_r, <- minus_IZR in *.
  destruct (Z.eq_dec (m - n) 0) as [E|E]; [left; rewrite E; ring|right]. split; [|exact U]. rewrite Rabs_mult, (Rabs_pos_eq (bpow _ _)) by apply bpow_ge_0. rewrite <- abs_IZR.
  rewrite <- (Rmult_1_l (bpow radix2 (-252))) at 1. apply Rmult_le_compat_r; [apply bpow_ge_0|]. apply IZR_le. lia.
Qed.
Lemma difs_scaled : forall e g r g' r', Forall2 (scaled e) g g' -> Forall2 (scaled e) r r' -> Forall (rng (-200) 200) g -> Forall (rng (-200) 200) r ->
  Forall (rng (-200) 200) g' -> Forall (rng (-200) 200) r' -> Forall2 (scaled e) (difs g r) (difs g' r').
Proof.
  intros e g r g' r' G. revert r r'. induction G as [|a a' g g' Ga G IH]; intros r r' R1 Hg Hr Hg' Hr'; [constructor|].
  destruct R1 as [|b b' r r' Rb R1]; [constructor|]. inversion Hg; inversion Hr; inversion Hg'; inversion Hr'; subst. cbn [difs].
  constructor; [apply minus_scaled; auto; apply minus_rng; assumption|apply IH; assumption].
Qed.
Lemma difs_rng : forall g r, Forall (rng (-200) 200) g -> Forall (rng (-200) 200) r -> Forall (rng (-252) 201) (difs g r).
Proof.
  induction g as [|a g IH]; intros [|b r] G R1; cbn [difs]; try constructor; inversion G; inversion R1; subst; [apply minus_rng; assumption|apply IH; assumption].
Qed.
Lemma difs_length : forall g r, (length (difs g r) <= length r)%nat.
Proof. induction g as [|a g IH]; intros [|b r]; cbn [difs length]; try lia. specialize (IH r). lia. Qed.
Lemma rng_valid : forall l, Forall (rng (-200) 200) l -> l <> [] -> isValid_arr l = true.
Proof.
  intros l H N. apply arr_valid; [exact N|]. eapply Forall_impl; [|exact H]. intros v [F [Z|[K _]]]; split; auto. right. eapply Rle_trans; [|exact K]. apply bpow_le. lia.
Qed.
Definition zero64 : f64 := B754_zero false.
Lemma zero_scaled : forall e, scaled e zero64 zero64.
Proof. intros e. split; [reflexivity|]. split; [reflexivity|]. split; [cbn; ring|reflexivity]. Qed.
Lemma sum_facts : forall lo hi ds, Forall (rng lo hi) ds -> (-537 <= lo)%Z -> (-537 <= hi <= 450)%Z -> (length ds <= 100)%nat ->
  rng (lo + lo) (hi + hi + 100) (sumsq ds zero64) /\ 0 <= B2R (sumsq ds zero64) /\ (Exists (fun d : f64 => B2R d <> 0) ds -> bpow radix2 (lo + lo) <= B2R (sumsq ds zero64)).
Proof.
  intros lo hi ds H H1 H2 H3. assert (Z0 : B2R zero64 = 0) by reflexivity.
  destruct (sumsq_bound lo hi ds (hi + hi) zero64 H) as (F & A & E & Z); try lia; [reflexivity|rewrite Z0; split; [lra|apply bpow_ge_0]|].
  rewrite Z0 in A. specialize (Z Z0). split; [|split; [lra|exact E]]. split; [exact F|]. destruct Z as [Z|Z]; [left; exact Z|right]. rewrite Rabs_pos_eq by lra. split; [exact Z|].
  eapply Rle_trans; [apply A|]. apply bpow_le. lia.
Qed.
Lemma not_small : forall q : f64, is_finite q = true -> bpow radix2 (-400) <= B2R q -> nltb (nsqrt q : f64) lim_min = false.
Proof.
  intros q F Q. pose proof (bpow_gt_0 radix2 (-400)) as P0. change (nsqrt q : f64) with (Bsqrt mode_NE q : f64).
  assert (K : is_finite (Bsqrt mode_NE q) = true /\ bpow radix2 (-200) <= B2R (Bsqrt mode_NE q)).
  { assert (NN : notneg q) by (unfold notneg; rewrite Bltb_correct by (try reflexivity; exact F); apply Rlt_bool_false; cbn [B2R]; lra).
    pose proof (bsqrt_ok q F NN) as [Fs V]. split; [exact Fs|]. rewrite V.
    assert (L : bpow radix2 (-200) <= sqrt (B2R q)).
    { rewrite <- (sqrt_square (bpow radix2 (-200))) by apply bpow_ge_0. rewrite <- bpow_plus. apply sqrt_le_1_alt, Q. }
    rewrite <- (nearest_fmt (bpow radix2 (-200))) by (apply fmt_bpow; lia). apply round_le; [apply FLT_exp_valid; reflexivity|apply valid_rnd_N|exact L]. }
  destruct K as [Fs K], min_lit as [Fm Vm]. change (nltb (Bsqrt mode_NE q : f64) lim_min) with (Bltb (Bsqrt mode_NE q) (lim_min : f64)).
  rewrite Bltb_correct by assumption. apply Rlt_bool_false. rewrite Vm. eapply Rle_trans; [|exact K]. apply bpow_le. lia.
Qed.
Lemma arr_relative : forall g r tol, Forall (rng (-200) 200) g -> Forall (rng (-200) 200) r -> g <> [] -> (length r <= 100)%nat -> Exists (fun v : f64 => B2R v <> 0) r ->
  nearlyEquals_arr g r tol = isSmallAbs (nsqrt (Bdiv mode_NE (sumsq (difs g r) zero64) (sumsq r zero64) : f64)) tol.
Proof.
  intros g r tol G R1 N L E. unfold nearlyEquals_arr. rewrite (rng_valid g G N), (rng_valid r R1) by (intros ->; inversion E). cbn [andb].
  change (inner_product r r 0%num) with (inner_product r r zero64). change (sumSqDif g r 0%num) with (sumSqDif g r zero64). rewrite inner_sumsq, sumdif_sumsq. destruct (sum_facts _ _ r R1) as ([F _] & _ & B); [lia..|exact L|]. specialize (B E).
  rewrite not_small; [reflexivity|exact F|exact B].
Qed.
Lemma arr_scaled : forall e g r g' r' tol, Forall2 (scaled e) g g' -> Forall2 (scaled e) r r' -> Forall (rng (-200) 200) g -> Forall (rng (-200) 200) r ->
  Forall (rng (-200) 200) g' -> Forall (rng (-200) 200) r' -> g <> [] -> (length r <= 100)%nat -> Exists (fun v : f64 => B2R v <> 0) r ->
  nearlyEquals_arr g' r' tol = nearlyEquals_arr g r tol.
Proof.
  intros e g r g' r' tol G R1 Hg Hr Hg' Hr' N L E.
  assert (E' : Exists (fun v : f64 => B2R v <> 0) r').
  { clear - R1 E. induction R1 as [|a a' r r' (_ & _ & V & _) R1 IH]; inversion E; subst; [left|right; auto]. rewrite V. pose proof (bpow_gt_0 radix2 e). nra. }
  assert (N' : g' <> []) by (destruct G; [contradiction|discriminate]).
  assert (L' : (length r' <= 100)%nat) by (replace (length r') with (length r); [exact L|clear - R1; induction R1; cbn; congruence]).
  rewrite (arr_relative g r), (arr_relative g' r') by assumption.
  pose proof (difs_rng g r Hg Hr) as Dr. pose proof (difs_rng g' r' Hg' Hr') as Dr'.
  destruct (sum_facts _ _ _ Dr) as (S1 & S2 & _); [lia..|pose proof (difs_length g r); lia|].
  destruct (sum_facts _ _ _ Dr') as (S1' & S2' & _); [lia..|pose proof (difs_length g' r'); lia|].
  destruct (sum_facts _ _ r Hr) as (T1 & T2 & T3); [lia..|exact L|].
  destruct (sum_facts _ _ r' Hr') as (T1' & T2' & T3'); [lia..|exact L'|].
  specialize (T3 E). pose proof (bpow_gt_0 radix2 (-200 + -200)).
  destruct (div_range _ _ _ _ (e + e) (e + e) _ _ _ _ S1 T1 S1' T1') as (D & _ & _); try lia; try lra.
  - eapply sumsq_scaled; [apply difs_scaled; eassumption|exact Dr|exact Dr'|lia|apply zero_scaled|apply S1|apply S1'].
  - eapply sumsq_scaled; [exact R1|exact Hr|exact Hr'|lia|apply zero_scaled|apply T1|apply T1'].
  - replace (e + e - (e + e))%Z with 0%Z in D by lia. apply scaled_0 in D. rewrite D. reflexivity.
Qed.
(** Each grade of a reference is nonzero. *)
Lemma grade_scaled : forall e l l' p, Forall2 (scaled e) l l' -> Forall2 (scaled e) (slice l p) (slice l' p).
Proof.
  intros e l l' [n m] H. unfold slice. cbn [fst snd]. revert l l' H. induction n as [|n IH]; intros l l' H.
  - cbn [skipn]. revert l l' H. induction m as [|m IH]; intros l l' H; [constructor|]. destruct H; cbn; constructor; auto.
  - destruct H; [cbn; destruct m; constructor|]. cbn [skipn]. apply IH. assumption.
Qed.
Lemma slice_rng : forall l p (P : f64 -> Prop), Forall P l -> Forall P (slice l p).
Proof.
  intros l [n m] P H. unfold slice. cbn [fst snd]. rewrite Forall_forall in *. intros v K. apply H. 
  rewrite <- (firstn_skipn n l). apply in_or_app. right. rewrite <- (firstn_skipn m (skipn n l)). apply in_or_app. left. exact K.
Qed.

Lemma rel_scaled : forall e (g r g' r' tol : f64), scaled e g g' -> scaled e r r' -> rng (-200) 200 g -> rng (-200) 200 r -> rng (-200) 200 g' -> rng (-200) 200 r' ->
  B2R r <> 0 -> nearlyEqualsRel g' r' tol = nearlyEqualsRel g r tol.
Proof.
  intros e g r g' r' tol G R1 Hg Hr Hg' Hr' N.
  assert (N' : B2R r' <> 0) by (destruct R1 as (_ & _ & V & _); rewrite V; pose proof (bpow_gt_0 radix2 e); nra).
  assert (K : forall a b : f64, rng (-200) 200 a -> rng (-200) 200 b -> B2R b <> 0 -> nearlyEqualsRel a b tol = isSmallAbsDiff (Bdiv mode_NE a b : f64) none_ tol).
  { intros a b Ha Hb Nb. unfold nearlyEqualsRel, bothAreValid.
    assert (V : forall v, rng (-200) 200 v -> isValid_Dub v = true).
    { intros v [F H]. apply isValid_number. split; [exact F|]. destruct H as [H|[H _]]; [left; exact H|right]. eapply Rle_trans; [|exact H]. apply bpow_le. lia. }
    rewrite (V a Ha), (V b Hb). cbn [andb]. destruct tolToZero_ok as [Ft Vt]. change (nltb (nabs b) tolToZero) with (Bltb (Babs b) (tolToZero : f64)).
    rewrite Bltb_correct; [|rewrite is_finite_Babs; apply Hb|exact Ft]. rewrite B2R_Babs, Vt. rewrite Rlt_bool_false; [reflexivity|].
    destruct Hb as [_ [Hb|[Hb _]]]; [contradiction|]. eapply Rle_trans; [|exact Hb]. apply bpow_le. lia. }
  rewrite !K by assumption. destruct (div_range _ _ _ _ e e _ _ _ _ Hg Hr Hg' Hr' G R1 N) as (D & _ & _); [lia|lia|].
  replace (e - e)%Z with 0%Z in D by lia. apply scaled_0 in D. rewrite D. reflexivity.
Qed.
Lemma nearly_scaled : forall e t x y x' y' tol, scaledv e t x x' -> scaledv e t y y' -> betweenv 200 t x -> betweenv 200 t y -> betweenv 200 t x' -> betweenv 200 t y' ->
  Forall (fun p => Exists (fun v : f64 => B2R v <> 0) (slice (elems t y) p)) (slices t) -> nearlyEquals t x' y' tol = nearlyEquals t x y tol.
Proof.
  intros e t x y x' y' tol X Y Bx By Bx' By' N.
  assert (T : t = TDub \/ t <> TDub) by (destruct t; [left; reflexivity|right; discriminate..]). destruct T as [->|T].
  - unfold scaledv, betweenv in *. cbn in *. inversion X; inversion Y; inversion Bx; inversion By; inversion Bx'; inversion By'; inversion N as [|? ? N1]; subst.
    apply (rel_scaled e); auto. cbn in N1. inversion N1 as [|? ? N2]; [assumption|inversion N2].
  - apply eq_true_iff_eq. rewrite !object_slices by exact T. rewrite !Forall_forall.
    assert (K : forall p, In p (slices t) -> nearlyEquals_arr (slice (elems t x') p) (slice (elems t y') p) tol = nearlyEquals_arr (slice (elems t x) p) (slice (elems t y) p) tol).
    { intros p Hp. destruct (slice_shape t x p Hp) as (A1 & _ & _), (slice_shape t y p Hp) as (_ & A2 & A3).
      apply (arr_scaled e); try (apply grade_scaled; assumption); try (apply slice_rng; assumption); [exact A1|lia|]. rewrite Forall_forall in N. apply N, Hp. }
    split; intros H p Hp; [rewrite <- K|rewrite K]; auto.
Qed.
Lemma product_range : forall j k a b x y x' y', scaledv j a x x' -> scaledv k b y y' -> betweenv 500 a x -> betweenv 500 b y -> betweenv 500 a x' -> betweenv 500 b y' ->
  scaledv (j + k) (mulTy a b) (mul a b x y) (mul a b x' y').
Proof.
  intros j k a b x y x' y' X Y Bx By Bx' By'.
  assert (W : forall x y, betweenv 500 a x -> betweenv 500 b y -> all_finite (mulTy a b) (mul a b x y)).
  { intros u w U V. eapply Forall_impl; [|apply (mul_within 500 500 a b u w); [lia|lia|apply between_within, U|apply between_within, V]]. intros v [F _]. exact F. }
  apply mul_scaled; auto. intros u w Iu Iw. destruct (scaled_pair j a x x' u X Iu) as (u' & Iu' & Su), (scaled_pair k b y y' w Y Iw) as (w' & Iw' & Sw).
  apply (rng_under2 (-500) 500 (-500) 500 j k u w u' w'); auto; [apply (between_in 500 a x)|apply (between_in 500 b y)|apply (between_in 500 a x')|apply (between_in 500 b y')|lia]; assumption.
Qed.
Lemma inverses_range : forall e,
  (forall x x', scaledv e TSca x x' -> betweenv 200 TSca x -> betweenv 200 TSca x' -> nonzero TSca x -> scaledv (- e) TSca (inverse_Sca x) (inverse_Sca x')) /\
  (forall x x', scaledv e TVec x x' -> betweenv 200 TVec x -> betweenv 200 TVec x' -> nonzero TVec x -> scaledv (- e) TVec (inverse_Vec x) (inverse_Vec x')) /\
  (forall x x', scaledv e TBiv x x' -> betweenv 200 TBiv x -> betweenv 200 TBiv x' -> nonzero TBiv x -> scaledv (- e) TBiv (inverse_Biv x) (inverse_Biv x')) /\
  (forall x x', scaledv e TTri x x' -> betweenv 200 TTri x -> betweenv 200 TTri x' -> nonzero TTri x -> scaledv (- e) TTri (inverse_Tri x) (inverse_Tri x')).
Proof. intros e. split; [|split; [|split]]; intros x x'; [exact (inverse_range e TSca x x')|exact (inverse_range e TVec x x')|exact (inverse_range e TBiv x x')|exact (inverse_range e TTri x x')]. Qed.

(** ** Cases *)
Lemma lit_val : forall m e, (Z.abs m < 1024)%Z -> (-100 <= e <= 100)%Z ->
  is_finite (f64_lit m e) = true /\ B2R (f64_lit m e) = IZR m * bpow radix2 e /\ Bsign (f64_lit m e) = (m <? 0)%Z.
Proof.
  intros m e Hm He. unfold f64_lit. pose proof (binary_normalize_correct 53 1024 eq_refl eq_refl mode_NE m e false) as C. cbv zeta in C.
  change (round radix2 _ _ _) with (nearest64 (F2R (Float radix2 m e))) in C.
  assert (G : fmt (F2R (Float radix2 m e))).
  { apply generic_format_FLT. exists (Float radix2 m e); [reflexivity|cbn [Fnum]; apply Z.lt_le_trans with (1 := Hm); vm_compute; discriminate|cbn [Fexp]; lia]. }
  rewrite (nearest_fmt _ G) in C. unfold F2R in C; cbn [Fnum Fexp] in C.
  rewrite Rlt_bool_true in C.
  - destruct C as (V & F & S). split; [exact F|]. split; [exact V|]. etransitivity; [exact S|].
    pose proof (bpow_gt_0 radix2 e) as P. destruct (Z.compare_spec m 0) as [->|K|K].
    + rewrite Rmult_0_l, Rcompare_Eq by reflexivity. reflexivity.
    + rewrite Rcompare_Lt by (apply IZR_lt in K; nra). symmetry. apply Z.ltb_lt. exact K.
    + rewrite Rcompare_Gt by (apply IZR_lt in K; nra). symmetry. apply Z.ltb_ge. lia.
  - rewrite Rabs_mult, (Rabs_pos_eq (bpow _ _)) by apply bpow_ge_0. rewrite <- abs_IZR.
    apply Rlt_le_trans with (bpow radix2 10 * bpow radix2 e).
    + apply Rmult_lt_compat_r; [apply bpow_gt_0|]. change (bpow radix2 10) with (IZR 1024). apply IZR_lt. lia.
    + rewrite <- bpow_plus. apply bpow_le. lia.
Qed.
Lemma lit_scaled : forall k m e n f, (Z.abs m < 1024)%Z -> (-100 <= e <= 100)%Z -> (Z.abs n < 1024)%Z -> (-100 <= f <= 100)%Z ->
  IZR n * bpow radix2 f = bpow radix2 k * (IZR m * bpow radix2 e) -> (n <? 0)%Z = (m <? 0)%Z -> scaled k (f64_lit m e) (f64_lit n f).
Proof.
  intros k m e n f Hm He Hn Hf V S. destruct (lit_val m e Hm He) as (A & B & C), (lit_val n f Hn Hf) as (A' & B' & C').
  split; [exact A|]. split; [exact A'|]. split; [rewrite B, B'; exact V|rewrite C, C'; exact S].
Qed.
Lemma lit_between : forall m e, (Z.abs m < 1024)%Z -> (-100 <= e <= 100)%Z -> between 200 (f64_lit m e).
Proof.
  intros m e Hm He. destruct (lit_val m e Hm He) as (A & B & _). split; [exact A|]. rewrite B. destruct (Z.eq_dec m 0) as [->|N]; [left; ring|right].
  rewrite Rabs_mult, (Rabs_pos_eq (bpow _ _)) by apply bpow_ge_0. rewrite <- abs_IZR. pose proof (bpow_gt_0 radix2 e) as P.
  assert (1 <= IZR (Z.abs m) <= 1024) as [K1 K2] by (split; apply IZR_le; lia). split.
  - apply Rle_trans with (bpow radix2 e); [apply bpow_le; lia|nra].
  - apply Rle_trans with (bpow radix2 10 * bpow radix2 e); [change (bpow radix2 10) with 1024; nra|]. rewrite <- bpow_plus. apply bpow_le. lia.
Qed.
Lemma lit_nonzero : forall m e, (Z.abs m < 1024)%Z -> (-100 <= e <= 100)%Z -> m <> 0%Z -> B2R (f64_lit m e) <> 0.
Proof.
  intros m e Hm He N. rewrite (proj1 (proj2 (lit_val m e Hm He))). pose proof (bpow_gt_0 radix2 e). apply IZR_neq in N. nra.
Qed.
Ltac lits := first [apply lit_scaled; [lia|lia|lia|lia|change (bpow radix2 0) with 1; change (bpow radix2 2) with 4;
  change (bpow radix2 (-1)) with (/2); change (bpow radix2 (-3)) with (/8); lra|reflexivity] | apply lit_between; lia].
Lemma zero_grade :
  let o := f64_lit 0 0 in
  scaledv 2 TVec (Vec (f64_lit 1 0) o o) (Vec (f64_lit 4 0) o o) /\ scaledv 2 TVec (Vec o o o) (Vec o o o) /\
  nearlyEquals TVec (Vec (f64_lit 1 0) o o) (Vec o o o) (f64_lit 2 0) = true /\
  nearlyEquals TVec (Vec (f64_lit 4 0) o o) (Vec o o o) (f64_lit 2 0) = false.
Proof.
  cbv zeta. split; [repeat (apply Forall2_cons || apply Forall2_nil); lits|]. split; [repeat (apply Forall2_cons || apply Forall2_nil); lits|].
  split; vm_compute; reflexivity.
Qed.
Lemma scale_case :
  let x := Vec (f64_lit 3 0) (f64_lit 0 0) (f64_lit (-5) 0) in let x' := Vec (f64_lit 12 0) (f64_lit 0 0) (f64_lit (-20) 0) in
  let y := mkSpin (Sca (f64_lit 1 0)) (Biv (f64_lit 7 0) (f64_lit 0 0) (f64_lit 1 (-3))) in
  let y' := mkSpin (Sca (f64_lit 4 0)) (Biv (f64_lit 28 0) (f64_lit 0 0) (f64_lit 1 (-1))) in
  scaledv 2 TVec x x' /\ scaledv 2 TSpin y y' /\ betweenv 200 TVec x /\ betweenv 200 TVec x' /\ nonzero TVec x /\
  betweenv 200 TSpin y /\ betweenv 200 TSpin y' /\
  Forall (fun p => Exists (fun v : f64 => B2R v <> 0) (slice (elems TSpin y) p)) (slices TSpin).
Proof.
  cbv zeta. split; [repeat (apply Forall2_cons || apply Forall2_nil); lits|]. split; [repeat (apply Forall2_cons || apply Forall2_nil); lits|].
  split; [repeat (apply Forall_cons || apply Forall_nil); lits|]. split; [repeat (apply Forall_cons || apply Forall_nil); lits|].
  split; [apply Exists_cons_hd, lit_nonzero; lia|].
  split; [repeat (apply Forall_cons || apply Forall_nil); lits|]. split; [repeat (apply Forall_cons || apply Forall_nil); lits|].
  repeat (apply Forall_cons || apply Forall_nil); apply Exists_cons_hd, lit_nonzero; lia.
Qed.
