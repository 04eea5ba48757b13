(** * Computed angles: cases. *)

Require Import Reals ZArith List Bool Lra Lia.
From Flocq Require Import Core BinarySingleNaN.
Require Import Verif.Num Verif.Types Verif.Priv Verif.OpsUni Verif.OpsAdd Verif.OpsSub Verif.OpsMul Verif.Const Verif.Validity
  Verif.Func Verif.SpecCl Verif.AlgTac Verif.SpecFunc Verif.FuncFacts Verif.B64 Verif.B64Facts Verif.SpecRound Verif.SpecValid
  Verif.SpecAcc Verif.SpecAngle Verif.RootAcc Verif.AngleFacts.
Import ListNotations.
Local Open Scope R_scope.

Definition right_a : Vector f64 := Vec (f64_lit 3 0) (f64_lit 0 0) (f64_lit 0 0).
Definition right_b : Vector f64 := Vec (f64_lit 0 0) (f64_lit 2 0) (f64_lit 0 0).
Definition slight_a : Vector f64 := Vec (f64_lit 0 0) (f64_lit 1 0) (f64_lit 0 0).
Definition slight_b : Vector f64 := Vec (f64_lit 0 0) (f64_lit 1 0) (f64_lit 1 (-40)).
Lemma spin_ext : forall a b : Spinor f64, map (@B2SF 53 1024) (elems TSpin a) = map (@B2SF 53 1024) (elems TSpin b) -> a = b.
Proof.
  intros [[[a0]] [[a1 a2 a3]]] [[[b0]] [[b1 b2 b3]]]. cbn. unfold arr1_list. cbn. intros h. injection h; intros.
  repeat f_equal; apply B2SF_inj; assumption.
Qed.
Lemma right_product : mul TVec TVec right_b right_a = mkSpin (Sca (f64_lit 0 0)) (Biv (f64_lit 0 0) (f64_lit 0 0) (f64_lit (-6) 0)).
Proof. apply spin_ext. vm_compute. reflexivity. Qed.
Lemma slight_product : mul TVec TVec slight_b slight_a = mkSpin (Sca (f64_lit 1 0)) (Biv (f64_lit (-1) (-40)) (f64_lit 0 0) (f64_lit 0 0)).
Proof. apply spin_ext. vm_compute. reflexivity. Qed.

Lemma one_ge : forall e, (e <= 0)%Z -> bpow radix2 e <= 1.
Proof. intros e He; change 1 with (bpow radix2 0); apply bpow_le; exact He. Qed.
Lemma eight_le : forall e, (3 <= e)%Z -> 8 <= bpow radix2 e.
Proof. intros e He; change 8 with (bpow radix2 3); apply bpow_le; exact He. Qed.
Lemma e23_plane : all_finite TBiv (c_e23 : BiVector f64) /\ bpow radix2 (-480) <= cnorm (exactly TBiv (c_e23 : BiVector f64)) <= bpow radix2 480.
Proof.
  assert (E : (c_e23 : BiVector f64) = Biv (f64_lit 1 0) (f64_lit 0 0) (f64_lit 0 0)).
  { unfold c_e23. repeat f_equal; apply B2SF_inj; vm_compute; reflexivity. }
  rewrite E. destruct (small_int 0%Z ltac:(lia)) as [F0 B0]. destruct (small_int 1%Z ltac:(lia)) as [F1 B1].
  split; [unfold all_finite; cbn [elems]; repeat constructor; assumption|].
  assert (N : cnorm (exactly TBiv (Biv (f64_lit 1 0 : f64) (f64_lit 0 0) (f64_lit 0 0))) = 1).
  { unfold cnorm. replace (cnorm2 _) with 1; [apply sqrt_1|]. unfold exactly. cbv -[b2r f64_lit Rplus Rmult R0 IZR Ropp]. rewrite B1, B0. ring. }
  rewrite N. split; [apply one_ge; lia|]. pose proof (eight_le 480 ltac:(lia)). lra.
Qed.
Lemma example_right : all_finite TVec right_a /\ all_finite TVec right_b /\ log_domain (mul TVec TVec right_b right_a) /\
  bpow radix2 (-500) <= cnorm (exactly TVec right_a) * cnorm (exactly TVec right_b) /\ angle_between right_a right_b (PI / 2) /\
  half_angle (mul TVec TVec right_b right_a) (PI / 2) /\ bpow radix2 (-22) <= sin (PI / 2).
Proof.
  destruct (small_int 0%Z ltac:(lia)) as [F0 B0]. destruct (small_int 3%Z ltac:(lia)) as [F3 B3]. destruct (small_int 2%Z ltac:(lia)) as [F2 B2].
  destruct (small_int (-6)%Z ltac:(lia)) as [F6 B6]. rewrite right_product.
  assert (Na : cnorm (exactly TVec right_a) = 3).
  { unfold cnorm. replace (cnorm2 _) with (3 * 3); [apply sqrt_square; lra|]. unfold exactly, right_a. cbv -[b2r f64_lit Rplus Rmult R0 IZR Ropp]. rewrite B3, B0. ring. }
  assert (Nb : cnorm (exactly TVec right_b) = 2).
  { unfold cnorm. replace (cnorm2 _) with (2 * 2); [apply sqrt_square; lra|]. unfold exactly, right_b. cbv -[b2r f64_lit Rplus Rmult R0 IZR Ropp]. rewrite B2, B0. ring. }
  set (s := mkSpin _ _).
  assert (Ns : cnorm (exactly TSpin s) = 6).
  { unfold cnorm. replace (cnorm2 _) with (6 * 6); [apply sqrt_square; lra|]. unfold exactly, s. cbv -[b2r f64_lit Rplus Rmult R0 IZR Ropp]. rewrite B6, B0. ring. }
  pose proof PI_RGT_0. assert (PI2 : 0 <= PI / 2 <= PI) by lra.
  unfold log_domain, angle_between, half_angle. rewrite Na, Nb, Ns, cos_PI2, sin_PI2.
  assert (V0 : valid_number (f64_lit 0 0)) by (split; [exact F0|left; exact B0]).
  split; [unfold all_finite; cbn [elems]; repeat constructor; assumption|].
  split; [unfold all_finite; cbn [elems]; repeat constructor; assumption|].
  split; [split; [|split; [split|split; exact V0]]|].
  - unfold all_finite; cbn [elems]; repeat constructor; assumption.
  - pose proof (one_ge (-51) ltac:(lia)). lra.
  - pose proof (eight_le 480 ltac:(lia)). lra.
  - split; [pose proof (one_ge (-500) ltac:(lia)); lra|]. split; [split; [exact PI2|]|].
    + unfold vdot, right_a, right_b. cbn. change (b2r (f64_lit 3 0) * b2r (f64_lit 0 0) + b2r (f64_lit 0 0) * b2r (f64_lit 2 0) + b2r (f64_lit 0 0) * b2r (f64_lit 0 0) = 3 * 2 * 0).
      rewrite B3, B0. ring.
    + split; [split; [exact PI2|]|apply one_ge; lia]. change (b2r (f64_lit 0 0 : f64) = 6 * 0). rewrite B0. ring.
Qed.
Lemma example_slight : let s := mul TVec TVec slight_b slight_a in log_domain s /\ 0 < b2r (sca_0 (spinSca s)) /\
  0 < cnorm (exactly TBiv (spinBiv s)) <= bpow radix2 (-31) * cnorm (exactly TSpin s).
Proof.
  cbv zeta. rewrite slight_product. set (s := mkSpin _ _). change (mulTy TVec TVec) with TSpin.
  pose proof (small_int 0%Z ltac:(lia)) as [F0 B0]. pose proof (small_int 1%Z ltac:(lia)) as [F1 B1].
  assert (NF : F2R (Float radix2 (-1) (-40)) = - bpow radix2 (-40)) by (unfold F2R; cbn [Fnum Fexp]; ring).
  destruct (lit_exact (-1) (-40)) as [F4 B4].
  { rewrite NF. apply generic_format_opp. apply generic_format_bpow. vm_compute. discriminate. }
  { rewrite NF, Rabs_Ropp, Rabs_pos_eq by apply bpow_ge_0. apply bpow_lt; lia. }
  replace (IZR (-1) * bpow radix2 (-40)) with (- bpow radix2 (-40)) in B4 by ring. set (z := bpow radix2 (-40)) in B4. assert (Z : z = bpow radix2 (-40)) by reflexivity. clearbody z.
  assert (NB : cnorm (exactly TBiv (spinBiv s)) = bpow radix2 (-40)).
  { unfold cnorm. rewrite <- Z. replace (cnorm2 (exactly TBiv (spinBiv s))) with (z * z); [apply sqrt_square; rewrite Z; apply bpow_ge_0|].
    unfold exactly, s. cbv -[b2r f64_lit Rplus Rmult R0 IZR Ropp bpow]. rewrite B4, B0. ring. }
  assert (Z1 : 0 < z <= 1) by (rewrite Z; split; [apply bpow_gt_0|apply one_ge; lia]).
  assert (LN : 1 <= cnorm (exactly TSpin s) <= 2).
  { assert (Q : cnorm2 (exactly TSpin s) = 1 + z * z) by (unfold exactly, s; cbv -[b2r f64_lit Rplus Rmult R0 IZR Ropp bpow]; rewrite B4, B0, B1; ring).
    unfold cnorm. rewrite Q. split; [rewrite <- sqrt_1 at 1|replace 2 with (sqrt (2 * 2)) by (apply sqrt_square; lra)]; apply sqrt_le_1_alt; nra. }
  split; [|split].
  - split; [unfold all_finite; cbn [elems]; repeat constructor; assumption|]. split; [split|split].
    + pose proof (one_ge (-51) ltac:(lia)). lra.
    + pose proof (eight_le 480 ltac:(lia)). lra.
    + split; [exact F1|right]. change (bpow radix2 (-1022) <= Rabs (b2r (f64_lit 1 0 : f64))). rewrite B1, Rabs_R1. apply one_ge; lia.
    + split; [exact F4|right]. change (bpow radix2 (-1022) <= Rabs (b2r (f64_lit (-1) (-40) : f64))). rewrite B4, Rabs_Ropp, Rabs_pos_eq by lra. rewrite Z. apply bpow_le; lia.
  - change (0 < b2r (f64_lit 1 0 : f64)). rewrite B1. lra.
  - rewrite NB. split; [apply bpow_gt_0|]. apply Rle_trans with (bpow radix2 (-31) * 1); [rewrite Rmult_1_r; apply bpow_le; lia|apply Rmult_le_compat_l; [apply bpow_ge_0|lra]].
Qed.
Definition turn_case : BiVector f64 := Biv (f64_lit 1 0) (f64_lit 0 0) (f64_lit (-1) 0).
Lemma example_turn : exp_domain turn_case /\ first_clear turn_case (cnorm (exactly TBiv turn_case)) /\
  bpow radix2 (-20) <= cnorm (exactly TBiv turn_case) <= 3 / 2.
Proof.
  destruct (small_int 0%Z ltac:(lia)) as [F0 B0]. destruct (small_int 1%Z ltac:(lia)) as [F1 B1]. destruct (small_int (-1)%Z ltac:(lia)) as [F6 B6].
  assert (N : 1 <= cnorm (exactly TBiv turn_case) <= 3 / 2).
  { assert (Q : cnorm2 (exactly TBiv turn_case) = 2) by (unfold exactly, turn_case; cbv -[b2r f64_lit Rplus Rmult R0 IZR Ropp]; rewrite B1, B6, B0; ring).
    unfold cnorm. rewrite Q. split; [rewrite <- sqrt_1 at 1|replace (3 / 2) with (sqrt (3 / 2 * (3 / 2))) by (apply sqrt_square; lra)]; apply sqrt_le_1_alt; lra. }
  set (n := cnorm _) in *.
  assert (K : forall e, (e <= -1)%Z -> bpow radix2 e * n <= Rabs (b2r (f64_lit 1 0 : f64))).
  { intros e He. rewrite B1, Rabs_R1. apply Rle_trans with (/ 2 * (3 / 2)); [|lra]. apply Rmult_le_compat; try lra; try apply bpow_ge_0.
    change (/ 2) with (bpow radix2 (-1)). apply bpow_le; lia. }
  split; [split; [unfold all_finite; cbn [elems]; repeat constructor; assumption|split; [split|right; split]]|split].
  - fold n. pose proof (one_ge (-480) ltac:(lia)). lra.
  - fold n. pose proof (eight_le 480 ltac:(lia)). lra.
  - change (bpow radix2 (-1022) <= Rabs (b2r (f64_lit 1 0 : f64))). rewrite B1, Rabs_R1. apply one_ge; lia.
  - apply K; lia.
  - right. apply K; lia.
  - pose proof (one_ge (-20) ltac:(lia)). lra.
Qed.
Lemma slight_angle : forall th, angle_between slight_a slight_b th -> 0 < th.
Proof.
  intros th [Ht Hd]. destruct (Rle_lt_or_eq_dec 0 th (proj1 Ht)) as [H|H]; [exact H|exfalso]. subst th. rewrite cos_0, Rmult_1_r in Hd.
  destruct (small_int 0%Z ltac:(lia)) as [F0 B0]. destruct (small_int 1%Z ltac:(lia)) as [F1 B1].
  destruct (lit_exact 1 (-40)) as [F4 B4].
  { unfold F2R. cbn [Fnum Fexp]. rewrite Rmult_1_l. apply generic_format_bpow. vm_compute. discriminate. }
  { unfold F2R. cbn [Fnum Fexp]. rewrite Rmult_1_l, Rabs_pos_eq by apply bpow_ge_0. apply bpow_lt; lia. }
  rewrite Rmult_1_l in B4. pose proof (bpow_gt_0 radix2 (-40)) as P. set (z := bpow radix2 (-40)) in B4, P. clearbody z.
  assert (Na : cnorm (exactly TVec slight_a) = 1).
  { unfold cnorm. replace (cnorm2 _) with 1; [apply sqrt_1|]. unfold exactly, slight_a. cbv -[b2r f64_lit Rplus Rmult R0 IZR Ropp]. rewrite B1, B0. ring. }
  assert (Nb : cnorm2 (exactly TVec slight_b) = 1 + z * z).
  { unfold exactly, slight_b. cbv -[b2r f64_lit Rplus Rmult R0 IZR Ropp]. rewrite B1, B0, B4. ring. }
  assert (V : vdot slight_a slight_b = 1).
  { unfold vdot, slight_a, slight_b. cbv -[b2r f64_lit Rplus Rmult R0 IZR Ropp]. rewrite B1, B0. ring. }
  rewrite Na, V, Rmult_1_l in Hd. unfold cnorm in Hd. rewrite Nb in Hd.
  assert (1 < sqrt (1 + z * z)); [|lra]. rewrite <- sqrt_1 at 1. apply sqrt_lt_1_alt. nra.
Qed.
Lemma slight_lost : forall (L : Libm f64) (plane : BiVector f64),
  B2R (magnitude TBiv (spinBiv (logG2 (mul TVec TVec slight_b slight_a) plane))) = 0.
Proof. intros L plane. destruct example_slight as (D & P & Q). exact (small_angle_lost slight_a slight_b plane D (proj2 Q) P). Qed.
Lemma slight_refuted : forall (L : Libm f64) (plane : BiVector f64),
  B2R (magnitude TBiv (spinBiv (logG2 (mul TVec TVec slight_b slight_a) plane))) = 0 /\
  forall th, angle_between slight_a slight_b th -> 0 < th.
Proof. intros L plane. split; [apply slight_lost|exact slight_angle]. Qed.
Lemma spinor_half_angle : forall (L : Libm f64) eps, atan2_within eps L -> eps <= / 8192 ->
  forall (s : Spinor f64) (plane : BiVector f64) th, log_domain s ->
  all_finite TBiv plane -> bpow radix2 (-480) <= cnorm (exactly TBiv plane) <= bpow radix2 480 -> half_angle s th ->
  let phi := magnitude TBiv (spinBiv (logG2 s plane)) in
  is_finite phi = true /\ Rabs (B2R phi - th) <= 4 * eps + bpow radix2 (-20) /\
  (bpow radix2 (-22) <= sin th -> Rabs (B2R phi - th) <= 4 * eps + 380 * unit_roundoff).
Proof. intros L eps TA He s plane th D Fp Hp [Ht Hs]. exact (spinor_angle eps TA He s plane th D Fp Hp Ht Hs). Qed.
Lemma between_angle : forall (L : Libm f64) eps, atan2_within eps L -> eps <= / 8192 ->
  forall (a b : Vector f64) (plane : BiVector f64) th, all_finite TVec a -> all_finite TVec b -> log_domain (mul TVec TVec b a) ->
  all_finite TBiv plane -> bpow radix2 (-480) <= cnorm (exactly TBiv plane) <= bpow radix2 480 ->
  bpow radix2 (-500) <= cnorm (exactly TVec a) * cnorm (exactly TVec b) -> angle_between a b th ->
  let phi := magnitude TBiv (spinBiv (logG2 (mul TVec TVec b a) plane)) in
  is_finite phi = true /\ Rabs (B2R phi - th) <= 4 * eps + bpow radix2 (-20) /\
  (bpow radix2 (-22) <= sin th -> Rabs (B2R phi - th) <= 4 * eps + 480 * unit_roundoff).
Proof. intros L eps TA He a b plane th Fa Fb D Fp Hp HM [Ht Hd]. exact (vectors_angle eps TA He a b plane th Fa Fb D Fp Hp HM Ht Hd). Qed.
