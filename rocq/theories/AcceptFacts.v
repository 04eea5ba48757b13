(** * Computed identities under the library's comparison: proofs. *)

Require Import Reals ZArith List Bool Lra Lia.
From Flocq Require Import Core BinarySingleNaN.
Require Import Verif.Num Verif.Types Verif.Priv Verif.OpsUni Verif.OpsAdd Verif.OpsSub
  Verif.OpsMul Verif.Const Verif.Func Verif.Validity Verif.Compare Verif.SpecCl Verif.SpecFunc Verif.Rel Verif.IntFacts
  Verif.B64 Verif.B64Facts Verif.SpecRound Verif.SpecValid Verif.SpecCompare Verif.SpecScale Verif.ScaleFacts Verif.SpecAcc Verif.BoundFacts
  Verif.AccFacts Verif.AccThm Verif.ValidFacts Verif.CompareFacts Verif.ArrFacts Verif.ArrErr Verif.CompareThm Verif.ScaleThm.
Import ListNotations.
Local Open Scope R_scope.

(** ** When the comparison says yes, with round numbers *)
Lemma pow_hi7 : forall n, (n <= 7)%nat -> (1 + u53) ^ n <= 1 + 8 * u53.
Proof.
  intros n Hn. apply Rle_trans with ((1 + u53) ^ 7).
  - apply Rle_pow; [pose proof u53_pos; lra|exact Hn].
  - replace ((1 + u53) ^ 7) with ((1 + u53) ^ 4 * ((1 + u53) ^ 3)) by (rewrite <- pow_add; reflexivity).
    rewrite u53_val. lra.
Qed.
Lemma arr_accept : forall (g r : list f64) tol t', g <> [] -> (length g <= 3)%nat -> length g = length r ->
  fin tol = true -> Forall valid_number g -> Forall valid_number r ->
  bpow radix2 (-900) <= norm2 r <= bpow radix2 1000 -> bpow radix2 (-60) <= b2r t' <= 1 -> b2r t' < b2r tol ->
  dist2 g r <= (1 - bpow radix2 (-47)) * (b2r t' * b2r t') * norm2 r -> nearlyEquals_arr g r tol = true.
Proof.
  intros g r tol t' Hn Hl HL Ht V1 V2 [B1 B2] [T1 T2] Lt HD.
  pose proof u53_pos as U. pose proof u_small as U'. pose proof eta_pos as He. pose proof (bpow_gt_0 radix2 (-900)) as P9.
  assert (N3 : 1 <= INR (length g) <= 3).
  { split; [apply (le_INR 1 (length g)); destruct g; [congruence|cbn; lia]|apply (le_INR _ 3) in Hl; cbn in Hl; lra]. }
  assert (H1 : (1 + u53) ^ (length g + 1) <= 1 + 8 * u53) by (apply pow_hi7; lia).
  assert (H3 : (1 + u53) ^ (length g + 3) <= 1 + 8 * u53) by (apply pow_hi7; lia).
  assert (H0 : (1 + u53) ^ length g <= 1 + 8 * u53) by (apply pow_hi7; lia).
  assert (L1 : 1 - 7 * u53 <= (1 - u53) ^ (length g + 1)) by (apply pow_lo7; lia).
  pose proof (pow2 (length g)) as P0.
  set (T := b2r t' * b2r t') in *. set (N := norm2 r) in *. pose proof (norm2_pos r) as HN. fold N in HN.
  pose proof (dist2_pos g r) as DP. set (D := dist2 g r) in *.
  assert (HT : bpow radix2 (-120) <= T <= 1).
  { unfold T. split; [change (-120)%Z with (-60 + -60)%Z; rewrite bpow_plus; apply Rmult_le_compat; try apply bpow_ge_0; assumption|].
    pose proof (bpow_gt_0 radix2 (-60)). nra. }
  pose proof (bpow_gt_0 radix2 (-120)) as P12.
  assert (E1 : eta <= / 4 * u53 * (T * N)).
  { replace eta with (/ 4 * u53 * (bpow radix2 (-120) * bpow radix2 (-900))).
    - apply Rmult_le_compat_l; [lra|]. apply Rmult_le_compat; lra.
    - change (/ 4) with (bpow radix2 (-2)). unfold u53, eta. rewrite <- !bpow_plus. reflexivity. }
  assert (E2 : eta <= / 4 * u53 * T).
  { apply Rle_trans with (/ 4 * u53 * bpow radix2 (-120)); [|apply Rmult_le_compat_l; lra].
    change (/ 4) with (bpow radix2 (-2)). unfold u53, eta. rewrite <- !bpow_plus. apply bpow_le. lia. }
  assert (E3 : INR (length g) * (1 + u53) ^ length g * eta <= 4 * eta) by (apply Rmult_le_compat_r; [lra|nra]).
  assert (E47 : bpow radix2 (-47) = 64 * u53).
  { unfold u53. change 64 with (bpow radix2 6). rewrite <- bpow_plus. reflexivity. }
  rewrite E47 in HD. assert (PN : 0 < N) by lra. assert (PT : 0 < T * N) by (apply Rmult_lt_0_compat; lra).
  assert (TN : T * N <= N) by nra.
  assert (HD' : D <= (1 - 64 * u53) * (T * N)) by lra.
  assert (HiD : (1 + u53) ^ (length g + 3) * D + INR (length g) * (1 + u53) ^ length g * eta <= (1 - 50 * u53) * (T * N)).
  { apply Rle_trans with ((1 + 8 * u53) * ((1 - 64 * u53) * (T * N)) + 4 * (/ 4 * u53 * (T * N))).
    - apply Rplus_le_compat; [apply Rmult_le_compat; try lra; apply pow_le; lra|lra].
    - rewrite u53_val in *. nra. }
  assert (B1000 : 4 * N <= bpow radix2 1023).
  { apply Rle_trans with (bpow radix2 2 * bpow radix2 1000); [change (bpow radix2 2) with 4; lra|]. rewrite <- bpow_plus. apply bpow_le. lia. }
  assert (HE4 : 4 * eta <= N) by (rewrite u53_val in *; nra).
  assert (LoR : (1 - 8 * u53) * N <= (1 - u53) ^ (length g + 1) * N - INR (length g) * eta).
  { assert ((1 - 7 * u53) * N <= (1 - u53) ^ (length g + 1) * N) by (apply Rmult_le_compat_r; lra).
    assert (INR (length g) * eta <= 3 * eta) by (apply Rmult_le_compat_r; lra). rewrite u53_val in *. nra. }
  assert (LoU : (1 - u53) ^ (length g + 1) * N - INR (length g) * eta <= N).
  { assert ((1 - u53) ^ (length g + 1) <= 1).
    { pose proof (pow_incr (1 - u53) 1 (length g + 1) ltac:(lra)) as K. rewrite Rfunctions.pow1 in K. exact K. }
    assert (0 <= INR (length g) * eta) by (apply Rmult_le_pos; lra). nra. }
  assert (LoP : 0 < (1 - u53) ^ (length g + 1) * N - INR (length g) * eta) by (eapply Rlt_le_trans; [|exact LoR]; apply Rmult_lt_0_compat; lra).
  apply (arr_complete g r tol t'); auto; fold N; fold D; fold T.
  - intros F. assert (K : norm2 r <= INR (length r) * eta).
    { clear - F He. induction F as [|v l Hv Hl IH]; [unfold norm2; cbn [fold_right length INR]; lra|]. rewrite norm2_cons. cbn [length]. rewrite S_INR. lra. }
    rewrite <- HL in K. fold N in K. assert (K2 : INR (length g) * eta <= 3 * eta) by (apply Rmult_le_compat_r; lra). lra.
  - eapply Rle_trans; [exact HiD|]. rewrite u53_val in *. nra.
  - apply Rle_trans with ((1 + 8 * u53) * N + 4 * eta); [|rewrite u53_val in *; nra].
    apply Rplus_le_compat; [apply Rmult_le_compat_r; lra|exact E3].
  - split; [pose proof (bpow_gt_0 radix2 (-60)); lra|]. eapply Rle_trans; [exact T2|]. change 1 with (bpow radix2 0). apply bpow_le. lia.
  - set (lo := (1 - u53) ^ (length g + 1) * N - INR (length g) * eta) in *.
    apply Rle_trans with ((1 + u53) * ((1 - 50 * u53) * (T * N)) + (/ 4 * u53 * T) * N).
    + apply Rplus_le_compat; [apply Rmult_le_compat_l; [lra|exact HiD]|]. apply Rmult_le_compat; lra.
    + apply Rle_trans with (T * ((1 - 8 * u53) * N)); [rewrite u53_val in *; nra|]. apply Rmult_le_compat_l; lra.
Qed.
(** Reference zero. *)
Lemma arr_accept_zero : forall (g r : list f64) tol t', g <> [] -> length g = length r ->
  fin tol = true -> Forall valid_number g -> Forall (fun v => fin v = true /\ b2r v = 0) r ->
  Forall (fun v => Rabs (b2r v) <= b2r t') g -> b2r t' < b2r tol -> nearlyEquals_arr g r tol = true.
Proof.
  intros g r tol t' Hn HL Ht V1 Z B Lt. pose proof eta_pos as He. pose proof u53_pos as U.
  assert (FR : Forall (fun v => fin v = true) r) by (eapply Forall_impl; [|exact Z]; intros v Hv; apply Hv).
  assert (N0 : norm2 r = 0).
  { clear - Z. induction Z as [|v l [_ E] Z IH]; [reflexivity|]. rewrite norm2_cons, IH, E. ring. }
  assert (ZI : forall l (acc : f64), Forall (fun v => fin v = true /\ b2r v = 0) l -> fin acc = true -> b2r acc = 0 -> fin (inner_product l l acc) = true).
  { clear. induction l as [|v l IH]; intros acc Z F E; [exact F|]. inversion Z as [|? ? [Fv Ev] Z']; subst. cbn [inner_product]. 
    assert (W : Rabs (rnd64 0) < bpow radix2 1024) by (rewrite round_0 by apply valid_rnd_N; rewrite Rabs_R0; apply bpow_gt_0).
    destruct (bmult_ok v v Fv Fv) as [G1 G2]; [rewrite Ev, Rmult_0_l; exact W|]. rewrite Ev, Rmult_0_l, round_0 in G2 by apply valid_rnd_N.
    destruct (bplus_ok acc (Bmult mode_NE v v) F G1) as [K1 K2]; [rewrite E, G2, Rplus_0_l; exact W|].
    rewrite E, G2, Rplus_0_l, round_0 in K2 by apply valid_rnd_N. apply IH; auto. }
  apply arr_unfold; auto.
  split; [exact V1|]. split; [eapply Forall_impl; [|exact Z]; intros v [F E]; split; auto|]. left. split.
  - eapply Forall_impl; [|exact Z]. intros v [_ ->]. lra.
  - clear - HL Ht V1 Z B Lt. revert r HL Z. induction B as [|v g Hv B IH]; intros [|w r] HL Z; try discriminate; constructor.
    + inversion Z as [|? ? [Fw Ew] _]; inversion V1 as [|? ? [Fv _] _]; subst. apply (diff_complete v w tol t'); auto. rewrite Ew, Rminus_0_r. exact Hv.
    + inversion Z; inversion V1; subst. apply IH; auto.
Qed.
Lemma object_accept : forall t (x y : val f64 t) tol t', t <> TDub -> fin tol = true -> all_valid t x -> all_valid t y ->
  bpow radix2 (-60) <= b2r t' <= 1 -> b2r t' < b2r tol ->
  Forall (fun p => let g := slice (elems t x) p in let r := slice (elems t y) p in
    (Forall (fun v => b2r v = 0) r /\ Forall (fun v => Rabs (b2r v) <= b2r t') g) \/
    (bpow radix2 (-900) <= norm2 r <= bpow radix2 1000 /\
     dist2 g r <= (1 - bpow radix2 (-47)) * (b2r t' * b2r t') * norm2 r)) (slices t) ->
  nearlyEquals t x y tol = true.
Proof.
  intros t x y tol t' Nt Ht V1 V2 T Lt H. apply object_slices; auto. rewrite Forall_forall in *. intros p Hp. specialize (H p Hp). cbv zeta in H.
  destruct (slice_shape t x p Hp) as (N & L1 & S). destruct (slice_shape t y p Hp) as (_ & L2 & _).
  assert (W1 : Forall valid_number (slice (elems t x) p)) by (apply slice_rng, V1).
  assert (W2 : Forall valid_number (slice (elems t y) p)) by (apply slice_rng, V2).
  destruct H as [[Z B]|[B D]].
  - apply (arr_accept_zero _ _ tol t'); auto; [congruence|]. rewrite Forall_forall in *. intros v Hv. split; [apply (W2 v Hv)|apply (Z v Hv)].
  - apply (arr_accept _ _ tol t'); auto; congruence.
Qed.

(** ** Multiples of a power of two *)
Definition multiple (k : Z) (z : R) : Prop := generic_format radix2 (FIX_exp k) z.
Lemma multiple_iff : forall k z, multiple k z <-> exists m, z = IZR m * bpow radix2 k.
Proof.
  intros k z. split.
  - intros H. apply FIX_format_generic in H. destruct H as [[m e] E1 E2]. cbn in E2. subst e. exists m. exact E1.
  - intros [m E]. apply generic_format_FIX. exists (Float radix2 m k); [exact E|reflexivity].
Qed.
Lemma multiple_0 : forall k, multiple k 0.
Proof. intros k. apply generic_format_0. Qed.
Lemma multiple_round : forall k z, multiple k z -> multiple k (rnd64 z).
Proof. intros k z H. unfold multiple. change fexp64 with (FLT_exp (-1074) 53). apply generic_round_generic; [apply FIX_exp_valid|apply FLT_exp_valid; reflexivity|apply valid_rnd_N|exact H]. Qed.
Lemma multiple_plus : forall k a b, multiple k a -> multiple k b -> multiple k (a + b).
Proof. intros k a b Ha Hb. apply multiple_iff in Ha, Hb. apply multiple_iff. destruct Ha as [m ->], Hb as [n ->]. exists (m + n)%Z. rewrite plus_IZR. ring. Qed.
Lemma multiple_opp : forall k a, multiple k a -> multiple k (- a).
Proof. intros k a H. apply generic_format_opp, H. Qed.
Lemma multiple_mult : forall j k a b, multiple j a -> multiple k b -> multiple (j + k) (a * b).
Proof. intros j k a b Ha Hb. apply multiple_iff in Ha, Hb. apply multiple_iff. destruct Ha as [m ->], Hb as [n ->]. exists (m * n)%Z. rewrite mult_IZR, bpow_plus. ring. Qed.
Lemma bplus_multiple : forall k (a b : f64), multiple k (b2r a) -> multiple k (b2r b) -> multiple k (b2r (Bplus mode_NE a b)).
Proof.
  intros k a b Ha Hb. destruct (fin (Bplus mode_NE a b)) eqn:F.
  - destruct (bplus_fin a b F) as (_ & _ & ->). apply multiple_round, multiple_plus; assumption.
  - destruct (Bplus mode_NE a b); try discriminate F; apply multiple_0.
Qed.
Lemma bmult_multiple : forall j k (a b : f64), multiple j (b2r a) -> multiple k (b2r b) -> multiple (j + k) (b2r (Bmult mode_NE a b)).
Proof.
  intros j k a b Ha Hb. destruct (fin (Bmult mode_NE a b)) eqn:F.
  - pose proof (Bmult_correct 53 1024 _ _ mode_NE a b) as C.
    destruct (Rlt_bool _ _); [destruct C as (-> & _)|exfalso; destruct (Bmult mode_NE a b); try discriminate F; discriminate C].
    apply multiple_round, multiple_mult; assumption.
  - destruct (Bmult mode_NE a b); try discriminate F; apply multiple_0.
Qed.
Definition grid (j k : Z) (d : deg) (v : f64) : Prop :=
  match d with DZ => b2r v = 0 | DX => multiple j (b2r v) | DY => multiple k (b2r v) | DP => multiple (j + k) (b2r v) | DBad => True end.
Lemma bplus_zero : forall a b : f64, b2r a = 0 -> b2r b = 0 -> b2r (Bplus mode_NE a b) = 0.
Proof.
  intros a b Ha Hb. assert (M : forall k, multiple k (b2r (Bplus mode_NE a b))) by (intros k; apply bplus_multiple; rewrite ?Ha, ?Hb; apply multiple_0).
  specialize (M 1024%Z). apply multiple_iff in M. destruct M as [m E]. rewrite E. pose proof (abs_B2R_lt_emax _ _ (Bplus mode_NE a b)) as L.
  rewrite E, Rabs_mult, (Rabs_pos_eq (bpow _ _)), <- abs_IZR in L by apply bpow_ge_0.
  destruct (Z.eq_dec m 0) as [->|Nm]; [ring|exfalso]. assert (1 <= IZR (Z.abs m)) by (apply IZR_le; lia). pose proof (bpow_gt_0 radix2 1024). nra.
Qed.
Lemma bmult_zero : forall a b : f64, b2r a = 0 \/ b2r b = 0 -> b2r (Bmult mode_NE a b) = 0.
Proof.
  intros a b H. pose proof (Bmult_correct 53 1024 _ _ mode_NE a b) as C.
  assert (E : b2r a * b2r b = 0) by (destruct H as [-> | ->]; ring). rewrite E, round_0 in C by apply valid_rnd_N.
  rewrite Rlt_bool_true in C by (rewrite Rabs_R0; apply bpow_gt_0). apply C.
Qed.
Lemma grid_rel : forall j k, ring_rel (Ring0_deg false) Ring0_B (grid j k).
Proof.
  intros j k.
  assert (A : forall a b (c d : f64), grid j k a c -> grid j k b d -> grid j k (dadd a b) (Bplus mode_NE c d)).
  { intros a b c d Ha Hb. destruct a, b; try exact Logic.I; unfold grid in Ha, Hb; unfold dadd, grid;
      first [apply bplus_zero; assumption | apply bplus_multiple; first [assumption | rewrite Ha; apply multiple_0 | rewrite Hb; apply multiple_0]]. }
  assert (O : forall a (c : f64), grid j k a c -> grid j k a (Bopp c)).
  { intros a c H. destruct a; try exact Logic.I; unfold grid in *; rewrite B2R_Bopp; first [apply multiple_opp; exact H | rewrite H; ring]. }
  constructor.
  - reflexivity.
  - exact Logic.I.
  - intros a b c d. apply A.
  - intros a b c d Ha Hb. change (nsub c d) with (Bminus mode_NE c d). rewrite bminus_opp. apply (A a b); [exact Ha|apply O, Hb].
  - intros a b c d Ha Hb. change (nmul c d) with (Bmult mode_NE c d). change (nmul a b) with (dmul false a b).
    destruct a, b; try exact Logic.I; unfold grid in Ha, Hb; unfold dmul, grid;
      first [apply bmult_zero; left; assumption | apply bmult_zero; right; assumption | apply bmult_multiple; assumption
            | rewrite Z.add_comm; apply bmult_multiple; assumption].
  - intros a c. apply O.
Qed.
Lemma const_grid : forall (P : deg -> f64 -> Prop) d t x, Forall (P d) (elems t x) -> relv P t (@constv deg d t) x.
Proof.
  intros P d t x H. unfold relv. pose proof (elems_length _ _ t (@constv deg d t) x) as E. destruct (elems_const deg d t) as [n Hn].
  rewrite Hn in *. rewrite repeat_length in E. clear Hn. revert n E. induction H as [|v l V H IH]; intros [|n] E; try discriminate; cbn; constructor; [exact V|].
  apply IH. injection E; auto.
Qed.
Lemma multiple_valid : forall k (v : f64), (-1022 <= k)%Z -> fin v = true -> multiple k (b2r v) -> valid_number v.
Proof.
  intros k v Hk F M. split; [exact F|]. apply multiple_iff in M. destruct M as [m E]. destruct (Z.eq_dec m 0) as [->|N]; [left; rewrite E; ring|right].
  rewrite E, Rabs_mult, (Rabs_pos_eq (bpow _ _)), <- abs_IZR by apply bpow_ge_0. assert (1 <= IZR (Z.abs m)) by (apply IZR_le; lia).
  assert (bpow radix2 (-1022) <= bpow radix2 k) by (apply bpow_le; exact Hk). pose proof (bpow_gt_0 radix2 k). nra.
Qed.
(** Products of operands on grids. *)
Lemma mul_valid : forall j k a b x y, (-1022 <= j + k)%Z -> Forall (fun v : f64 => multiple j (b2r v)) (elems a x) ->
  Forall (fun v : f64 => multiple k (b2r v)) (elems b y) -> all_finite (mulTy a b) (mul a b x y) -> all_valid (mulTy a b) (mul a b x y).
Proof.
  intros j k a b x y Hk Hx Hy F. pose proof (mul_degs a b) as G.
  pose proof (mul_rel (grid_rel j k) a b _ _ _ _ (const_grid (grid j k) DX a x Hx) (const_grid (grid j k) DY b y Hy)) as Q.
  unfold all_valid, all_finite, relv in *. set (ds := elems _ _) in Q, G. clearbody ds. induction Q as [|d v ds l Hd Q IH]; constructor.
  - cbn [forallb] in G. apply andb_prop in G. destruct G as [G _]. inversion F; subst.
    apply (multiple_valid (j + k)); auto. destruct d; try discriminate G; cbn [grid] in Hd; [rewrite Hd; apply multiple_0|exact Hd].
  - cbn [forallb] in G. apply andb_prop in G. inversion F; subst. apply IH; [assumption|apply G].
Qed.
Lemma rng_multiple : forall a b (v : f64), (-1074 <= a)%Z -> rng a b v -> multiple (a - 52) (b2r v).
Proof.
  intros a b v Ha [_ [->|[H _]]]; [apply multiple_0|]. apply multiple_iff. pose proof (fmt_f64 v) as F. unfold generic_format in F. rewrite F. unfold F2R; cbn [Fnum Fexp].
  set (m := Ztrunc _). set (c := cexp radix2 (FLT_exp (-1074) 53) (B2R v)).
  assert (C : (a - 52 <= c)%Z).
  { unfold c, cexp, FLT_exp. assert (a + 1 <= mag radix2 (B2R v))%Z; [|lia]. apply mag_ge_bpow. replace (a + 1 - 1)%Z with a by lia. exact H. }
  exists (m * 2 ^ (c - (a - 52)))%Z. rewrite mult_IZR. change 2%Z with (radix_val radix2). rewrite IZR_Zpower by lia. rewrite Rmult_assoc, <- bpow_plus. do 2 f_equal. lia.
Qed.

(** ** Inverses *)
Lemma inverse_rng : forall t x, betweenv 200 t x -> nonzero t x -> Forall (rng (-603) 601) (elems t (blade_inv t x)).
Proof.
  intros t x B N. destruct (magSq_rng t x B N) as [R1 P1].
  destruct (rng_div 0 0 (-401) 403 none_ (magSq t x) rng_one R1 P1) as [Q _]; [lia|lia|].
  unfold blade_inv. rewrite elems_scale. apply (between_reverse 200) in B. unfold betweenv in B. rewrite Forall_map. eapply Forall_impl; [|exact B].
  intros v Hv. apply (rng_mult (-403) 401 (-200) 200); [exact Q|exact Hv|lia|lia].
Qed.
Lemma norm_range : forall t x, betweenv 200 t x -> nonzero t x -> all_finite t x /\ bpow radix2 (-480) <= cnorm (exactly t x) <= bpow radix2 480.
Proof.
  intros t x B N. assert (F : all_finite t x) by (unfold all_finite; eapply Forall_impl; [|exact B]; intros v Hv; apply Hv). split; [exact F|].
  unfold nonzero in N. rewrite Exists_exists in N. destruct N as (v & I0 & Nv). split.
  - eapply Rle_trans; [|apply (norm_comp t x v I0)]. destruct (between_in 200 t x v B I0) as [_ [Z|[H _]]]; [contradiction|].
    eapply Rle_trans; [|exact H]. apply bpow_le; lia.
  - destruct (magSq_within 200 t x) as [Fm U]; [lia|apply between_within, B|]. change (2 * 200 + 3)%Z with 403%Z in U.
    assert (L : bpow radix2 (-480) <= cnorm (exactly t x)).
    { eapply Rle_trans; [|apply (norm_comp t x v I0)]. destruct (between_in 200 t x v B I0) as [_ [Z|[H _]]]; [contradiction|].
      eapply Rle_trans; [|exact H]. apply bpow_le; lia. }
    pose proof (magSq_rel_error t x Fm L) as E. rewrite <- cnorm_sq' in E. set (M := cnorm _) in *. pose proof (bpow_gt_0 radix2 (-480)).
    destruct (Rle_lt_dec M (bpow radix2 480)) as [K|K]; [exact K|exfalso].
    assert (K2 : bpow radix2 960 < M * M).
    { change 960%Z with (480 + 480)%Z. rewrite bpow_plus. pose proof (bpow_gt_0 radix2 480). nra. }
    rewrite u53_val in E. apply Rabs_le_inv in E. apply Rabs_le_inv in U.
    assert (bpow radix2 403 <= / 2 * bpow radix2 960) by (change (/2) with (bpow radix2 (-1)); rewrite <- bpow_plus; apply bpow_le; lia). lra.
Qed.
Lemma inv_valid : forall t x, betweenv 200 t x -> nonzero t x -> unmixed t = true ->
  all_valid (mulTy t t) (mul t t x (blade_inv t x)) /\ all_valid (mulTy t t) (mul t t (blade_inv t x) x).
Proof.
  intros t x B N U. pose proof (inverse_rng t x B N) as I1.
  assert (G1 : Forall (fun v : f64 => multiple (-252) (b2r v)) (elems t x)).
  { eapply Forall_impl; [|exact B]. intros v Hv. apply (rng_multiple (-200) 200); [lia|exact Hv]. }
  assert (G2 : Forall (fun v : f64 => multiple (-655) (b2r v)) (elems t (blade_inv t x))).
  { eapply Forall_impl; [|exact I1]. intros v Hv. apply (rng_multiple (-603) 601); [lia|exact Hv]. }
  assert (W1 : within 200 t x) by (apply between_within, B).
  assert (W2 : within 601 t (blade_inv t x)).
  { unfold within. eapply Forall_impl; [|exact I1]. intros v [F [Z|H]]; (split; [exact F|]); [rewrite Z, Rabs_R0; apply bpow_ge_0|apply H]. }
  assert (WF : forall e u (z : val f64 u), within e u z -> all_finite u z).
  { intros e u z W. unfold all_finite. eapply Forall_impl; [|exact W]. intros v Hv. apply Hv. }
  split.
  - apply (mul_valid (-252) (-655)); auto; [lia|]. apply (WF (200 + 601 + 3)%Z). apply mul_within; auto; lia.
  - apply (mul_valid (-655) (-252)); auto; [lia|]. apply (WF (601 + 200 + 3)%Z). apply mul_within; auto; lia.
Qed.
Definition t45 : f64 := f64_lit 45 (-53).
Lemma t45_val : b2r t45 = 45 * u53.
Proof. unfold t45. rewrite (proj1 (proj2 (lit_val 45 (-53) ltac:(lia) ltac:(lia)))). reflexivity. Qed.
Lemma t45_rng : bpow radix2 (-60) <= b2r t45 <= 1.
Proof.
  rewrite t45_val. pose proof u53_pos. pose proof u_small. split; [|lra]. apply Rle_trans with u53; [apply bpow_le; lia|lra].
Qed.
Lemma one_valid : forall u, u = TSca \/ u = TSpin -> all_valid u (one u : val f64 u).
Proof.
  destruct one_ok as [F V].
  assert (V1 : valid_number (none_ : f64)).
  { split; [exact F|right]. rewrite V, Rabs_R1. change 1 with (bpow radix2 0). apply bpow_le. lia. }
  assert (V0 : valid_number (nzero : f64)) by (split; [reflexivity|left; reflexivity]).
  intros u [-> | ->]; repeat (apply Forall_cons || apply Forall_nil); assumption.
Qed.
Lemma one_slice : forall (v : f64) tol, fin tol = true -> Rabs (b2r v - 1) <= 43 * u53 ->
  let g := [v] in let r := [none_ : f64] in
  bpow radix2 (-900) <= norm2 r <= bpow radix2 1000 /\ dist2 g r <= (1 - bpow radix2 (-47)) * (b2r t45 * b2r t45) * norm2 r.
Proof.
  intros v tol Ht H. cbv zeta. rewrite t45_val. unfold norm2, dist2. cbn [fold_right combine fst snd]. rewrite (proj2 one_ok).
  assert (E47 : bpow radix2 (-47) = 64 * u53).
  { unfold u53. change 64 with (bpow radix2 6). rewrite <- bpow_plus. reflexivity. }
  rewrite E47. split.
  - replace (1 * 1 + 0) with (bpow radix2 0) by (change (bpow radix2 0) with 1; ring). split; apply bpow_le; lia.
  - set (d := b2r v - 1) in *. assert (K : d * d <= (43 * u53) * (43 * u53)).
    { rewrite <- (Rabs_right (d * d)) by (apply Rle_ge; apply sq_pos). rewrite Rabs_mult. apply Rmult_le_compat; auto; apply Rabs_pos. }
    pose proof u53_pos as U. rewrite u53_val in *. lra.
Qed.
Lemma near_one : forall u (s : val f64 u) tol, u = TSca \/ u = TSpin -> fin tol = true -> bpow radix2 (-47) <= b2r tol -> all_valid u s ->
  cnorm (csub (exactly u s) cone) <= 43 * u53 -> nearlyEquals u s (one u) tol = true.
Proof.
  intros u s tol Hu Ht HT V H.
  assert (E47 : bpow radix2 (-47) = 64 * u53).
  { unfold u53. change 64 with (bpow radix2 6). rewrite <- bpow_plus. reflexivity. }
  pose proof u53_pos as U.
  assert (C : forall k, Rabs (csub (exactly u s) cone k) <= 43 * u53).
  { intros k. eapply Rle_trans; [apply comp_le_norm|exact H]. }
  apply (object_accept u s (one u) tol t45); auto.
  - destruct Hu as [-> | ->]; discriminate.
  - apply one_valid, Hu.
  - exact t45_rng.
  - rewrite t45_val. lra.
  - assert (Z0 : b2r (nzero : f64) = 0) by reflexivity.
    pose proof (C bS) as K0. pose proof (C bE23) as K1. pose proof (C bE13) as K2. pose proof (C bE12) as K3. clear C H.
    destruct Hu as [-> | ->]; cbn [val] in s; dvs; cbn [slices].
    + constructor; [|constructor]. right. apply (one_slice _ tol Ht).
      match type of K0 with Rabs ?z <= _ => match goal with |- Rabs ?w <= _ => replace w with z; [exact K0|] end end.
      cbv -[B2R Rminus Ropp Rplus IZR Rmult]. ring.
    + constructor; [right; apply (one_slice _ tol Ht)|constructor; [left|constructor]].
      * match type of K0 with Rabs ?z <= _ => match goal with |- Rabs ?w <= _ => replace w with z; [exact K0|] end end.
        cbv -[B2R Rminus Ropp Rplus IZR Rmult]. ring.
      * split; [repeat (apply Forall_cons || apply Forall_nil); reflexivity|]. rewrite t45_val.
        assert (L : 43 * u53 <= 45 * u53) by lra.
        repeat (apply Forall_cons || apply Forall_nil); (eapply Rle_trans; [|exact L]).
        -- match type of K1 with Rabs ?z <= _ => match goal with |- Rabs ?w <= _ => replace w with z; [exact K1|] end end.
           cbv -[B2R Rminus Ropp Rplus IZR Rmult]. ring.
        -- match type of K2 with Rabs ?z <= _ => match goal with |- Rabs ?w <= _ => replace w with (- z); [rewrite Rabs_Ropp; exact K2|] end end.
           cbv -[B2R Rminus Ropp Rplus IZR Rmult]. ring.
        -- match type of K3 with Rabs ?z <= _ => match goal with |- Rabs ?w <= _ => replace w with z; [exact K3|] end end.
           cbv -[B2R Rminus Ropp Rplus IZR Rmult]. ring.
Qed.
Lemma inverse_accept : forall t inv, (forall x, inv x = blade_inv t x) -> unmixed t = true -> mulTy t t = TSca \/ mulTy t t = TSpin -> inverts t inv ->
  forall (x : val f64 t) tol, betweenv 200 t x -> nonzero t x -> fin tol = true -> bpow radix2 (-47) <= b2r tol ->
  nearlyEquals (mulTy t t) (mul t t x (inv x)) (one (mulTy t t)) tol = true /\
  nearlyEquals (mulTy t t) (mul t t (inv x) x) (one (mulTy t t)) tol = true.
Proof.
  intros t inv E U M V x tol B N Ht HT. destruct (norm_range t x B N) as [F R0]. destruct (V x F R0) as (_ & _ & V1 & V2).
  destruct (inv_valid t x B N U) as [W1 W2]. rewrite <- E in W1, W2. split; apply near_one; auto.
Qed.
Lemma blades_accept :
  let accepted t inv := forall (x : val f64 t) tol, betweenv 200 t x -> nonzero t x -> fin tol = true -> bpow radix2 (-47) <= b2r tol ->
    nearlyEquals (mulTy t t) (mul t t x (inv x)) (one (mulTy t t)) tol = true /\
    nearlyEquals (mulTy t t) (mul t t (inv x) x) (one (mulTy t t)) tol = true in
  accepted TSca inverse_Sca /\ accepted TVec inverse_Vec /\ accepted TBiv inverse_Biv /\ accepted TTri inverse_Tri.
Proof.
  destruct blades_invert as (I1 & I2 & I3 & I4). cbv zeta.
  split; [|split; [|split]]; (apply inverse_accept; [reflexivity|reflexivity|cbn; auto|assumption]).
Qed.

(** ** Magnitude and direction *)
Lemma as_factor : forall z r c, r <> 0 -> Rabs (z - r) <= c * Rabs r -> exists d, z = r * (1 + d) /\ Rabs d <= c.
Proof.
  intros z r c Nr H. exists ((z - r) / r). split; [field; exact Nr|]. unfold Rdiv. rewrite Rabs_mult, Rabs_inv.
  assert (P : 0 < Rabs r) by (apply Rabs_pos_lt, Nr). apply Rmult_le_reg_r with (Rabs r); [exact P|]. rewrite Rmult_assoc, Rinv_l, Rmult_1_r by lra. exact H.
Qed.
Lemma factors : forall a b A C, Rabs a <= A -> Rabs b <= C -> exists c, (1 + a) * (1 + b) = 1 + c /\ Rabs c <= A + C + A * C.
Proof.
  intros a b A C Ha Hb. exists (a + b + a * b). split; [ring|]. pose proof (Rabs_triang (a + b) (a * b)) as T1. pose proof (Rabs_triang a b) as T2.
  rewrite Rabs_mult in T1. assert (Rabs a * Rabs b <= A * C) by (apply Rmult_le_compat; auto; apply Rabs_pos). lra.
Qed.
Lemma round_factor : forall z, bpow radix2 (-1000) <= Rabs z -> exists d, rnd64 z = z * (1 + d) /\ Rabs d <= (1 + / 1000) * u53.
Proof.
  intros z H. pose proof (bpow_gt_0 radix2 (-1000)). apply as_factor; [intros ->; rewrite Rabs_R0 in H; lra|].
  pose proof (err_any z) as E. pose proof (eta_rel (Rabs z) H). lra.
Qed.
Lemma rescale : forall (m i v : f64) N, 0 < N -> rng (-201) 202 m -> rng (-202) 201 i -> rng (-200) 200 v ->
  Rabs (b2r m - N) <= 8 * u53 * N -> Rabs (b2r i - / N) <= 12 * u53 * / N ->
  valid_number (Bmult mode_NE m (Bmult mode_NE i v)) /\ Rabs (b2r (Bmult mode_NE m (Bmult mode_NE i v)) - b2r v) <= 24 * u53 * Rabs (b2r v).
Proof.
  intros m i v N HN Rm Ri Rv Em Ei.
  assert (R1 : rng (-202 + -200) (201 + 200) (Bmult mode_NE i v)) by (apply rng_mult; auto; lia).
  assert (R2 : rng (-201 + (-202 + -200)) (202 + (201 + 200)) (Bmult mode_NE m (Bmult mode_NE i v))) by (apply rng_mult; auto; lia).
  split.
  { split; [apply R2|]. destruct R2 as [_ [Z|[H _]]]; [left; exact Z|right]. eapply Rle_trans; [|exact H]. apply bpow_le; lia. }
  destruct (bmult_fin _ _ (proj1 R2)) as (_ & _ & E2). destruct (bmult_fin _ _ (proj1 R1)) as (_ & _ & E1).
  destruct (Req_dec (b2r v) 0) as [Z|Nz].
  { rewrite E2, E1, Z, Rmult_0_r, round_0, Rmult_0_r, round_0 by apply valid_rnd_N. rewrite Rminus_0_r, Rabs_R0. lra. }
  pose proof u53_pos as U. set (V := b2r v) in *. set (M := b2r m) in *. set (J := b2r i) in *.
  assert (I0 : 0 < / N) by (apply Rinv_0_lt_compat, HN).
  destruct (as_factor M N (8 * u53)) as (a & Ea & Ha); [lra|rewrite (Rabs_pos_eq N) by lra; exact Em|].
  destruct (as_factor J (/ N) (12 * u53)) as (b & Eb & Hb); [lra|rewrite (Rabs_pos_eq (/ N)) by lra; exact Ei|].
  assert (PV : bpow radix2 (-200) <= Rabs V) by (destruct Rv as [_ [Z|[H _]]]; [contradiction|exact H]).
  assert (PJ : bpow radix2 (-202) <= Rabs J).
  { destruct Ri as [_ [Z|[H _]]]; [|exact H]. exfalso. fold J in Z. rewrite Z in Ei. rewrite Rminus_0_l, Rabs_Ropp, Rabs_pos_eq in Ei by lra.
    rewrite u53_val in Ei. lra. }
  assert (PM : bpow radix2 (-201) <= Rabs M).
  { destruct Rm as [_ [Z|[H _]]]; [|exact H]. exfalso. fold M in Z. rewrite Z in Em. rewrite Rminus_0_l, Rabs_Ropp, Rabs_pos_eq in Em by lra.
    rewrite u53_val in Em. lra. }
  assert (PJV : bpow radix2 (-402) <= Rabs (J * V)).
  { rewrite Rabs_mult. change (-402)%Z with (-202 + -200)%Z. rewrite bpow_plus. apply Rmult_le_compat; auto; apply bpow_ge_0. }
  destruct (round_factor (J * V)) as (c & Ec & Hc); [eapply Rle_trans; [|exact PJV]; apply bpow_le; lia|].
  assert (PP : bpow radix2 (-402) <= Rabs (b2r (Bmult mode_NE i v))).
  { destruct R1 as [_ [Z|[H _]]]; [|exact H]. exfalso. rewrite E1, Ec in Z. apply Rmult_integral in Z. destruct Z as [Z|Z].
    - rewrite Z, Rabs_R0 in PJV. pose proof (bpow_gt_0 radix2 (-402)). lra.
    - apply Rabs_le_inv in Hc. rewrite u53_val in Hc. lra. }
  destruct (round_factor (M * b2r (Bmult mode_NE i v))) as (d & Ed & Hd).
  { rewrite Rabs_mult. apply Rle_trans with (bpow radix2 (-201) * bpow radix2 (-402)); [rewrite <- bpow_plus; apply bpow_le; lia|].
    apply Rmult_le_compat; auto; apply bpow_ge_0. }
  rewrite E2, Ed, E1, Ec. clear E2 Ed E1 Ec PP PJV.
  destruct (factors _ _ _ _ Ha Hb) as (f & Ef & Hf). destruct (factors _ _ _ _ Hc Hd) as (g & Eg & Hg). destruct (factors _ _ _ _ Hf Hg) as (h & Eh & Hh).
  replace (M * (J * V * (1 + c)) * (1 + d) - V) with (V * h).
  - rewrite Rabs_mult, Rmult_comm. apply Rmult_le_compat_r; [apply Rabs_pos|]. eapply Rle_trans; [exact Hh|]. rewrite u53_val. lra.
  - rewrite Ea, Eb. replace h with ((1 + a) * (1 + b) * ((1 + c) * (1 + d)) - 1) by (rewrite Ef, Eg, Eh; ring). field. lra.
Qed.
Lemma recompose_parts : forall t x, betweenv 200 t x -> nonzero t x ->
  Forall2 (fun w v : f64 => valid_number w /\ Rabs (b2r w - b2r v) <= 24 * u53 * Rabs (b2r v)) (elems t (scale t (magnitude t x) (direction t x))) (elems t x).
Proof.
  intros t x B N. destruct (norm_range t x B N) as [F [L H]]. destruct (magnitude_rng t x B N) as [Rm Pm].
  assert (Fm : fin (magSq t x) = true) by apply (magSq_rng t x B N).
  destruct (magnitude_error t x Fm L) as [_ Em]. rewrite direction_form by assumption.
  destruct (rng_div 0 0 (-201) 202 none_ (magnitude t x) rng_one Rm) as [Ri _]; [lra|lia|lia|]. change (0 - 202)%Z with (-202)%Z in Ri. change (0 - -201)%Z with 201%Z in Ri.
  set (K := cnorm (exactly t x)) in *.
  destruct (recip (magnitude t x) K) as [_ Ei].
  { split; [eapply Rle_trans; [|exact L]|eapply Rle_trans; [exact H|]]; apply bpow_le; lia. }
  { pose proof u53_pos. assert (0 < K) by (pose proof (bpow_gt_0 radix2 (-480)); lra). change u53 with unit_roundoff in *. assert (0 <= unit_roundoff * K) by (apply Rmult_le_pos; lra). lra. }
  rewrite !elems_scale, map_map. unfold betweenv in B. induction B as [|v l Hv B IH]; cbn [map]; constructor; [|exact IH].
  apply (rescale _ _ _ K); auto. pose proof (bpow_gt_0 radix2 (-480)). lra.
Qed.
Lemma dist_parts : forall c (g r : list f64), 0 <= c -> Forall2 (fun w v : f64 => Rabs (b2r w - b2r v) <= c * Rabs (b2r v)) g r -> dist2 g r <= c * c * norm2 r.
Proof.
  intros c g r Hc H. induction H as [|w v g r Hv H IH]; [unfold dist2, norm2; cbn; lra|]. rewrite dist2_cons, norm2_cons.
  assert (Q : (b2r w - b2r v) * (b2r w - b2r v) <= c * c * (b2r v * b2r v)).
  { rewrite <- (Rabs_right ((b2r w - b2r v) * (b2r w - b2r v))) by (apply Rle_ge, sq_pos). rewrite Rabs_mult.
    replace (c * c * (b2r v * b2r v)) with ((c * Rabs (b2r v)) * (c * Rabs (b2r v))).
    - apply Rmult_le_compat; auto; apply Rabs_pos.
    - replace (c * Rabs (b2r v) * (c * Rabs (b2r v))) with (c * c * (Rabs (b2r v) * Rabs (b2r v))) by ring. rewrite <- Rabs_mult, Rabs_right by (apply Rle_ge, sq_pos). ring. }
  lra.
Qed.
Lemma slice_all2 : forall (P : f64 -> f64 -> Prop) l l' p, Forall2 P l l' -> Forall2 P (slice l p) (slice l' p).
Proof.
  intros P l l' [n m] H. unfold slice. cbn [fst snd]. revert l l' H. induction n as [|n IH]; intros l l' H.
  - cbn [skipn]. revert l l' H. induction m as [|m IH]; intros l l' H; [constructor|]. destruct H; cbn; constructor; auto.
  - destruct H; [cbn; destruct m; constructor|]. cbn [skipn]. apply IH. assumption.
Qed.
Lemma norm2_rng : forall (l : list f64), Forall (rng (-200) 200) l -> (length l <= 3)%nat ->
  Forall (fun v => b2r v = 0) l \/ bpow radix2 (-900) <= norm2 l <= bpow radix2 1000.
Proof.
  intros l H Hl.
  assert (Up : norm2 l <= INR (length l) * bpow radix2 400).
  { clear Hl. induction H as [|v l [_ Hv] H IH]; [unfold norm2; cbn [length fold_right INR]; lra|]. rewrite norm2_cons. cbn [length]. rewrite S_INR.
    assert (b2r v * b2r v <= bpow radix2 400); [|lra]. destruct Hv as [->|[_ Hv]]; [rewrite Rmult_0_l; apply bpow_ge_0|].
    rewrite <- (Rabs_right (b2r v * b2r v)) by (apply Rle_ge, sq_pos). rewrite Rabs_mult. change 400%Z with (200 + 200)%Z. rewrite bpow_plus. apply Rmult_le_compat; auto; apply Rabs_pos. }
  assert (Up' : norm2 l <= bpow radix2 1000).
  { apply Rle_trans with (bpow radix2 2 * bpow radix2 400); [|rewrite <- bpow_plus; apply bpow_le; lia].
    eapply Rle_trans; [exact Up|]. apply Rmult_le_compat_r; [apply bpow_ge_0|]. change (bpow radix2 2) with 4. apply le_INR in Hl. cbn in Hl. lra. }
  clear Up Hl. revert Up'. generalize (bpow radix2 1000). intros W. induction H as [|v l [_ Hv] H IH]; intros Up'; [left; constructor|].
  rewrite norm2_cons in *. pose proof (norm2_pos l) as Pl. pose proof (sq_pos (b2r v)) as Pv. destruct Hv as [Z|[Hv _]].
  - rewrite Z, Rmult_0_l, Rplus_0_l in *. destruct (IH Up') as [K|K]; [left; constructor; auto|right; exact K].
  - right. split; [|exact Up']. apply Rle_trans with (b2r v * b2r v); [|lra].
    rewrite <- (Rabs_right (b2r v * b2r v)) by (apply Rle_ge, sq_pos). rewrite Rabs_mult. apply Rle_trans with (bpow radix2 (-200) * bpow radix2 (-200)).
    + rewrite <- bpow_plus. apply bpow_le. lia.
    + apply Rmult_le_compat; auto; apply bpow_ge_0.
Qed.
Lemma recompose_accept : forall t (x : val f64 t) tol, t <> TDub -> betweenv 200 t x -> nonzero t x -> fin tol = true -> bpow radix2 (-47) <= b2r tol ->
  nearlyEquals t (scale t (magnitude t x) (direction t x)) x tol = true.
Proof.
  intros t x tol Nt B N Ht HT. pose proof (recompose_parts t x B N) as Q.
  assert (E47 : bpow radix2 (-47) = 64 * u53).
  { unfold u53. change 64 with (bpow radix2 6). rewrite <- bpow_plus. reflexivity. }
  pose proof u53_pos as U.
  apply (object_accept _ _ _ tol t45); auto.
  - unfold all_valid. clear - Q. induction Q as [|w v l m [Hw _] Q IH]; constructor; auto.
  - unfold all_valid. unfold betweenv in B. eapply Forall_impl; [|exact B]. intros v [F [Z|[H _]]]; split; auto. right. eapply Rle_trans; [|exact H]. apply bpow_le; lia.
  - exact t45_rng.
  - rewrite t45_val. lra.
  - rewrite Forall_forall. intros p Hp. cbv zeta. destruct (slice_shape t x p Hp) as (_ & L2 & S2).
    assert (Q2 : Forall2 (fun w v : f64 => Rabs (b2r w - b2r v) <= 24 * u53 * Rabs (b2r v)) (slice (elems t (scale t (magnitude t x) (direction t x))) p) (slice (elems t x) p)).
    { apply slice_all2. clear - Q. induction Q as [|w v l m [_ Hw] Q IH]; constructor; auto. }
    destruct (norm2_rng (slice (elems t x) p)) as [Z|Rg]; [apply slice_rng; exact B|lia| |].
    + left. split; [exact Z|]. clear - Z Q2 U. induction Q2 as [|w v l m Hw Q2 IH]; constructor.
      * inversion Z; subst. rewrite t45_val. rewrite H1, Rabs_R0, Rmult_0_r, Rminus_0_r in Hw. lra.
      * inversion Z; subst. apply IH; assumption.
    + right. split; [exact Rg|]. eapply Rle_trans; [apply (dist_parts (24 * u53)); [lra|exact Q2]|].
      apply Rmult_le_compat_r; [apply norm2_pos|]. rewrite t45_val, E47, u53_val. lra.
Qed.
(** The documented condition on each component is enough. *)
Lemma components_accept : forall t (x y : val f64 t) tol t' c, t <> TDub -> betweenv 200 t x -> betweenv 200 t y -> fin tol = true ->
  bpow radix2 (-60) <= b2r t' <= 1 -> b2r t' < b2r tol -> 0 <= c <= (1 - bpow radix2 (-47)) * b2r t' ->
  Forall2 (fun a b : f64 => Rabs (b2r a - b2r b) <= c * Rabs (b2r b)) (elems t x) (elems t y) -> nearlyEquals t x y tol = true.
Proof.
  intros t x y tol t' c Nt Bx By Ht T Lt [C0 C1] Q. pose proof (bpow_gt_0 radix2 (-60)) as P60.
  assert (Z47 : 0 < bpow radix2 (-47) <= / 2) by (split; [apply bpow_gt_0|change (/2) with (bpow radix2 (-1)); apply bpow_le; lia]).
  assert (BV : forall (z : val f64 t), betweenv 200 t z -> all_valid t z).
  { intros z B. unfold all_valid. unfold betweenv in B. eapply Forall_impl; [|exact B]. intros v [F [Z|[H _]]]; split; auto. right. eapply Rle_trans; [|exact H]. apply bpow_le; lia. }
  apply (object_accept _ _ _ tol t'); auto.
  rewrite Forall_forall. intros p Hp. cbv zeta. destruct (slice_shape t y p Hp) as (_ & L2 & S2).
  pose proof (slice_all2 _ _ _ p Q) as Q2.
  destruct (norm2_rng (slice (elems t y) p)) as [Z|Rg]; [apply slice_rng; exact By|lia| |].
  - left. split; [exact Z|]. clear - Z Q2 T P60. induction Q2 as [|w v l m Hw Q2 IH]; constructor.
    + inversion Z; subst. rewrite H1, Rabs_R0, Rmult_0_r, Rminus_0_r in Hw. lra.
    + inversion Z; subst. apply IH; assumption.
  - right. split; [exact Rg|]. eapply Rle_trans; [apply (dist_parts c); [lra|exact Q2]|].
    apply Rmult_le_compat_r; [apply norm2_pos|]. set (z := bpow radix2 (-47)) in *. set (w := b2r t') in *.
    apply Rle_trans with (((1 - z) * w) * ((1 - z) * w)); [apply Rmult_le_compat; lra|]. assert (0 <= w * w) by (apply Rmult_le_pos; lra). nra.
Qed.

(** ** Cases *)
Lemma lit_val53 : forall m e, (Z.abs m < 2 ^ 53)%Z -> (-600 <= e <= 100)%Z -> is_finite (f64_lit m e) = true /\ B2R (f64_lit m e) = IZR m * bpow radix2 e.
Proof.
  intros m e Hm He. apply lit_exact.
  - change fexp64 with (FLT_exp (-1074) 53). apply generic_format_FLT. exists (Float radix2 m e); [reflexivity|exact Hm|cbn [Fexp]; lia].
  - unfold F2R; cbn [Fnum Fexp]. rewrite Rabs_mult, (Rabs_pos_eq (bpow _ _)), <- abs_IZR by apply bpow_ge_0.
    apply Rlt_le_trans with (bpow radix2 53 * bpow radix2 e).
    + apply Rmult_lt_compat_r; [apply bpow_gt_0|]. change (bpow radix2 53) with (IZR (2 ^ 53)). apply IZR_lt. exact Hm.
    + rewrite <- bpow_plus. apply bpow_le. lia.
Qed.
Lemma lit_between53 : forall m e, (Z.abs m < 2 ^ 53)%Z -> (-100 <= e <= 100)%Z -> m <> 0%Z -> between 200 (f64_lit m e) /\ B2R (f64_lit m e) <> 0.
Proof.
  intros m e Hm He N. destruct (lit_val53 m e Hm ltac:(lia)) as [A B]. pose proof (bpow_gt_0 radix2 e) as P.
  split; [split; [exact A|right]|]; rewrite B.
  - rewrite Rabs_mult, (Rabs_pos_eq (bpow _ _)) by apply bpow_ge_0. rewrite <- abs_IZR.
    assert (1 <= IZR (Z.abs m) <= bpow radix2 53) as [K1 K2] by (split; [apply IZR_le; lia|change (bpow radix2 53) with (IZR (2 ^ 53)); apply IZR_le; lia]). split.
    + apply Rle_trans with (bpow radix2 e); [apply bpow_le; lia|nra].
    + apply Rle_trans with (bpow radix2 53 * bpow radix2 e); [apply Rmult_le_compat_r; lra|]. rewrite <- bpow_plus. apply bpow_le. lia.
  - apply IZR_neq in N. nra.
Qed.
Lemma arr_ratio : forall (g r : list f64) q tol, isValid_arr g && isValid_arr r = true ->
  nltb (nsqrt (inner_product r r (B754_zero false : f64))) (lim_min : f64) = false ->
  B2SF (nsqrt (ndiv (sumSqDif g r (B754_zero false : f64)) (inner_product r r (B754_zero false : f64))) : f64) = B2SF q ->
  nearlyEquals_arr g r tol = isSmallAbs q tol.
Proof. intros g r q tol V A Q. unfold nearlyEquals_arr. rewrite V. cbv zeta. change (nzero : f64) with (B754_zero false : f64). rewrite A. apply B2SF_inj in Q. rewrite Q. reflexivity. Qed.
Lemma ratio_reject : forall (g r : list f64) q tol, isValid_arr g && isValid_arr r = true ->
  nltb (nsqrt (inner_product r r (B754_zero false : f64))) (lim_min : f64) = false ->
  B2SF (nsqrt (ndiv (sumSqDif g r (B754_zero false : f64)) (inner_product r r (B754_zero false : f64))) : f64) = B2SF q ->
  fin tol = true -> b2r tol <= 1 -> 1 <= Rabs (b2r q) -> nearlyEquals_arr g r tol = false.
Proof.
  intros g r q tol V A Q Ht HT Hq. rewrite (arr_ratio g r q tol V A Q). destruct (isSmallAbs q tol) eqn:E; [|reflexivity].
  apply small_real in E; [|exact Ht]. lra.
Qed.
Definition u1 : Vector f64 := Vec (f64_lit 1 0) (f64_lit 1 0) (f64_lit 7 0).
Definition w1 : Vector f64 := Vec (f64_lit 4517467574412735 (-52)) (f64_lit 7874577745671056 (-53)) (f64_lit 4536154681443298 (-52)).
Lemma default_reject :
  (betweenv 200 TVec u1 /\ nonzero TVec u1 /\ nearlyEquals TSpin (mul TVec TVec u1 (inverse_Vec u1)) (one TSpin) lim_epsilon = false) /\
  (let x := Sca (f64_lit 31 0) in betweenv 200 TSca x /\ nonzero TSca x /\ nearlyEquals TSca (mul TSca TSca x (inverse_Sca x)) (one TSca) lim_epsilon = false) /\
  (betweenv 200 TVec w1 /\ nonzero TVec w1 /\ nearlyEquals TVec (scale TVec (magnitude TVec w1) (direction TVec w1)) w1 lim_epsilon = false).
Proof.
  split; [|split].
  - split; [repeat (apply Forall_cons || apply Forall_nil); apply lit_between; lia|]. split; [apply Exists_cons_hd, lit_nonzero; lia|]. vm_compute. reflexivity.
  - cbv zeta. split; [repeat (apply Forall_cons || apply Forall_nil); apply lit_between; lia|]. split; [apply Exists_cons_hd, lit_nonzero; lia|]. vm_compute. reflexivity.
  - split; [repeat (apply Forall_cons || apply Forall_nil); apply lit_between53; lia|]. split; [apply Exists_cons_hd, lit_between53; lia|]. vm_compute. reflexivity.
Qed.
Definition x135 : Vector f64 := Vec (f64_lit 1 0) (f64_lit 3 0) (f64_lit 5 0).
Lemma swapped_reject : betweenv 200 TVec x135 /\ nonzero TVec x135 /\ forall tol, fin tol = true -> b2r tol <= 1 ->
  nearlyEquals TSpin (one TSpin) (mul TVec TVec x135 (inverse_Vec x135)) tol = false.
Proof.
  split; [repeat (apply Forall_cons || apply Forall_nil); apply lit_between; lia|]. split; [apply Exists_cons_hd, lit_nonzero; lia|].
  intros tol Ht HT. apply not_true_is_false. intros E. apply object_slices in E; [|discriminate].
  inversion E as [|? ? _ E1]; subst. inversion E1 as [|? ? E2 _]; subst.
  rewrite (ratio_reject _ _ (f64_lit 1 0) tol) in E2; [discriminate|vm_compute; reflexivity|vm_compute; reflexivity|vm_compute; reflexivity|exact Ht|exact HT|].
  rewrite (proj1 (proj2 (lit_val 1 0 ltac:(lia) ltac:(lia)))). change (bpow radix2 0) with 1. rewrite Rmult_1_r, Rabs_R1. lra.
Qed.
Definition tenth (n : Z) : f64 := Bdiv mode_NE (f64_lit n 0) (f64_lit 10 0).
Definition va : Vector f64 := Vec (tenth 1) (tenth 6) (tenth 4).
Definition vb : Vector f64 := Vec (tenth 3) (tenth 1) (tenth 2).
Definition vc : Vector f64 := Vec (tenth 4) (tenth 7) (tenth 6).
Lemma assoc_reject : forall tol, fin tol = true -> b2r tol <= 1 ->
  nearlyEquals TImsp (mul TSpin TVec (mul TVec TVec va vb) vc) (mul TVec TSpin va (mul TVec TVec vb vc)) tol = false.
Proof.
  intros tol Ht HT. apply not_true_is_false. intros E. apply object_slices in E; [|discriminate].
  inversion E as [|? ? _ E1]; subst. inversion E1 as [|? ? E2 _]; subst.
  rewrite (ratio_reject _ _ (f64_lit 2 0) tol) in E2; [discriminate|vm_compute; reflexivity|vm_compute; reflexivity|vm_compute; reflexivity|exact Ht|exact HT|].
  rewrite (proj1 (proj2 (lit_val 2 0 ltac:(lia) ltac:(lia)))). change (bpow radix2 0) with 1. rewrite Rmult_1_r, Rabs_pos_eq; lra.
Qed.
Definition xsub : Vector f64 := Vec (f64_lit 3 0) (f64_lit 3 (-500)) (f64_lit 5 (-500)).
Lemma subnormal_reject : all_valid TVec xsub /\ forall tol, nearlyEquals TSpin (mul TVec TVec xsub (inverse_Vec xsub)) (one TSpin) tol = false.
Proof.
  split.
  - assert (V : forall m e, (1 <= m < 8)%Z -> (-600 <= e <= 100)%Z -> valid_number (f64_lit m e)).
    { intros m e Hm He. destruct (lit_val53 m e) as [A B]; [lia|exact He|]. split; [exact A|right]. rewrite B, Rabs_pos_eq by (apply Rmult_le_pos; [apply IZR_le; lia|apply bpow_ge_0]).
      apply Rle_trans with (1 * bpow radix2 e); [rewrite Rmult_1_l; apply bpow_le; lia|]. apply Rmult_le_compat_r; [apply bpow_ge_0|apply IZR_le; lia]. }
    repeat (apply Forall_cons || apply Forall_nil); apply V; lia.
  - intros tol. apply not_true_is_false. intros E. apply object_slices in E; [|discriminate].
    inversion E as [|? ? _ E1]; subst. inversion E1 as [|? ? E2 _]; subst. unfold nearlyEquals_arr in E2.
    match type of E2 with (if ?c then _ else _) = _ => replace c with false in E2 by (vm_compute; reflexivity) end. discriminate.
Qed.
Lemma component_loose : let got := Vec (f64_lit 1 40) (f64_lit 1 40) (f64_lit 2 0) in let ref := Vec (f64_lit 1 40) (f64_lit 1 40) (f64_lit 1 0) in
  nearlyEquals TVec got ref (f64_lit 1 (-40)) = true /\ nearlyEquals TDub (vec_2 got) (vec_2 ref) (f64_lit 1 (-1)) = false.
Proof. split; vm_compute; reflexivity. Qed.
