(** * Turning one vector into another: proofs. *)

Require Import Reals ZArith List Bool Lra Lia.
From Flocq Require Import Core.
Require Import Verif.Num Verif.Types Verif.Priv Verif.OpsUni Verif.OpsAdd Verif.OpsSub
  Verif.OpsMul Verif.Const Verif.Validity Verif.Func Verif.SpecCl Verif.RealInst Verif.AlgTac Verif.AlgMul Verif.AlgFacts Verif.SpecFunc
  Verif.FuncFacts Verif.SpecExp Verif.ExpFacts Verif.ExpThm Verif.LogThm Verif.SpecGeom Verif.SpecPrin Verif.PrinFacts Verif.SpecToward.
Local Open Scope R_scope.
Ltac dcbv := cbv -[Rplus Rminus Rmult Ropp Rdiv Rinv R R0 R1 IZR sqrt].

(** ** The product of two vectors *)
Lemma ba_norm2 : forall a b : Vector R, cnorm2 (den TSpin (mul TVec TVec b a)) = dot a a * dot b b.
Proof. intros [[a0 a1 a2]] [[b0 b1 b2]]. unfold cnorm2. dcbv. ring. Qed.
Lemma vec_norm2 : forall a : Vector R, cnorm2 (den TVec a) = dot a a.
Proof. intros [[a0 a1 a2]]. unfold cnorm2. dcbv. ring. Qed.
Lemma ba_norm : forall a b : Vector R, cnorm (den TSpin (mul TVec TVec b a)) = cnorm (den TVec a) * cnorm (den TVec b).
Proof. intros a b. unfold cnorm. rewrite ba_norm2, !vec_norm2, sqrt_mult; [reflexivity| |]; rewrite <- vec_norm2; apply cnorm2_nonneg. Qed.
Lemma ba_sca : forall a b : Vector R, sca_0 (spinSca (mul TVec TVec b a)) = dot a b.
Proof. intros [[a0 a1 a2]] [[b0 b1 b2]]. dcbv. ring. Qed.

(** The spinor half way between [a] and [b]. *)
Definition halfway (a b : Vector R) : Spinor R :=
  let M := cnorm (den TVec a) * cnorm (den TVec b) in
  scale TSpin (/ sqrt (2 * (M + dot a b))) (mkSpin (Sca (M + dot a b)) (spinBiv (mul TVec TVec b a))).

Lemma halfway_root : forall a b : Vector R, let M := cnorm (den TVec a) * cnorm (den TVec b) in
  0 < M + dot a b -> is_root (halfway a b) (mul TVec TVec b a).
Proof.
  intros a b M HM. assert (M2 : M * M = dot a a * dot b b).
  { unfold M. rewrite <- !vec_norm2, <- !cnorm_sq. ring. }
  unfold is_root, halfway. fold M. clearbody M. set (g := / sqrt (2 * (M + dot a b))).
  assert (G : g * g * (2 * (M + dot a b)) = 1).
  { unfold g. assert (Q : sqrt (2 * (M + dot a b)) * sqrt (2 * (M + dot a b)) = 2 * (M + dot a b)) by (apply sqrt_sqrt; lra).
    assert (0 < sqrt (2 * (M + dot a b))) by (apply sqrt_lt_R0; lra). rewrite <- Q at 3. field. lra. }
  clearbody g. rewrite (scale_den TSpin), gp_scale_l, gp_scale_r.
  intros k. apply (Rmult_eq_reg_l (2 * (M + dot a b))); [|lra]. unfold cscale.
  rewrite <- !Rmult_assoc. rewrite (Rmult_comm (2 * (M + dot a b))), (Rmult_assoc g), (Rmult_comm _ g), <- Rmult_assoc, G, Rmult_1_l. clear G HM. revert M2.
  destruct a as [[a0 a1 a2]], b as [[b0 b1 b2]]. dblade k; dcbv; intros M2; try ring.
  transitivity (M * M + 2 * M * (a0 * b0 + a1 * b1 + a2 * b2) + (a0 * b0 + a1 * b1 + a2 * b2) * (a0 * b0 + a1 * b1 + a2 * b2) - ((a0 * a0 + a1 * a1 + a2 * a2) * (b0 * b0 + b1 * b1 + b2 * b2) - (a0 * b0 + a1 * b1 + a2 * b2) * (a0 * b0 + a1 * b1 + a2 * b2))); [ring|]. rewrite <- M2. ring.
Qed.
Lemma halfway_sca : forall a b : Vector R, let M := cnorm (den TVec a) * cnorm (den TVec b) in
  0 < M + dot a b -> 0 < sca_0 (spinSca (halfway a b)) /\ sca_0 (spinSca (halfway a b)) * sca_0 (spinSca (halfway a b)) = (M + dot a b) / 2.
Proof.
  intros a b M HM. change (sca_0 (spinSca (halfway a b))) with (/ sqrt (2 * (M + dot a b)) * (M + dot a b)).
  assert (Q : sqrt (2 * (M + dot a b)) * sqrt (2 * (M + dot a b)) = 2 * (M + dot a b)) by (apply sqrt_sqrt; lra).
  assert (P : 0 < sqrt (2 * (M + dot a b))) by (apply sqrt_lt_R0; lra). split.
  - apply Rmult_lt_0_compat; [apply Rinv_0_lt_compat, P|exact HM].
  - replace (M + dot a b) with (sqrt (2 * (M + dot a b)) * sqrt (2 * (M + dot a b)) / 2) at 2 4 5 by lra. field. lra.
Qed.
Lemma halfway_turns : forall a b : Vector R, let M := cnorm (den TVec a) * cnorm (den TVec b) in
  0 < M + dot a b -> turns (halfway a b) a b.
Proof.
  intros a b M HM. assert (M2 : M * M = dot a a * dot b b).
  { unfold M. rewrite <- !vec_norm2, <- !cnorm_sq. ring. }
  unfold turns, halfway. fold M. clearbody M. set (g := / sqrt (2 * (M + dot a b))).
  assert (G : g * g * (2 * (M + dot a b)) = 1).
  { unfold g. assert (Q : sqrt (2 * (M + dot a b)) * sqrt (2 * (M + dot a b)) = 2 * (M + dot a b)) by (apply sqrt_sqrt; lra).
    assert (0 < sqrt (2 * (M + dot a b))) by (apply sqrt_lt_R0; lra). rewrite <- Q at 3. field. lra. }
  clearbody g. split.
  - rewrite (cnorm2_ceq _ _ (scale_den TSpin g _)), cnorm2_scale. apply (Rmult_eq_reg_l (2 * (M + dot a b))); [|lra].
    rewrite <- Rmult_assoc, (Rmult_comm _ (g * g)), G, Rmult_1_l. clear G HM. revert M2. destruct a as [[a0 a1 a2]], b as [[b0 b1 b2]]. unfold cnorm2. dcbv. intros M2.
    transitivity (M * M + 2 * M * (a0 * b0 + a1 * b1 + a2 * b2) + (a0 * a0 + a1 * a1 + a2 * a2) * (b0 * b0 + b1 * b1 + b2 * b2)); [ring|]. rewrite <- M2. ring.
  - intros k. apply (Rmult_eq_reg_l (2 * (M + dot a b))); [|lra].
    transitivity (g * g * (2 * (M + dot a b)) * den TImsp (sandwich (mkSpin (Sca (M + dot a b)) (spinBiv (mul TVec TVec b a))) a) k).
    { clear. destruct a as [[a0 a1 a2]], b as [[b0 b1 b2]]. dblade k; dcbv; ring. }
    rewrite G, Rmult_1_l. clear G HM. revert M2. destruct a as [[a0 a1 a2]], b as [[b0 b1 b2]].
    dblade k; dcbv; intros M2; try ring.
    all: apply Rminus_diag_uniq;
      first [transitivity ((M * M - (a0 * a0 + a1 * a1 + a2 * a2) * (b0 * b0 + b1 * b1 + b2 * b2)) * a0); [ring|rewrite M2; ring]
            |transitivity ((M * M - (a0 * a0 + a1 * a1 + a2 * a2) * (b0 * b0 + b1 * b1 + b2 * b2)) * a1); [ring|rewrite M2; ring]
            |transitivity ((M * M - (a0 * a0 + a1 * a1 + a2 * a2) * (b0 * b0 + b1 * b1 + b2 * b2)) * a2); [ring|rewrite M2; ring]].
Qed.

(** ** No other turn has a larger scalar part *)
Lemma turns_shorter : forall (a b : Vector R) (r : Spinor R), let M := cnorm (den TVec a) * cnorm (den TVec b) in
  0 < M -> Rabs (dot a b) < M -> turns r a b ->
  Rabs (sca_0 (spinSca r)) <= sca_0 (spinSca (halfway a b)) /\
  (Rabs (sca_0 (spinSca r)) = sca_0 (spinSca (halfway a b)) -> r = halfway a b \/ r = neg TSpin (halfway a b)).
Proof.
  intros a b r M HM HD (N & T). assert (M2 : M * M = dot a a * dot b b).
  { unfold M. rewrite <- !vec_norm2, <- !cnorm_sq. ring. }
  assert (HD1 : 0 < M - dot a b /\ 0 < M + dot a b) by (apply Rabs_def2 in HD; lra). destruct HD1 as [D1 D2].
  destruct (halfway_sca a b D2) as [H1 H2]. fold M in H2, N.
  assert (A : 0 < dot a a).
  { destruct (Rle_lt_dec (dot a a) 0) as [X|X]; [|exact X]. pose proof (cnorm2_nonneg (den TVec a)) as Y. rewrite vec_norm2 in Y. assert (dot a a = 0) by lra. rewrite H, Rmult_0_l in M2. nra. }
  set (al := sca_0 (spinSca r)) in *. set (W := spinBiv (mul TVec TVec b a)).
  set (w := biv_0 W * biv_0 (spinBiv r) + biv_1 W * biv_1 (spinBiv r) + biv_2 W * biv_2 (spinBiv r)).
  set (w2 := biv_0 W * biv_0 W + biv_1 W * biv_1 W + biv_2 W * biv_2 W).
  set (B2 := biv_0 (spinBiv r) * biv_0 (spinBiv r) + biv_1 (spinBiv r) * biv_1 (spinBiv r) + biv_2 (spinBiv r) * biv_2 (spinBiv r)).
  assert (E1 : w2 = (M - dot a b) * (M + dot a b)).
  { transitivity (dot a a * dot b b - dot a b * dot a b); [|rewrite <- M2; ring]. unfold w2, W. clear. destruct a as [[a0 a1 a2]], b as [[b0 b1 b2]]. dcbv. ring. }
  assert (E2 : al * al + B2 = M).
  { rewrite <- N. unfold al, B2. clear. destruct r as [[[c]] [[x y z]]]. unfold cnorm2. dcbv. ring. }
  assert (E3 : al * (M - dot a b) = w).
  { apply (Rmult_eq_reg_l (dot a a)); [|lra]. rewrite <- E2. unfold al, B2, w, W.
    clear - T. destruct a as [[a0 a1 a2]], b as [[b0 b1 b2]], r as [[[c]] [[x y z]]].
    pose proof (T bE1) as T0. pose proof (T bE2) as T1. pose proof (T bE3) as T2. clear T. revert T0 T1 T2. dcbv. intros T0 T1 T2.
    transitivity ((a0 * a0 + a1 * a1 + a2 * a2) * c * (c * c + (x * x + y * y + z * z)) -
       ((a0 * a0 + a1 * a1 + a2 * a2) * b0 * (c * a0) + (a0 * a0 + a1 * a1 + a2 * a2) * b1 * (c * a1) + (a0 * a0 + a1 * a1 + a2 * a2) * b2 * (c * a2))); [ring|].
    transitivity ((a0 * a0 + a1 * a1 + a2 * a2) * b0 * (a1 * z - a2 * y) + (a0 * a0 + a1 * a1 + a2 * a2) * b1 * (a2 * x - a0 * z) + (a0 * a0 + a1 * a1 + a2 * a2) * b2 * (a0 * y - a1 * x)); [|ring].
    rewrite <- T0, <- T1, <- T2. ring. }
  assert (CS : w2 * B2 - w * w = Rsqr (biv_0 W * biv_1 (spinBiv r) - biv_1 W * biv_0 (spinBiv r)) + Rsqr (biv_0 W * biv_2 (spinBiv r) - biv_2 W * biv_0 (spinBiv r)) +
    Rsqr (biv_1 W * biv_2 (spinBiv r) - biv_2 W * biv_1 (spinBiv r))) by (unfold w, w2, B2, Rsqr; ring).
  set (s1 := biv_0 W * biv_1 (spinBiv r) - biv_1 W * biv_0 (spinBiv r)) in *. set (s2 := biv_0 W * biv_2 (spinBiv r) - biv_2 W * biv_0 (spinBiv r)) in *.
  set (s3 := biv_1 W * biv_2 (spinBiv r) - biv_2 W * biv_1 (spinBiv r)) in *.
  pose proof (Rle_0_sqr s1) as Q1. pose proof (Rle_0_sqr s2) as Q2. pose proof (Rle_0_sqr s3) as Q3.
  assert (K : w2 * B2 - w * w = 2 * M * (M - dot a b) * ((M + dot a b) / 2 - al * al)).
  { rewrite <- E3, E1. replace B2 with (M - al * al) by lra. field. }
  assert (P : 0 < 2 * M * (M - dot a b)) by (apply Rmult_lt_0_compat; lra).
  assert (L : 0 <= (M + dot a b) / 2 - al * al).
  { destruct (Rle_lt_dec 0 ((M + dot a b) / 2 - al * al)) as [X|X]; [exact X|]. exfalso.
    assert (2 * M * (M - dot a b) * ((M + dot a b) / 2 - al * al) < 0) by (rewrite <- (Rmult_0_r (2 * M * (M - dot a b))); apply Rmult_lt_compat_l; assumption). lra. }
  split.
  - rewrite <- (Rabs_pos_eq (sca_0 (spinSca (halfway a b)))) by lra. apply Rsqr_le_abs_0. unfold Rsqr. lra.
  - intros E.
    assert (EE : al * al = (M + dot a b) / 2). { rewrite <- H2, <- E. rewrite <- Rabs_mult, Rabs_pos_eq; [reflexivity|]. pose proof (Rle_0_sqr al). unfold Rsqr in *. lra. }
    assert (Z : w2 * B2 - w * w = 0) by (rewrite K, EE; ring).
    assert (Z1 : s1 = 0) by (apply Rsqr_0_uniq; lra). assert (Z2 : s2 = 0) by (apply Rsqr_0_uniq; lra). assert (Z3 : s3 = 0) by (apply Rsqr_0_uniq; lra).
    assert (par : (M - dot a b) * ((M + dot a b) * biv_0 (spinBiv r) - al * biv_0 W) = 0 /\ (M - dot a b) * ((M + dot a b) * biv_1 (spinBiv r) - al * biv_1 W) = 0 /\
       (M - dot a b) * ((M + dot a b) * biv_2 (spinBiv r) - al * biv_2 W) = 0).
    { split; [|split].
      - transitivity (w2 * biv_0 (spinBiv r) - w * biv_0 W); [rewrite E1, <- E3; ring|]. transitivity (- (biv_1 W * s1) - biv_2 W * s2); [unfold w2, w, s1, s2; ring|]. rewrite Z1, Z2. ring.
      - transitivity (w2 * biv_1 (spinBiv r) - w * biv_1 W); [rewrite E1, <- E3; ring|]. transitivity (biv_0 W * s1 - biv_2 W * s3); [unfold w2, w, s1, s3; ring|]. rewrite Z1, Z3. ring.
      - transitivity (w2 * biv_2 (spinBiv r) - w * biv_2 W); [rewrite E1, <- E3; ring|]. transitivity (biv_0 W * s2 + biv_1 W * s3); [unfold w2, w, s2, s3; ring|]. rewrite Z2, Z3. ring. }
    destruct par as (R0 & R1 & R2).
    apply Rmult_integral in R0, R1, R2. destruct R0 as [R0|R0]; [lra|]. destruct R1 as [R1|R1]; [lra|]. destruct R2 as [R2|R2]; [lra|].
    set (g := / sqrt (2 * (M + dot a b))).
    assert (S : al = g * (M + dot a b) \/ al = - (g * (M + dot a b))).
    { change (sca_0 (spinSca (halfway a b))) with (g * (M + dot a b)) in E. unfold Rabs in E. destruct (Rcase_abs al); [right|left]; lra. }
    assert (HB : forall e x y, al = e * (g * (M + dot a b)) -> (M + dot a b) * x - al * y = 0 -> x = e * (g * y)).
    { intros e x y Hal Hx. apply (Rmult_eq_reg_l (M + dot a b)); [|lra]. rewrite Hal in Hx. lra. }
    destruct S as [S|S]; [left|right].
    + assert (S' : al = 1 * (g * (M + dot a b))) by lra.
      apply (HB 1 _ _ S') in R0, R1, R2. unfold halfway. fold M. fold g. fold W. clear - S R0 R1 R2. revert S R0 R1 R2. unfold al. clearbody W g. set (t := M + dot a b). clearbody t. destruct r as [[[c]] [[x y z]]], W as [[u v w]]. dcbv. intros -> -> -> ->.
      f_equal; f_equal; f_equal; ring.
    + assert (S' : al = -1 * (g * (M + dot a b))) by lra.
      apply (HB (-1) _ _ S') in R0, R1, R2. unfold halfway. fold M. fold g. fold W. clear - S R0 R1 R2. revert S R0 R1 R2. unfold al. clearbody W g. set (t := M + dot a b). clearbody t. destruct r as [[[c]] [[x y z]]], W as [[u v w]]. dcbv. intros -> -> -> ->.
      f_equal; f_equal; f_equal; ring.
Qed.

Lemma turner_form : forall (a b : Vector R) (plane : BiVector R), let M := cnorm (den TVec a) * cnorm (den TVec b) in
  4 * deps <= M -> Rabs (dot a b) <= (1 - deps) * M -> tiny < cnorm (den TBiv plane) ->
  turner (exact TVec a) (exact TVec b) (exact TBiv plane) = exact TSpin (halfway a b).
Proof.
  intros a b plane M HM HD HP. pose proof deps_pos as Hd0. unfold turner. rewrite (mul_exact TVec TVec).
  destruct (all_roots (mul TVec TVec b a) plane) as (q & Hq & Q & A).
  1, 2 : rewrite ba_norm; fold M; try rewrite ba_sca; assumption. exact HP.
  etransitivity; [exact Hq|]. f_equal. assert (D2 : 0 < M + dot a b). { pose proof (Rabs_le_inv _ _ HD) as [X _]. assert (0 < deps * M) by (apply Rmult_lt_0_compat; lra). lra. }
  destruct (halfway_sca a b D2) as [H1 _].
  destruct (proj1 (A _) (halfway_root a b D2)) as [E|E]; [symmetry; exact E|]. exfalso. rewrite E in H1.
  assert (N : sca_0 (spinSca (neg TSpin q)) = - sca_0 (spinSca q)) by (destruct q as [[[c]] [[x y z]]]; reflexivity). rewrite N in H1. lra.
Qed.

(** ** Parallel and opposite vectors *)
Lemma sqrt_of_log : forall (S : Spinor R) (plane : BiVector R) th (d : BiVector R), let M := cnorm (den TSpin S) in
  4 * deps <= M -> cnorm (den TBiv d) = 1 -> th = 0 \/ 2 * tiny < th ->
  logG2 (exact TSpin S) (exact TBiv plane) = exact TSpin (mkSpin (Sca (ln M)) (scale TBiv th d)) ->
  sqrtG2 (exact TSpin S) (exact TBiv plane) = exact TSpin (scale TSpin (sqrt M) (rotor (cos (th / 2)) (sin (th / 2)) d)).
Proof.
  intros S plane th d M HM Hd Hth HL. pose proof deps_pos as Hd0. unfold sqrtG2.
  change (isValid_Spin (exact TSpin S)) with (isValid TSpin (exact TSpin S)); rewrite isValid_exact.
  rewrite magnitude_exact; fold M; cbv zeta.
  unfold lim_epsilon; rewrite lit1, lit0, lit1; fold deps.
  change (nltb (Some M : xreal) (nmul (Some 4 : xreal) (Some deps))) with (Rltb M (4 * deps)).
  rewrite Rltb_false by exact HM. rewrite HL.
  change (mul_Dub_Spin (Some (bpow radix2 (-1)) : xreal) (exact TSpin ?x)) with (scale TSpin (Some (bpow radix2 (-1)) : xreal) (exact TSpin x)).
  rewrite scale_exact.
  replace (scale TSpin (bpow radix2 (-1)) (mkSpin (Sca (ln M)) (scale TBiv th d))) with (mkSpin (Sca (/ 2 * ln M)) (scale TBiv (th / 2) d)).
  2:{ replace (bpow radix2 (-1)) with (/ 2) by (simpl; lra).
      clear; clearbody M; apply (den_inj TSpin); dvals; intro k; dblade k; cbv -[Rplus Rminus Rmult Ropp Rdiv Rinv R R0 R1 IZR ln]; field. }
  rewrite (exp_Spin_exact (mkSpin (Sca (/ 2 * ln M)) (scale TBiv (th / 2) d)) (rotor (cos (th / 2)) (sin (th / 2)) d)).
  - f_equal. f_equal. cbn [spinSca]. change (sca_0 (Sca (/ 2 * ln M))) with (/ 2 * ln M). change (exp (/ 2 * ln M)) with (Rpower M (/ 2)). apply Rpower_sqrt. lra.
  - apply exp_angle; [exact Hd | lra].
Qed.

Lemma log_branches : forall (S : Spinor R) (plane : BiVector R), let M := cnorm (den TSpin S) in
  deps < M -> tiny < cnorm (den TBiv plane) ->
  ((1 - deps) * M < sca_0 (spinSca S) -> logG2 (exact TSpin S) (exact TBiv plane) = exact TSpin (mkSpin (Sca (ln M)) (scale TBiv 0 c_e23))) /\
  (sca_0 (spinSca S) < - (1 - deps) * M -> logG2 (exact TSpin S) (exact TBiv plane) =
     exact TSpin (mkSpin (Sca (ln M)) (scale TBiv pi53 (scale TBiv (1 / cnorm (den TBiv plane)) plane)))).
Proof.
  intros S plane M HM Hp. pose proof deps_pos as Hd0. pose proof deps_val as Hdv. assert (HM0 : 0 < M) by lra.
  set (c := sca_0 (spinSca (scale TSpin (1 / M) S))).
  assert (HcS : c = sca_0 (spinSca S) / M).
  { unfold c; clear - HM0; clearbody M; dvals; cbv -[Rplus Rminus Rmult Ropp Rdiv Rinv R R0 R1 IZR]; field; lra. }
  assert (HL : forall L, ((1 - deps) < c /\ exact TSpin L = exact TSpin (mkSpin (Sca (ln M)) zero_Biv)) \/
     (c < - (1 - deps) /\ exact TSpin L = mkSpin (Sca (Some (ln M))) (mul_Dub_Biv c_turnHalf (direction TBiv (exact TBiv plane)))) ->
     logG2 (exact TSpin S) (exact TBiv plane) = exact TSpin L).
  { intros L HL. unfold logG2.
    change (isValid_Spin (exact TSpin S)) with (isValid TSpin (exact TSpin S)); rewrite isValid_exact.
    rewrite magnitude_exact; fold M; cbv zeta.
    unfold lim_epsilon; rewrite lit1; fold deps.
    change (nltb (Some deps : xreal) (Some M)) with (Rltb deps M); rewrite (Rltb_true _ _ HM).
    change (none_ : xreal) with (Some 1 : xreal); rewrite div_exact by lra.
    change (mul_Dub_Spin (Some (1 / M) : xreal) (exact TSpin S)) with (scale TSpin (Some (1 / M) : xreal) (exact TSpin S)).
    rewrite scale_exact.
    change (sca_0 (spinSca (exact TSpin (scale TSpin (1 / M) S)))) with (Some c).
    change (mlog (Some M : xreal)) with (xlog (Some M)); unfold xlog; rewrite (Rltb_true 0 M HM0).
    change (nsub (Some 1 : xreal) (Some deps)) with (Some (1 - deps) : xreal).
    change (nopp (Some (1 - deps) : xreal)) with (Some (- (1 - deps)) : xreal).
    change (nltb (Some (1 - deps) : xreal) (Some c)) with (Rltb (1 - deps) c).
    change (nltb (Some c : xreal) (Some (- (1 - deps)))) with (Rltb c (- (1 - deps))).
    destruct HL as [[H ->]|[H ->]].
    - rewrite Rltb_true by exact H. reflexivity.
    - rewrite Rltb_false by lra. rewrite Rltb_true by exact H. reflexivity. }
  assert (cM : c * M = sca_0 (spinSca S)) by (rewrite HcS; field; lra). split; intros H; apply HL.
  - left. split; [apply (Rmult_lt_reg_r M); lra|]. apply f_equal, (den_inj TSpin). intro k; dblade k; dring.
  - right. split; [apply (Rmult_lt_reg_r M); lra|]. unfold direction. rewrite pairMagDir_exact, Rltb_true by exact Hp. rewrite turnHalf_exact. reflexivity.
Qed.

Lemma turner_parallel : forall (a b : Vector R) (plane : BiVector R), let M := cnorm (den TVec a) * cnorm (den TVec b) in
  4 * deps <= M -> (1 - deps) * M < dot a b -> tiny < cnorm (den TBiv plane) ->
  turner (exact TVec a) (exact TVec b) (exact TBiv plane) = exact TSpin (mkSpin (Sca (sqrt M)) (zero TBiv)).
Proof.
  intros a b plane M HM HD HP. pose proof deps_pos as Hd0. unfold turner. rewrite (mul_exact TVec TVec).
  pose proof (ba_norm a b) as N. pose proof (ba_sca a b) as Sc. fold M in N.
  destruct (log_branches (mul TVec TVec b a) plane) as [L _]; [rewrite N; lra|exact HP|].
  assert (L' := L ltac:(rewrite N, Sc; exact HD)).
  assert (E1 : cnorm (den TBiv (c_e23 : BiVector R)) = 1) by (unfold cnorm; replace (cnorm2 _) with 1 by dring; apply sqrt_1).
  etransitivity; [apply (sqrt_of_log (mul TVec TVec b a) plane 0 c_e23); [rewrite N; exact HM|exact E1|left; reflexivity|exact L']|].
  f_equal. rewrite N. replace (0 / 2) with 0 by field. rewrite cos_0, sin_0. dcbv. f_equal; f_equal; f_equal; ring.
Qed.
Lemma turner_opposite : forall (a b : Vector R) (plane : BiVector R), let M := cnorm (den TVec a) * cnorm (den TVec b) in
  4 * deps <= M -> dot a b < - (1 - deps) * M -> tiny < cnorm (den TBiv plane) ->
  turner (exact TVec a) (exact TVec b) (exact TBiv plane) = exact TSpin (scale TSpin (sqrt M)
    (rotor (cos (pi53 / 2)) (sin (pi53 / 2)) (scale TBiv (1 / cnorm (den TBiv plane)) plane))).
Proof.
  intros a b plane M HM HD HP. pose proof deps_pos as Hd0. pose proof tiny_pos as Ht. unfold turner. rewrite (mul_exact TVec TVec).
  pose proof (ba_norm a b) as N. pose proof (ba_sca a b) as Sc. fold M in N.
  destruct (log_branches (mul TVec TVec b a) plane) as [_ L]; [rewrite N; lra|exact HP|].
  assert (L' := L ltac:(rewrite N, Sc; exact HD)).
  etransitivity; [apply (sqrt_of_log (mul TVec TVec b a) plane pi53 (scale TBiv (1 / cnorm (den TBiv plane)) plane)); [rewrite N; exact HM| | |exact L']|rewrite N; reflexivity].
  - rewrite (cnorm_ceq _ _ (scale_den TBiv _ plane)), cnorm_scale, Rabs_pos_eq; [field; lra|]. unfold Rdiv. rewrite Rmult_1_l. left. apply Rinv_0_lt_compat. lra.
  - right. pose proof tiny_small. unfold pi53. lra.
Qed.

(** ** Where the vectors go *)
Lemma norm_bound : forall x k y, 0 <= k -> 0 <= y -> cnorm2 x <= k * k * (y * y) -> cnorm x <= k * y.
Proof.
  intros x k y Hk Hy H. unfold cnorm. rewrite <- (sqrt_square (k * y)) by (apply Rmult_le_pos; assumption). apply sqrt_le_1_alt. lra.
Qed.
Lemma parallel_sandwich : forall M (a : Vector R), 0 <= M ->
  ceq (den TImsp (sandwich (mkSpin (Sca (sqrt M)) (zero TBiv)) a)) (den TVec (vtimes M a)).
Proof.
  intros M a HM. pose proof (sqrt_sqrt M HM) as Q. set (g := sqrt M) in *. clearbody g. subst M. destruct a as [[a0 a1 a2]]. intros k. dblade k; dcbv; ring.
Qed.
Lemma along : forall e (a b : Vector R), let M := cnorm (den TVec a) * cnorm (den TVec b) in
  e * e = 1 -> (1 - deps) * M < e * dot a b ->
  cnorm (csub (den TVec (vtimes (e * M) a)) (den TVec (vtimes (dot a a) b))) <= 3 / 134217728 * (M * cnorm (den TVec a)).
Proof.
  intros e a b M He HD. assert (M2 : M * M = dot a a * dot b b).
  { unfold M. rewrite <- !vec_norm2, <- !cnorm_sq. ring. }
  assert (M0 : 0 <= M) by (apply Rmult_le_pos; apply cnorm_nonneg). pose proof (cnorm_nonneg (den TVec a)) as A0.
  assert (A2 : cnorm (den TVec a) * cnorm (den TVec a) = dot a a) by (rewrite cnorm_sq; apply vec_norm2).
  apply norm_bound; [lra|apply Rmult_le_pos; assumption|].
  replace (cnorm2 _) with (2 * (M * dot a a) * (M - e * dot a b)).
  - replace (M * cnorm (den TVec a) * (M * cnorm (den TVec a))) with (M * M * dot a a) by (rewrite <- A2; ring).
    assert (Z : 0 <= M * dot a a) by (rewrite <- A2; apply Rmult_le_pos; [exact M0|apply Rmult_le_pos; exact A0]).
    apply Rle_trans with (2 * (M * dot a a) * (deps * M)); [apply Rmult_le_compat_l; lra|].
    assert (Z2 : 0 <= M * M * dot a a) by (rewrite Rmult_assoc; apply Rmult_le_pos; assumption). rewrite deps_val. lra.
  - transitivity (e * e * (M * M) * dot a a - 2 * (e * M) * dot a a * dot a b + dot a a * (dot a a * dot b b)).
    + rewrite <- M2, He. ring.
    + clear. clearbody M. destruct a as [[a0 a1 a2]], b as [[b0 b1 b2]]. unfold cnorm2. dcbv. ring.
Qed.

(** The half turn, up to the error of the constant for pi. *)
Lemma half_turn : forall M C S (d : BiVector R) (a : Vector R), 0 <= M -> C * C + S * S = 1 -> dot (axis d) (axis d) = 1 ->
  cnorm2 (csub (den TImsp (sandwich (scale TSpin (sqrt M) (rotor C S d)) a)) (cadd (den TVec (vtimes (- M) a)) (den TVec (vtimes (2 * M * dot a (axis d)) (axis d))))) =
  4 * (C * C) * (M * M) * (dot a a - dot a (axis d) * dot a (axis d)).
Proof.
  intros M C S d a HM HC Hd.
  assert (E : ceq (csub (den TImsp (sandwich (scale TSpin (sqrt M) (rotor C S d)) a)) (cadd (den TVec (vtimes (- M) a)) (den TVec (vtimes (2 * M * dot a (axis d)) (axis d)))))
    (den TVec (vtimes (2 * (C * M)) (vplus (vtimes C (vplus a (vtimes (- dot a (axis d)) (axis d))))
       (vtimes S (Vec (biv_2 d * vec_1 a - biv_1 d * vec_2 a) (biv_0 d * vec_2 a - biv_2 d * vec_0 a) (biv_1 d * vec_0 a - biv_0 d * vec_1 a))))))).
  { pose proof (sqrt_sqrt M HM) as Q. set (g := sqrt M) in *. clearbody g. subst M. clear HM. revert HC Hd. destruct d as [[x y z]], a as [[a0 a1 a2]]. intros HC Hd k. revert HC Hd.
    dblade k; dcbv; intros HC Hd; try ring.
    all: apply Rminus_diag_uniq; first [transitivity (g * g * (a0 * (1 - (C * C + S * S)) + a0 * (S * S) * (1 - (x * x + y * y + z * z)) + 2 * (a0 * x + a1 * y + a2 * z) * x * (C * C + S * S - 1))); [ring|rewrite HC, Hd; ring]
      |transitivity (g * g * (a1 * (1 - (C * C + S * S)) + a1 * (S * S) * (1 - (x * x + y * y + z * z)) + 2 * (a0 * x + a1 * y + a2 * z) * y * (C * C + S * S - 1))); [ring|rewrite HC, Hd; ring]
      |transitivity (g * g * (a2 * (1 - (C * C + S * S)) + a2 * (S * S) * (1 - (x * x + y * y + z * z)) + 2 * (a0 * x + a1 * y + a2 * z) * z * (C * C + S * S - 1))); [ring|rewrite HC, Hd; ring]].
  }
  rewrite (cnorm2_ceq _ _ E). clear E. pose (T := C * C + S * S). pose (N := dot (axis d) (axis d)).
  transitivity (4 * (C * C) * (M * M) * (C * C * (dot a a - 2 * (dot a (axis d) * dot a (axis d)) + dot a (axis d) * dot a (axis d) * N) + S * S * (dot a a * N - dot a (axis d) * dot a (axis d)))).
  - unfold N. clear. destruct d as [[x y z]], a as [[a0 a1 a2]]. unfold cnorm2. dcbv. ring.
  - unfold N. rewrite Hd. transitivity (4 * (C * C) * (M * M) * (dot a a - dot a (axis d) * dot a (axis d)) * (C * C + S * S)); [ring|]. rewrite HC. ring.
Qed.
Lemma half_pi : 0 <= cos (pi53 / 2) <= / 9007199254740992.
Proof.
  pose proof pi53_bounds as [H1 H2]. rewrite <- sin_shift. replace (PI / 2 - pi53 / 2) with ((PI - pi53) / 2) by field.
  split; [pose proof PI_RGT_0; pose proof PI2_1; apply sin_ge_0; lra|]. pose proof (sin_lt_x ((PI - pi53) / 2) ltac:(lra)). lra.
Qed.
Lemma unit_plane : forall plane : BiVector R, 0 < cnorm (den TBiv plane) -> let d := scale TBiv (1 / cnorm (den TBiv plane)) plane in
  dot (axis d) (axis d) = 1 /\ forall a, vtimes (dot a (axis d)) (axis d) = normal_part plane a.
Proof.
  intros plane HP. pose proof (cnorm_sq (den TBiv plane)) as Q. set (m := cnorm (den TBiv plane)) in *. clearbody m.
  assert (E : m * m = dot (axis plane) (axis plane)). { rewrite Q. clear. destruct plane as [[x y z]]. unfold cnorm2. dcbv. ring. }
  clear Q. cbv zeta. split.
  - transitivity (dot (axis plane) (axis plane) / (m * m)); [|rewrite <- E; field; lra]. clear E. destruct plane as [[x y z]]. dcbv. field. lra.
  - intros a. unfold normal_part. rewrite <- E. clear E. destruct plane as [[x y z]], a as [[a0 a1 a2]]. dcbv. f_equal. f_equal; field; lra.
Qed.

Lemma turner_small : forall (a b : Vector R) (plane : BiVector xreal), cnorm (den TVec a) * cnorm (den TVec b) < 4 * deps ->
  turner (exact TVec a) (exact TVec b) plane = exact TSpin (zero TSpin).
Proof. intros a b plane H. unfold turner. rewrite (mul_exact TVec TVec). apply (sqrtG2_small (mul TVec TVec b a)). rewrite ba_norm. exact H. Qed.

Theorem turning : forall (a b : Vector R) (plane : BiVector R), let M := cnorm (den TVec a) * cnorm (den TVec b) in
  4 * deps <= M -> tiny < cnorm (den TBiv plane) ->
  exists q, turner (exact TVec a) (exact TVec b) (exact TBiv plane) = exact TSpin q /\ cnorm2 (den TSpin q) = M /\
    (Rabs (dot a b) <= (1 - deps) * M -> turns q a b /\
       ceq (cscale (sqrt (2 * (M + dot a b))) (den TSpin q)) (cadd (cscale M cone) (gp (den TVec b) (den TVec a))) /\
       forall r, turns r a b -> Rabs (sca_0 (spinSca r)) <= sca_0 (spinSca q) /\
         (Rabs (sca_0 (spinSca r)) = sca_0 (spinSca q) -> r = q \/ r = neg TSpin q)) /\
    (- (1 - deps) * M <= dot a b ->
       cnorm (csub (den TImsp (sandwich q a)) (den TVec (vtimes (dot a a) b))) <= branch_error * (M * cnorm (den TVec a))) /\
    (dot a b < - (1 - deps) * M ->
       cnorm (csub (den TImsp (sandwich q a)) (cadd (den TVec (vtimes (dot a a) b)) (den TVec (vtimes (2 * M) (normal_part plane a))))) <=
         branch_error * (M * cnorm (den TVec a))).
Proof.
  intros a b plane M HM HP. pose proof deps_pos as Hd0. pose proof deps_val as Vd. pose proof tiny_pos as Ht.
  assert (M0 : 0 < M) by lra. pose proof (cnorm_nonneg (den TVec a)) as A0.
  assert (MA : 0 <= M * cnorm (den TVec a)) by (apply Rmult_le_pos; lra).
  assert (dM : 0 < deps * M <= / 2 * M) by (split; [apply Rmult_lt_0_compat; lra|apply Rmult_le_compat_r; lra]).
  destruct (Rlt_le_dec ((1 - deps) * M) (dot a b)) as [H1|H1]; [|destruct (Rlt_le_dec (dot a b) (- (1 - deps) * M)) as [H2|H2]].
  - exists (mkSpin (Sca (sqrt M)) (zero TBiv)). split; [apply turner_parallel; assumption|]. split; [|split; [|split]].
    + transitivity (sqrt M * sqrt M); [unfold cnorm2; dcbv; ring|apply sqrt_sqrt; lra].
    + intros X. pose proof (Rabs_le_inv _ _ X). lra.
    + intros _. rewrite (cnorm_ceq _ (csub (den TVec (vtimes (1 * M) a)) (den TVec (vtimes (dot a a) b)))).
      * eapply Rle_trans; [apply (along 1 a b); fold M; lra|]. fold M. unfold branch_error. apply Rmult_le_compat_r; [exact MA|lra].
      * rewrite parallel_sandwich by lra. rewrite Rmult_1_l. apply ceq_refl.
    + intros X. lra.
  - set (d := scale TBiv (1 / cnorm (den TBiv plane)) plane). destruct (unit_plane plane ltac:(lra)) as [U1 U2]. fold d in U1, U2.
    exists (scale TSpin (sqrt M) (rotor (cos (pi53 / 2)) (sin (pi53 / 2)) d)). split; [apply turner_opposite; assumption|].
    assert (CS : cos (pi53 / 2) * cos (pi53 / 2) + sin (pi53 / 2) * sin (pi53 / 2) = 1) by (pose proof (sin2_cos2 (pi53 / 2)) as Q; unfold Rsqr in Q; lra).
    split; [|split; [|split]].
    + rewrite (cnorm2_ceq _ _ (scale_den TSpin _ _)), cnorm2_scale, sqrt_sqrt by lra.
      transitivity (M * (cos (pi53 / 2) * cos (pi53 / 2) + sin (pi53 / 2) * sin (pi53 / 2) * dot (axis d) (axis d))); [|rewrite U1, Rmult_1_r, CS; ring].
      f_equal. generalize (cos (pi53 / 2)) (sin (pi53 / 2)) d. clear. intros c s [[x y z]]. unfold cnorm2. dcbv. ring.
    + intros X. pose proof (Rabs_le_inv _ _ X). lra.
    + intros X. lra.
    + intros _. pose proof (half_turn M (cos (pi53 / 2)) (sin (pi53 / 2)) d a ltac:(lra) CS U1) as HT.
      set (R := den TImsp (sandwich (scale TSpin (sqrt M) (rotor (cos (pi53 / 2)) (sin (pi53 / 2)) d)) a)) in *.
      rewrite (cnorm_ceq _ (cadd (csub R (cadd (den TVec (vtimes (- M) a)) (den TVec (vtimes (2 * M * dot a (axis d)) (axis d)))))
                                 (csub (den TVec (vtimes (-1 * M) a)) (den TVec (vtimes (dot a a) b))))).
      * eapply Rle_trans; [apply cnorm_triangle|]. pose proof (along (-1) a b ltac:(lra) ltac:(fold M; lra)) as AL. fold M in AL.
        assert (H : cnorm (csub R (cadd (den TVec (vtimes (- M) a)) (den TVec (vtimes (2 * M * dot a (axis d)) (axis d))))) <= / 4503599627370496 * (M * cnorm (den TVec a))).
        { apply norm_bound; [lra|exact MA|]. rewrite HT. destruct half_pi as [C0 C1].
          assert (A2 : cnorm (den TVec a) * cnorm (den TVec a) = dot a a) by (rewrite cnorm_sq; apply vec_norm2).
          replace (M * cnorm (den TVec a) * (M * cnorm (den TVec a))) with (M * M * dot a a) by (rewrite <- A2; ring).
          pose proof (Rle_0_sqr (dot a (axis d))) as S0. unfold Rsqr in S0.
          assert (MM : 0 <= M * M) by (apply Rmult_le_pos; lra).
          assert (M3 : 0 <= M * M * dot a a) by (rewrite <- A2; apply Rmult_le_pos; [exact MM|apply Rmult_le_pos; exact A0]).
          assert (C2 : cos (pi53 / 2) * cos (pi53 / 2) <= / 9007199254740992 * / 9007199254740992) by (apply Rmult_le_compat; assumption).
          assert (CC : 0 <= cos (pi53 / 2) * cos (pi53 / 2)) by (apply Rmult_le_pos; assumption).
          apply Rle_trans with (4 * (cos (pi53 / 2) * cos (pi53 / 2)) * (M * M) * dot a a).
          - apply Rmult_le_compat_l; [|lra]. apply Rmult_le_pos; lra.
          - apply Rle_trans with (4 * (/ 9007199254740992 * / 9007199254740992) * (M * M * dot a a)); [|lra].
            rewrite Rmult_assoc. apply Rmult_le_compat_r; lra. }
        unfold branch_error. lra.
      * rewrite <- U2. clear. generalize (dot a a) (dot a (axis d)) (axis d). intros p t n. clearbody R. clearbody M. destruct a as [[a0 a1 a2]], b as [[b0 b1 b2]], n as [[n0 n1 n2]].
        intros k. unfold csub, cadd. generalize (R k). intros v. dblade k; dcbv; ring.
  - assert (HD : Rabs (dot a b) <= (1 - deps) * M) by (apply Rabs_le; lra). assert (P : 0 < M + dot a b) by lra.
    pose proof (halfway_turns a b P) as HT. exists (halfway a b). split; [apply turner_form; assumption|]. split; [exact (proj1 HT)|]. split; [|split].
    + intros _. split; [exact HT|]. split.
      * unfold halfway. fold M. rewrite (scale_den TSpin). intros k. unfold cscale. rewrite <- Rmult_assoc, Rinv_r; [|apply Rgt_not_eq, sqrt_lt_R0; lra]. rewrite Rmult_1_l.
        unfold cadd. clearbody M. clear. destruct a as [[a0 a1 a2]], b as [[b0 b1 b2]]. dblade k; dcbv; ring.
      * intros r Hr. apply turns_shorter; [exact M0| |exact Hr]. fold M. lra.
    + intros _. rewrite (cnorm_ceq _ czero); [rewrite cnorm_zero; unfold branch_error; apply Rmult_le_pos; lra|].
      destruct HT as [_ T]. rewrite T. intros k. unfold csub, czero. ring.
    + intros X. lra.
Qed.

(** Opposite vectors along the normal of the plane stay where they are. *)
Lemma normal_stays : forall M C S (d : BiVector R) t, 0 <= M -> C * C + S * S = 1 -> dot (axis d) (axis d) = 1 ->
  ceq (den TImsp (sandwich (scale TSpin (sqrt M) (rotor C S d)) (vtimes t (axis d)))) (den TVec (vtimes (M * t) (axis d))).
Proof.
  intros M C S d t HM HC Hd. pose proof (sqrt_sqrt M HM) as Q. set (g := sqrt M) in *. clearbody g. subst M. clear HM. revert HC Hd. destruct d as [[x y z]]. intros HC Hd k. revert HC Hd.
  dblade k; dcbv; intros HC Hd; try ring.
  - transitivity (g * g * t * x * (C * C + S * S * (x * x + y * y + z * z))); [ring|]. rewrite Hd, Rmult_1_r, HC. ring.
  - transitivity (g * g * t * y * (C * C + S * S * (x * x + y * y + z * z))); [ring|]. rewrite Hd, Rmult_1_r, HC. ring.
  - transitivity (g * g * t * z * (C * C + S * S * (x * x + y * y + z * z))); [ring|]. rewrite Hd, Rmult_1_r, HC. ring.
Qed.
Lemma stays : forall (plane : BiVector R) t k, let a := vtimes t (axis plane) in let b := vtimes (- k) a in
  0 < k -> 4 * deps <= cnorm (den TVec a) * cnorm (den TVec b) -> tiny < cnorm (den TBiv plane) ->
  exists q, turner (exact TVec a) (exact TVec b) (exact TBiv plane) = exact TSpin q /\
    ceq (den TImsp (sandwich q a)) (den TVec (vtimes (- dot a a) b)).
Proof.
  intros plane t k a b Hk HM HP. pose proof deps_pos as Hd0. pose proof tiny_pos as Ht. set (M := cnorm (den TVec a) * cnorm (den TVec b)) in *.
  assert (D : dot a b = - k * dot a a) by (unfold b; generalize a; clear; intros [[a0 a1 a2]]; dcbv; ring).
  assert (EM : M = k * dot a a).
  { unfold M. rewrite (cnorm_ceq (den TVec b) (cscale (- k) (den TVec a))).
    - rewrite cnorm_scale, Rabs_Ropp, Rabs_pos_eq by lra. rewrite <- vec_norm2, <- cnorm_sq. ring.
    - unfold b. generalize a. clear. intros [[a0 a1 a2]] j. dblade j; dcbv; ring. }
  set (m := cnorm (den TBiv plane)). set (d := scale TBiv (1 / m) plane). destruct (unit_plane plane ltac:(lra)) as [U1 _]. fold m in U1. fold d in U1.
  assert (CS : cos (pi53 / 2) * cos (pi53 / 2) + sin (pi53 / 2) * sin (pi53 / 2) = 1) by (pose proof (sin2_cos2 (pi53 / 2)) as Q; unfold Rsqr in Q; lra).
  exists (scale TSpin (sqrt M) (rotor (cos (pi53 / 2)) (sin (pi53 / 2)) d)). split.
  - apply turner_opposite; [exact HM| |exact HP]. fold M. assert (0 < deps * M) by (apply Rmult_lt_0_compat; lra). lra.
  - assert (Ea : a = vtimes (t * m) (axis d)).
    { unfold a, d. assert (m0 : m <> 0) by (fold m in HP; lra). clearbody m. clear - m0. destruct plane as [[x y z]]. dcbv. f_equal. f_equal; field; exact m0. }
    rewrite Ea at 1. rewrite normal_stays by (lra || assumption). rewrite EM. unfold b. replace (vtimes (k * dot a a * (t * m)) (axis d)) with (vtimes (k * dot a a) a).
    + generalize (dot a a) a. clear. intros p [[a0 a1 a2]] j. dblade j; dcbv; ring.
    + generalize (dot a a). intros p. rewrite Ea. generalize (axis d). clear. intros [[n0 n1 n2]]. dcbv. f_equal. f_equal; ring.
Qed.
