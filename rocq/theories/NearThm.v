(** * Nearby arguments give nearby results: the functions (proofs only). *)

Require Import Reals ZArith Lra Lia List Bool.
From Flocq Require Import Core.
Require Import Verif.Num Verif.Types Verif.Priv Verif.OpsUni Verif.OpsAdd Verif.OpsSub Verif.OpsMul Verif.Const
  Verif.Validity Verif.Compare Verif.Func Verif.SpecCl Verif.SpecExp Verif.SpecFunc Verif.RealInst Verif.AlgTac Verif.AlgMul
  Verif.AlgFacts Verif.AlgSpec Verif.AlgThm Verif.FuncFacts Verif.FuncThm Verif.ExpFacts Verif.ExpThm Verif.LogThm Verif.SpecPrin Verif.PrinFacts Verif.SpecNear Verif.NearFacts.
Local Open Scope R_scope.

(** ** Exponentials *)
Lemma unit_e12 : cnorm (den TBiv (c_e12 : BiVector R)) = 1.
Proof. unfold cnorm. replace (cnorm2 _) with 1 by dring. apply sqrt_1. Qed.
Lemma exp_polar : forall B : BiVector R, nontiny B -> exists th d, cnorm (den TBiv d) = 1 /\ B = scale TBiv th d /\
  exp_Biv (exact TBiv B) = exact TSpin (polar (cos th) (sin th) d).
Proof.
  intros B [Z|H].
  - exists 0, c_e12. split; [exact unit_e12|]. split; [subst B; apply (den_inj TBiv); intro k; dblade k; dring|].
    rewrite exp_Biv_exact, Z. replace (cnorm (den TBiv (zero TBiv))) with 0.
    + pose proof tiny_pos. rewrite Rltb_false by lra. f_equal. unfold rotor, polar. rewrite cos_0, sin_0. f_equal. apply (den_inj TBiv). intro k. dblade k; dring.
    + symmetry. unfold cnorm. replace (cnorm2 _) with 0 by dring. apply sqrt_0.
  - pose proof tiny_pos. set (m := cnorm (den TBiv B)) in *. exists m, (scale TBiv (/ m) B). split; [|split].
    + rewrite (cnorm_ceq _ _ (scale_den TBiv (/ m) B)), cnorm_scale. fold m. rewrite Rabs_pos_eq; [field; lra|apply Rlt_le, Rinv_0_lt_compat; lra].
    + apply (den_inj TBiv). intro k. rewrite !(scale_den TBiv _ _ k). unfold cscale. rewrite (scale_den TBiv _ _ k). unfold cscale. field. lra.
    + rewrite exp_Biv_exact. fold m. rewrite Rltb_true by exact H. f_equal. unfold rotor, polar. f_equal. apply (den_inj TBiv). intro k.
      rewrite !(scale_den TBiv _ _ k). unfold cscale. rewrite (scale_den TBiv _ _ k). unfold cscale, sinc. destruct (Req_EM_T m 0); [lra|]. field. lra.
Qed.
Lemma exp_numbers : forall a b x y c, -1 <= c <= 1 -> let P := exp a in let Q := exp b in let K := Rmax P Q in
  (P * cos x - Q * cos y) * (P * cos x - Q * cos y) + P * sin x * (P * sin x) + Q * sin y * (Q * sin y) - 2 * (P * sin x) * (Q * sin y) * c <=
  K * K * ((a - b) * (a - b) + x * x + y * y - 2 * x * y * c).
Proof.
  intros a b x y c Hc P Q K.
  assert (W : forall z, (P - Q) * (P - Q) + P * Q * (2 * (1 - cos z)) <= K * K * ((a - b) * (a - b) + z * z)).
  { intros z. pose proof (exp_gap a b) as G. fold P Q K in G. pose proof (chord_le z) as C. pose proof (exp_pos a) as HP. pose proof (exp_pos b) as HQ. fold P in HP. fold Q in HQ.
    pose proof (Rmax_l P Q) as KP. pose proof (Rmax_r P Q) as KQ. fold K in KP, KQ. assert (0 <= 2 * (1 - cos z)) by (pose proof (COS_bound z); lra).
    assert (PQ : P * Q <= K * K) by (apply Rmult_le_compat; lra).
    assert (P * Q * (2 * (1 - cos z)) <= K * K * (z * z)) by (apply Rmult_le_compat; try lra; apply Rmult_le_pos; lra). lra. }
  pose proof (W (x - y)) as W1. rewrite <- plane_gap in W1. pose proof (W (x - - y)) as W2. rewrite <- plane_gap in W2. rewrite cos_neg, sin_neg in W2.
  apply Rminus_le. set (p := P * sin x) in *. set (q := Q * sin y) in *. set (g := (P * cos x - Q * cos y) * (P * cos x - Q * cos y)) in *.
  assert (W3 : g + (p + q) * (p + q) <= K * K * ((a - b) * (a - b) + (x + y) * (x + y))).
  { replace (p + q) with (p - Q * - sin y) by (unfold q; ring). replace (x + y) with (x - - y) by ring. exact W2. }
  replace (g + p * p + q * q - 2 * p * q * c - K * K * ((a - b) * (a - b) + x * x + y * y - 2 * x * y * c))
    with ((g + p * p + q * q - K * K * ((a - b) * (a - b) + x * x + y * y)) + (- (2 * p * q) + K * K * (2 * x * y)) * c) by ring.
  apply ends; [exact Hc| |]; [apply Rle_minus in W1|apply Rle_minus in W3]; lra.
Qed.
Lemma near_exp_spinor : forall S T : Spinor R, nontiny (spinBiv S) -> nontiny (spinBiv T) ->
  returns_within TSpin (exp_Spin (exact TSpin S)) (exp_Spin (exact TSpin T)) (exp (Rmax (sca_0 (spinSca S)) (sca_0 (spinSca T))) * apart TSpin S T).
Proof.
  intros S T HS HT. destruct (exp_polar _ HS) as (x & d & Hd & Ed & Xd). destruct (exp_polar _ HT) as (y & d' & Hd' & Ed' & Xd').
  set (a := sca_0 (spinSca S)). set (b := sca_0 (spinSca T)).
  exists (polar (exp a * cos x) (exp a * sin x) d), (polar (exp b * cos y) (exp b * sin y) d').
  assert (F : forall r u v (e : BiVector R), scale TSpin r (polar u v e) = polar (r * u) (r * v) e).
  { intros r u v [[e1 e2 e3]]. apply (den_inj TSpin). intro k. dblade k; cbv -[Rplus Rminus Rmult Ropp R R0 R1 IZR]; ring. }
  split; [rewrite (exp_Spin_exact S _ Xd), F; reflexivity|]. split; [rewrite (exp_Spin_exact T _ Xd'), F; reflexivity|].
  assert (K : exp (Rmax a b) = Rmax (exp a) (exp b)).
  { destruct (Rle_dec a b) as [H|H].
    - rewrite (Rmax_right a b H). symmetry. apply Rmax_right. destruct H as [H|H]; [left; apply exp_increasing, H|rewrite H; lra].
    - rewrite (Rmax_left a b) by lra. symmetry. apply Rmax_left. left. apply exp_increasing. lra. }
  assert (ES : S = polar a x d) by (unfold polar, a; rewrite <- Ed; destruct S as [[[s]] e]; reflexivity).
  assert (ET : T = polar b y d') by (unfold polar, b; rewrite <- Ed'; destruct T as [[[s]] e]; reflexivity).
  apply le_of_squares; [apply Rmult_le_pos; [left; apply exp_pos|apply apart_pos]|].
  replace (exp (Rmax a b) * apart TSpin S T * (exp (Rmax a b) * apart TSpin S T)) with (exp (Rmax a b) * exp (Rmax a b) * (apart TSpin S T * apart TSpin S T)) by ring.
  rewrite !apart2, ES, ET, !polar_apart by assumption. rewrite K. apply exp_numbers, unit_cdot; assumption.
Qed.
Lemma near_exp_bivector : forall A B : BiVector R, nontiny A -> nontiny B ->
  returns_within TSpin (exp_Biv (exact TBiv A)) (exp_Biv (exact TBiv B)) (apart TBiv A B).
Proof.
  intros A B HA HB. destruct (near_exp_spinor (mkSpin (Sca 0) A) (mkSpin (Sca 0) B) HA HB) as (x & y & X & Y & H).
  destruct (exp_polar _ HA) as (u & d & _ & _ & Xd). destruct (exp_polar _ HB) as (v & d' & _ & _ & Xd').
  assert (F : forall e : Spinor R, scale TSpin (exp 0) e = e). { intros [[[s]] [[e1 e2 e3]]]. rewrite exp_0. apply (den_inj TSpin). intro k. dblade k; dring. }
  rewrite (exp_Spin_exact (mkSpin (Sca 0) A) _ Xd) in X. rewrite (exp_Spin_exact (mkSpin (Sca 0) B) _ Xd') in Y.
  change (sca_0 (spinSca (mkSpin (Sca 0) ?z))) with 0 in *. rewrite F in X, Y. apply exact_inj in X, Y. subst x y.
  eexists _, _. split; [exact Xd|]. split; [exact Xd'|]. eapply Rle_trans; [exact H|]. rewrite Rmax_left, exp_0, Rmult_1_l by lra. right.
  unfold apart. apply cnorm_ceq. intro k. destruct A as [[a1 a2 a3]], B as [[b1 b2 b3]]. dblade k; dring.
Qed.

(** ** Logarithms and roots *)
Lemma polar_of : forall (S : Spinor R) (plane : BiVector R), let M := cnorm (den TSpin S) in
  deps < M -> Rabs (sca_0 (spinSca S)) <= (1 - deps) * M -> tiny < cnorm (den TBiv plane) ->
  exists th d, cnorm (den TBiv d) = 1 /\ 0 < th < PI /\ S = polar (M * cos th) (M * sin th) d /\
    logG2 (exact TSpin S) (exact TBiv plane) = exact TSpin (polar (ln M) th d) /\
    (4 * deps <= M -> sqrtG2 (exact TSpin S) (exact TBiv plane) = exact TSpin (polar (sqrt M * cos (th / 2)) (sqrt M * sin (th / 2)) d)).
Proof.
  intros S plane M HM HS HP. pose proof deps_pos as Hd0. destruct (log_polar S plane HM HS HP) as (th & d & HL & Hd & Hth & E). fold M in HL, E. exists th, d.
  assert (F : forall r u v (e : BiVector R), ceq (cscale r (den TSpin (rotor u v e))) (den TSpin (polar (r * u) (r * v) e))).
  { intros r u v [[e1 e2 e3]] k. dblade k; cbv -[Rplus Rminus Rmult Ropp R R0 R1 IZR]; ring. }
  assert (ES : S = polar (M * cos th) (M * sin th) d) by (apply (den_inj TSpin); eapply ceq_trans; [exact E|apply F]).
  split; [exact Hd|]. split; [exact Hth|]. split; [exact ES|]. split; [exact HL|]. intros H4.
  destruct (all_roots S plane H4 HS HP) as (q & Hq & Pq & A). fold M in A. set (r := polar (sqrt M * cos (th / 2)) (sqrt M * sin (th / 2)) d).
  assert (Pr : 0 < sca_0 (spinSca r)). { change (0 < sqrt M * cos (th / 2)). apply Rmult_lt_0_compat; [apply sqrt_lt_R0; lra|apply cos_gt_0; lra]. }
  assert (R : is_root r S).
  { unfold is_root. rewrite ES. assert (D2 : cnorm2 (den TBiv d) = 1) by (rewrite <- cnorm_sq, Hd; ring).
    assert (SQ : sqrt M * sqrt M = M) by (apply sqrt_sqrt; lra).
    assert (E0 : polar (M * cos th) (M * sin th) d = polar (sqrt M * sqrt M * (cos (th / 2) * cos (th / 2) - sin (th / 2) * sin (th / 2))) (sqrt M * sqrt M * (2 * sin (th / 2) * cos (th / 2))) d).
    { rewrite SQ, <- cos_2a, <- sin_2a. replace (2 * (th / 2)) with th by field. reflexivity. }
    rewrite E0. unfold r. clear - D2.
    generalize (sqrt M), (cos (th / 2)), (sin (th / 2)). intros p c s. revert D2. unfold polar. destruct d as [[x y z]]. intros D2.
    assert (D3 : x * x + y * y + z * z = 1) by (rewrite <- D2; cbv -[Rplus Rminus Rmult Ropp R R0 R1 IZR]; ring). clear D2. intro k.
    dblade k; cbv -[Rplus Rminus Rmult Ropp R R0 R1 IZR]; try ring. transitivity (p * p * (c * c - s * s * (x * x + y * y + z * z))); [ring|]. rewrite D3. ring. }
  apply A in R. destruct R as [R|R]; [rewrite Hq, <- R; reflexivity|]. exfalso. rewrite R in Pr.
  assert (sca_0 (spinSca (neg TSpin q)) = - sca_0 (spinSca q)) by (destruct q as [[[s]] [[q1 q2 q3]]]; reflexivity). lra.
Qed.
Lemma half_range : forall M th, 0 < M -> 0 < th < PI -> 0 <= M * cos th -> th <= PI / 2.
Proof. intros M th HM H C. destruct (Rle_dec th (PI / 2)) as [K|K]; [exact K|]. assert (cos th < 0) by (apply cos_lt_0; lra). nra. Qed.
Lemma log_numbers : forall M N m x y c, -1 <= c <= 1 -> 0 < m -> m <= M -> m <= N -> 0 < x <= PI / 2 -> 0 < y <= PI / 2 ->
  m * m * ((ln M - ln N) * (ln M - ln N) + x * x + y * y - 2 * x * y * c) <=
  PI / 2 * (PI / 2) * ((M * cos x - N * cos y) * (M * cos x - N * cos y) + M * sin x * (M * sin x) + N * sin y * (N * sin y) - 2 * (M * sin x) * (N * sin y) * c).
Proof.
  intros M N m x y c Hc Hm HM HN Hx Hy. pose proof PI_RGT_0 as HP. pose proof PI2_1 as H2.
  set (k := PI / 2 * (PI / 2)). assert (Hk : 1 <= k) by (unfold k; nra).
  assert (W : forall z, Rabs z <= PI -> m * m * ((ln M - ln N) * (ln M - ln N) + z * z) <= k * ((M - N) * (M - N) + M * N * (2 * (1 - cos z)))).
  { intros z Hz. pose proof (ln_gap M N m Hm HM HN) as G. pose proof (chord_ge z Hz) as C. assert (C2 : z * z <= k * (2 * (1 - cos z))) by (unfold k; lra).
    assert (MN : m * m <= M * N) by (apply Rmult_le_compat; lra). assert (0 <= z * z) by (apply Rle_0_sqr). assert (0 < m * m) by (apply Rmult_lt_0_compat; lra).
    assert (A : m * m * (z * z) <= M * N * (k * (2 * (1 - cos z)))) by (apply Rmult_le_compat; lra).
    assert (B : (M - N) * (M - N) <= k * ((M - N) * (M - N))) by (assert (0 <= (M - N) * (M - N)) by (apply Rle_0_sqr); nra). lra. }
  pose proof (W (x - y) ltac:(apply Rabs_le; lra)) as W1. rewrite <- plane_gap in W1. pose proof (W (x - - y) ltac:(apply Rabs_le; lra)) as W2. rewrite <- plane_gap in W2. rewrite cos_neg, sin_neg in W2.
  apply Rminus_le. set (p := M * sin x) in *. set (q := N * sin y) in *. set (g := (M * cos x - N * cos y) * (M * cos x - N * cos y)) in *. set (l := (ln M - ln N) * (ln M - ln N)) in *.
  assert (W3 : m * m * (l + (x + y) * (x + y)) <= k * (g + (p + q) * (p + q))).
  { replace (p + q) with (p - N * - sin y) by (unfold q; ring). replace (x + y) with (x - - y) by ring. exact W2. }
  replace (m * m * (l + x * x + y * y - 2 * x * y * c) - k * (g + p * p + q * q - 2 * p * q * c))
    with ((m * m * (l + x * x + y * y) - k * (g + p * p + q * q)) + (- (m * m * (2 * x * y)) + k * (2 * p * q)) * c) by ring.
  apply ends; [exact Hc| |]; [apply Rle_minus in W1|apply Rle_minus in W3]; lra.
Qed.
Lemma near_log : forall (S T : Spinor R) (plane : BiVector R), let M := cnorm (den TSpin S) in let N := cnorm (den TSpin T) in
  deps < M -> deps < N -> 0 <= sca_0 (spinSca S) <= (1 - deps) * M -> 0 <= sca_0 (spinSca T) <= (1 - deps) * N -> tiny < cnorm (den TBiv plane) ->
  returns_within TSpin (logG2 (exact TSpin S) (exact TBiv plane)) (logG2 (exact TSpin T) (exact TBiv plane)) (PI / 2 * (apart TSpin S T / Rmin M N)).
Proof.
  intros S T plane M N HM HN HS HT HP. pose proof deps_pos as Hd0.
  destruct (polar_of S plane HM ltac:(rewrite Rabs_pos_eq; apply HS) HP) as (x & d & Hd & Hx & ES & LS & _). destruct (polar_of T plane HN ltac:(rewrite Rabs_pos_eq; apply HT) HP) as (y & d' & Hd' & Hy & ET & LT & _).
  fold M in ES, LS. fold N in ET, LT. eexists _, _. split; [exact LS|]. split; [exact LT|].
  set (m := Rmin M N). assert (Hm : 0 < m) by (unfold m; apply Rmin_glb_lt; lra). pose proof (Rmin_l M N) as mM. pose proof (Rmin_r M N) as mN. fold m in mM, mN. pose proof PI_RGT_0 as HPI.
  assert (X2 : x <= PI / 2). { apply (half_range M); [lra|exact Hx|]. assert (sca_0 (spinSca S) = M * cos x) by (rewrite ES; reflexivity). lra. }
  assert (Y2 : y <= PI / 2). { apply (half_range N); [lra|exact Hy|]. assert (sca_0 (spinSca T) = N * cos y) by (rewrite ET; reflexivity). lra. }
  pose proof (apart_pos TSpin S T) as AP. apply le_of_squares; [apply Rmult_le_pos; [lra|apply Rmult_le_pos; [exact AP|left; apply Rinv_0_lt_compat, Hm]]|].
  apply Rmult_le_reg_l with (m * m); [apply Rmult_lt_0_compat; exact Hm|].
  replace (m * m * (PI / 2 * (apart TSpin S T / m) * (PI / 2 * (apart TSpin S T / m)))) with (PI / 2 * (PI / 2) * (apart TSpin S T * apart TSpin S T)) by (field; lra).
  rewrite !apart2. rewrite ES, ET. rewrite !polar_apart by assumption. apply log_numbers; try lra. apply unit_cdot; assumption.
Qed.
Lemma root_numbers : forall p r x y c, -1 <= c <= 1 -> 0 <= p -> 0 <= r -> 0 < x <= PI / 2 -> 0 < y <= PI / 2 ->
  (p * p + r * r) * ((p * cos (x / 2) - r * cos (y / 2)) * (p * cos (x / 2) - r * cos (y / 2)) + p * sin (x / 2) * (p * sin (x / 2)) + r * sin (y / 2) * (r * sin (y / 2)) - 2 * (p * sin (x / 2)) * (r * sin (y / 2)) * c) <=
  (p * p * cos x - r * r * cos y) * (p * p * cos x - r * r * cos y) + p * p * sin x * (p * p * sin x) + r * r * sin y * (r * r * sin y) - 2 * (p * p * sin x) * (r * r * sin y) * c.
Proof.
  intros p r x y c Hc Hp Hr Hx Hy. pose proof PI_RGT_0 as HP.
  assert (W : forall z, Rabs z <= PI -> (p * p + r * r) * ((p - r) * (p - r) + p * r * (2 * (1 - cos (z / 2)))) <= (p * p - r * r) * (p * p - r * r) + p * p * (r * r) * (2 * (1 - cos z))).
  { intros z Hz. assert (C : 0 <= cos (z / 2)) by (apply Rabs_def2 in Hz || idtac; apply cos_ge_0; unfold Rabs in Hz; destruct (Rcase_abs z); lra).
    replace (cos z) with (2 * cos (z / 2) * cos (z / 2) - 1) by (rewrite <- cos_2a_cos; f_equal; field). set (k := cos (z / 2)) in *. pose proof (COS_bound (z / 2)) as K1. fold k in K1.
    assert (A : 0 <= (p - r) * (p - r) + p * r * (2 * (1 - k))). { assert (0 <= (p - r) * (p - r)) by apply Rle_0_sqr. assert (0 <= p * r) by (apply Rmult_le_pos; assumption). nra. }
    assert (B : 0 <= p * r * k) by (apply Rmult_le_pos; [apply Rmult_le_pos|]; assumption).
    assert (D : 0 <= ((p - r) * (p - r) + p * r * (2 * (1 - k))) * (2 * (p * r * k))) by (apply Rmult_le_pos; lra). lra. }
  pose proof (W (x - y) ltac:(apply Rabs_le; lra)) as W1. replace ((x - y) / 2) with (x / 2 - y / 2) in W1 by field. rewrite <- !plane_gap in W1.
  pose proof (W (x - - y) ltac:(apply Rabs_le; lra)) as W2. replace ((x - - y) / 2) with (x / 2 - - (y / 2)) in W2 by field. rewrite <- !plane_gap in W2. rewrite !cos_neg, !sin_neg in W2.
  apply Rminus_le.
  set (P := p * p * sin x) in *. set (Q := r * r * sin y) in *. set (g := (p * p * cos x - r * r * cos y) * (p * p * cos x - r * r * cos y)) in *.
  set (u := p * sin (x / 2)) in *. set (v := r * sin (y / 2)) in *. set (h := (p * cos (x / 2) - r * cos (y / 2)) * (p * cos (x / 2) - r * cos (y / 2))) in *.
  set (n := p * p + r * r) in *.
  assert (W3 : n * (h + (u + v) * (u + v)) <= g + (P + Q) * (P + Q)).
  { replace (P + Q) with (P - r * r * - sin y) by (unfold Q; ring). replace (u + v) with (u - r * - sin (y / 2)) by (unfold v; ring). exact W2. }
  replace (n * (h + u * u + v * v - 2 * u * v * c) - (g + P * P + Q * Q - 2 * P * Q * c))
    with ((n * (h + u * u + v * v) - (g + P * P + Q * Q)) + (- (n * (2 * u * v)) + 2 * P * Q) * c) by ring.
  apply ends; [exact Hc| |]; [apply Rle_minus in W1|apply Rle_minus in W3]; lra.
Qed.
Lemma near_root : forall (S T : Spinor R) (plane : BiVector R), let M := cnorm (den TSpin S) in let N := cnorm (den TSpin T) in
  4 * deps <= M -> 4 * deps <= N -> 0 <= sca_0 (spinSca S) <= (1 - deps) * M -> 0 <= sca_0 (spinSca T) <= (1 - deps) * N -> tiny < cnorm (den TBiv plane) ->
  returns_within TSpin (sqrtG2 (exact TSpin S) (exact TBiv plane)) (sqrtG2 (exact TSpin T) (exact TBiv plane)) (apart TSpin S T / sqrt (M + N)).
Proof.
  intros S T plane M N HM HN HS HT HP. pose proof deps_pos as Hd0.
  destruct (polar_of S plane ltac:(fold M; lra) ltac:(rewrite Rabs_pos_eq; apply HS) HP) as (x & d & Hd & Hx & ES & _ & LS). destruct (polar_of T plane ltac:(fold N; lra) ltac:(rewrite Rabs_pos_eq; apply HT) HP) as (y & d' & Hd' & Hy & ET & _ & LT).
  fold M in ES, LS. fold N in ET, LT. eexists _, _. split; [exact (LS HM)|]. split; [exact (LT HN)|].
  assert (X2 : x <= PI / 2). { apply (half_range M); [lra|exact Hx|]. assert (sca_0 (spinSca S) = M * cos x) by (rewrite ES; reflexivity). lra. }
  assert (Y2 : y <= PI / 2). { apply (half_range N); [lra|exact Hy|]. assert (sca_0 (spinSca T) = N * cos y) by (rewrite ET; reflexivity). lra. }
  assert (SM : sqrt M * sqrt M = M) by (apply sqrt_sqrt; lra). assert (SN : sqrt N * sqrt N = N) by (apply sqrt_sqrt; lra).
  set (w := sqrt (M + N)). assert (Hw : 0 < w) by (apply sqrt_lt_R0; lra). assert (SW : w * w = M + N) by (apply sqrt_sqrt; lra).
  pose proof (apart_pos TSpin S T) as AP. apply le_of_squares; [apply Rmult_le_pos; [exact AP|left; apply Rinv_0_lt_compat, Hw]|].
  apply Rmult_le_reg_l with (w * w); [apply Rmult_lt_0_compat; exact Hw|].
  replace (w * w * (apart TSpin S T / w * (apart TSpin S T / w))) with (apart TSpin S T * apart TSpin S T) by (field; lra).
  rewrite !apart2, SW. rewrite ES, ET. rewrite !polar_apart by assumption.
  pose proof (root_numbers (sqrt M) (sqrt N) x y (cdot (den TBiv d) (den TBiv d')) (unit_cdot _ _ Hd Hd') (sqrt_pos M) (sqrt_pos N) ltac:(lra) ltac:(lra)) as R. rewrite SM, SN in R. exact R.
Qed.
