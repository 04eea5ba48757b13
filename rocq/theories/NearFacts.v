(** * Nearby arguments give nearby results (proofs only). *)

Require Import Reals ZArith Lra Lia List Bool.
From Flocq Require Import Core.
Require Import Verif.Num Verif.Types Verif.Priv Verif.OpsUni Verif.OpsAdd Verif.OpsSub Verif.OpsMul Verif.Const
  Verif.Validity Verif.Compare Verif.Func Verif.SpecCl Verif.SpecExp Verif.SpecFunc Verif.RealInst Verif.AlgTac Verif.AlgMul
  Verif.AlgFacts Verif.AlgSpec Verif.AlgThm Verif.FuncFacts Verif.FuncThm Verif.ExpFacts Verif.ExpThm Verif.LogThm Verif.SpecPrin Verif.PrinFacts Verif.SpecNear.
Local Open Scope R_scope.

Lemma le_of_squares : forall x y, 0 <= y -> x * x <= y * y -> x <= y.
Proof. intros x y H K. destruct (Rle_dec x y); [assumption|]. nra. Qed.
Lemma apart2 : forall t (x y : val R t), apart t x y * apart t x y = cnorm2 (csub (den t x) (den t y)).
Proof. intros. apply cnorm_sq. Qed.
Lemma apart_pos : forall t (x y : val R t), 0 <= apart t x y.
Proof. intros. apply cnorm_nonneg. Qed.
Lemma norm2_csub : forall a b, cnorm2 (csub a b) = cnorm2 a - 2 * cdot a b + cnorm2 b.
Proof. intros a b. unfold cnorm2, cdot, csub. cbv [rsum all_blades List.map fold_right]. ring. Qed.
(** ** Numbers in polar form *)
Definition polar (a th : R) (d : BiVector R) : Spinor R := mkSpin (Sca a) (scale TBiv th d).
Lemma polar_apart : forall a th d b ps d', cnorm (den TBiv d) = 1 -> cnorm (den TBiv d') = 1 ->
  cnorm2 (csub (den TSpin (polar a th d)) (den TSpin (polar b ps d'))) =
    (a - b) * (a - b) + th * th + ps * ps - 2 * th * ps * cdot (den TBiv d) (den TBiv d').
Proof.
  intros a th d b ps d' D D'. assert (E : cnorm2 (den TBiv d) = 1) by (rewrite <- cnorm_sq, D; ring). assert (E' : cnorm2 (den TBiv d') = 1) by (rewrite <- cnorm_sq, D'; ring).
  transitivity ((a - b) * (a - b) + th * th * cnorm2 (den TBiv d) + ps * ps * cnorm2 (den TBiv d') - 2 * th * ps * cdot (den TBiv d) (den TBiv d')); [|rewrite E, E'; ring].
  clear. unfold polar. destruct d as [[x y z]], d' as [[u v w]]. cbv -[Rplus Rminus Rmult Ropp R R0 R1 IZR]. ring.
Qed.
Lemma unit_cdot : forall a b, cnorm a = 1 -> cnorm b = 1 -> -1 <= cdot a b <= 1.
Proof. intros a b A B. pose proof (cauchy_schwarz a b) as C. rewrite <- !cnorm_sq, A, B in C. nra. Qed.
(** An expression linear in the cosine of the angle between two planes is
    decided by the planes that agree and those that are opposite. *)
Lemma ends : forall u v c, -1 <= c <= 1 -> u + v <= 0 -> u - v <= 0 -> u + v * c <= 0.
Proof. intros u v c H A B. assert (0 <= (1 + c) * - (u + v)) by (apply Rmult_le_pos; lra). assert (0 <= (1 - c) * - (u - v)) by (apply Rmult_le_pos; lra). lra. Qed.
(** ** Estimates for numbers *)
Lemma chord : forall d, 1 - cos d = 2 * (sin (d / 2) * sin (d / 2)).
Proof. intros d. replace d with (2 * (d / 2)) at 1 by field. rewrite cos_2a_sin. ring. Qed.
Lemma chord_le : forall d, 2 * (1 - cos d) <= d * d.
Proof.
  intros d. rewrite chord. pose proof (sin_le_abs (d / 2)) as H. assert (K : sin (d / 2) * sin (d / 2) <= d / 2 * (d / 2)).
  { apply Rsqr_le_abs_1 in H. exact H. }
  lra.
Qed.
Lemma sin_lower : forall x, 0 <= x <= PI / 2 -> 2 * x <= PI * sin x.
Proof.
  intros x [H0 H1]. pose proof PI_RGT_0 as HP. destruct (Rle_lt_or_eq_dec 0 x H0) as [L0|<-]; [|rewrite sin_0; lra].
  destruct (Rle_lt_or_eq_dec x (PI / 2) H1) as [L1|E1]; [|rewrite E1, sin_PI2; lra].
  destruct (MVT_cor2 sin cos 0 x L0 (fun c _ => derivable_pt_lim_sin c)) as (a & Ea & Ha).
  destruct (MVT_cor2 sin cos x (PI / 2) L1 (fun c _ => derivable_pt_lim_sin c)) as (b & Eb & Hb).
  rewrite sin_0 in Ea. rewrite sin_PI2 in Eb. assert (D : cos b <= cos a) by (apply cos_decr_1; lra).
  assert (P : 0 <= (cos a - cos b) * (x * (PI / 2 - x))) by (apply Rmult_le_pos; [lra|apply Rmult_le_pos; lra]).
  assert (Q : 0 <= sin x * (PI / 2 - x) - (1 - sin x) * x) by (replace (sin x) with (cos a * x) at 1 by lra; rewrite Eb; lra).
  lra.
Qed.
Lemma chord_ge : forall d, Rabs d <= PI -> 4 * (d * d) <= PI * PI * (2 * (1 - cos d)).
Proof.
  intros d H. rewrite chord. assert (K : forall y, 0 <= y <= PI -> 4 * (y * y) <= PI * PI * (2 * (2 * (sin (y / 2) * sin (y / 2))))).
  { intros y Hy. pose proof (sin_lower (y / 2) ltac:(lra)) as S. assert (y * y <= (PI * sin (y / 2)) * (PI * sin (y / 2))) by (apply Rmult_le_compat; lra). lra. }
  destruct (Rle_dec 0 d) as [P|P]; [apply K; rewrite Rabs_pos_eq in H by exact P; lra|].
  rewrite Rabs_left in H by lra. specialize (K (- d) ltac:(lra)). replace (- d / 2) with (- (d / 2)) in K by field. rewrite sin_neg in K. lra.
Qed.
Lemma exp_gap : forall a b, (exp a - exp b) * (exp a - exp b) <= (Rmax (exp a) (exp b) * (a - b)) * (Rmax (exp a) (exp b) * (a - b)).
Proof.
  assert (W : forall a b, a <= b -> 0 <= exp b - exp a <= exp b * (b - a)).
  { intros a b H. pose proof (exp_pos b). assert (E : exp a = exp b * exp (a - b)) by (rewrite <- exp_plus; f_equal; ring).
    pose proof (exp_ineq1_le (a - b)) as I. assert (exp (a - b) <= 1) by (rewrite <- exp_0; destruct H; [left; apply exp_increasing; lra|subst; right; f_equal; ring]).
    rewrite E. split; nra. }
  intros a b. destruct (Rle_dec a b) as [H|H].
  - specialize (W a b H). rewrite Rmax_right by lra. replace ((exp a - exp b) * (exp a - exp b)) with ((exp b - exp a) * (exp b - exp a)) by ring.
    replace (exp b * (a - b) * (exp b * (a - b))) with (exp b * (b - a) * (exp b * (b - a))) by ring. apply Rmult_le_compat; lra.
  - specialize (W b a ltac:(lra)). rewrite Rmax_left by lra. apply Rmult_le_compat; lra.
Qed.
Lemma ln_gap : forall M N m, 0 < m -> m <= M -> m <= N -> (m * (ln M - ln N)) * (m * (ln M - ln N)) <= (M - N) * (M - N).
Proof.
  assert (W : forall M N m, 0 < m -> m <= N -> N <= M -> 0 <= m * (ln M - ln N) <= M - N).
  { intros M N m Hm HN HM. assert (L : 0 <= ln M - ln N). { destruct HM as [HM|<-]; [|lra]. pose proof (ln_increasing N M). lra. }
    assert (E : M = N * exp (ln M - ln N)). { unfold Rminus. rewrite exp_plus, exp_Ropp, !exp_ln by lra. field. lra. }
    pose proof (exp_ineq1_le (ln M - ln N)) as I. split; [apply Rmult_le_pos; lra|].
    assert (A : N * (1 + (ln M - ln N)) <= N * exp (ln M - ln N)) by (apply Rmult_le_compat_l; lra). rewrite <- E in A.
    assert (m * (ln M - ln N) <= N * (ln M - ln N)) by (apply Rmult_le_compat_r; lra). lra. }
  intros M N m Hm HM HN. destruct (Rle_dec N M) as [H|H].
  - specialize (W M N m Hm HN H). apply Rmult_le_compat; lra.
  - specialize (W N M m Hm HM ltac:(lra)). replace ((M - N) * (M - N)) with ((N - M) * (N - M)) by ring.
    replace (m * (ln M - ln N) * (m * (ln M - ln N))) with (m * (ln N - ln M) * (m * (ln N - ln M))) by ring. apply Rmult_le_compat; lra.
Qed.
Lemma plane_gap : forall P Q x y, (P * cos x - Q * cos y) * (P * cos x - Q * cos y) + (P * sin x - Q * sin y) * (P * sin x - Q * sin y) = (P - Q) * (P - Q) + P * Q * (2 * (1 - cos (x - y))).
Proof. intros. rewrite cos_minus. pose proof (sin2_cos2 x) as A. pose proof (sin2_cos2 y) as B. unfold Rsqr in A, B.
  transitivity (P * P * (sin x * sin x + cos x * cos x) + Q * Q * (sin y * sin y + cos y * cos y) - 2 * P * Q * (cos x * cos y + sin x * sin y)); [ring|]. rewrite A, B. ring. Qed.
