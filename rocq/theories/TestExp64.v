(** * The reference exponential of the tests on doubles: when it ends (proofs only). *)

Require Import Reals ZArith List Bool Lra Lia.
From Flocq Require Import Core BinarySingleNaN.
Require Import Verif.Num Verif.Types Verif.Priv Verif.OpsUni Verif.OpsAdd Verif.OpsSub
  Verif.OpsMul Verif.Const Verif.Validity Verif.Func Verif.SpecCl Verif.AlgTac Verif.SpecFunc
  Verif.Rel Verif.B64 Verif.B64Facts Verif.Taint Verif.SpecValid Verif.ValidFacts Verif.NullFacts Verif.ValidThm
  Verif.SpecRound Verif.IntFacts Verif.ErrFacts Verif.SpecAcc Verif.BoundFacts Verif.AccFacts Verif.AccThm
  Verif.SpecExtent Verif.ExtentFacts Verif.GrainFacts Verif.TestExp.
Import ListNotations.
Local Open Scope R_scope.

(** ** Fuel *)
Lemma halve_more {F} `{Arith F} : forall fuel fuel' (x : MultiVector F) n r, halve_loop fuel x n = Some r -> (fuel <= fuel')%nat ->
  halve_loop fuel' x n = Some r.
Proof.
  induction fuel as [|fuel IH]; intros fuel' x n r E L; [discriminate|]. destruct fuel' as [|fuel']; [lia|].
  cbn [halve_loop] in *. destruct (nltb _ _); [|exact E]. apply (IH fuel'); [exact E|lia].
Qed.
Lemma computeExp_more {F} `{Arith F} : forall fuel fuel' (x r : MultiVector F), computeExp fuel x = Some r -> (fuel <= fuel')%nat ->
  computeExp fuel' x = Some r.
Proof.
  intros fuel fuel' x r E L. unfold computeExp in *. destruct (isValid TMvec x); [|exact E].
  destruct (halve_loop fuel x 0) as [p|] eqn:Q; [|discriminate]. rewrite (halve_more fuel fuel' x 0 p Q L). exact E.
Qed.

(** ** Halves *)
Notation half := (nlit 1 (-1) : f64).
Notation halved x := (mul_Dub_Mvec half x).
Lemma half_val : fin half = true /\ b2r half = / 2.
Proof. destruct (lit_of 1 (-1)) as [A B]; [lia|lia|]. split; [exact A|]. change (b2r (f64_lit 1 (-1)) = / 2). rewrite B. cbn; lra. Qed.
Lemma halved_elems : forall x : MultiVector f64, elems TMvec (halved x) = map (fun v => Bmult mode_NE half v) (elems TMvec x).
Proof. intros x. dvs. reflexivity. Qed.
Lemma half_within : forall e (v : f64), (-1073 <= e <= 1024)%Z -> fin v = true -> Rabs (b2r v) <= bpow radix2 e ->
  fin (Bmult mode_NE half v) = true /\ Rabs (b2r (Bmult mode_NE half v)) <= bpow radix2 (e - 1).
Proof.
  intros e v He F H. destruct half_val as [F1 V1].
  assert (B : Rabs (b2r half * b2r v) <= bpow radix2 (e - 1)).
  { rewrite V1, Rabs_mult, Rabs_pos_eq by lra. replace (bpow radix2 (e - 1)) with (/ 2 * bpow radix2 e).
    - apply Rmult_le_compat_l; lra.
    - unfold Zminus; rewrite bpow_plus. change (bpow radix2 (-(1))) with (/ 2). ring. }
  assert (Rd : Rabs (rnd64 (b2r half * b2r v)) <= bpow radix2 (e - 1)).
  { rewrite <- rnd_abs, <- (rnd_bpow (e - 1)) by lia. apply round_le; [exact (FLT_exp_valid (-1074) 53)|apply valid_rnd_N|exact B]. }
  destruct (bmult_ok half v F1 F) as [A C].
  - eapply Rle_lt_trans; [exact Rd|]. apply bpow_lt; lia.
  - split; [exact A|rewrite C; exact Rd].
Qed.
Lemma halved_within : forall e (x : MultiVector f64), (-1073 <= e <= 1024)%Z -> within e TMvec x -> within (e - 1) TMvec (halved x).
Proof.
  intros e x He W. unfold within in *. rewrite halved_elems. apply Forall_map. eapply Forall_impl; [|exact W].
  intros v [F H]. apply half_within; assumption.
Qed.
Lemma finite_within : forall x : MultiVector f64, all_finite TMvec x -> within 1024 TMvec x.
Proof.
  intros x H. eapply Forall_impl; [|exact H]. intros v F. split; [exact F|]. left. apply abs_B2R_lt_emax.
Qed.
Lemma small_exit : forall x : MultiVector f64, within (-6) TMvec x -> nltb half (magnitude TMvec x) = false.
Proof.
  intros x W. destruct (magSq_within (-6) TMvec x ltac:(lia) W) as [F H].
  change (2 * -6 + 3)%Z with (-9)%Z in H.
  unfold magnitude. change (Bltb half (Bsqrt mode_NE (magSq TMvec x)) = false).
  destruct (Bsqrt_correct 53 1024 _ _ mode_NE (magSq TMvec x)) as (S1 & S2 & _).
  destruct (fin (Bsqrt mode_NE (magSq TMvec x))) eqn:Fs.
  - rewrite Bltb_correct by (first [exact (proj1 half_val) | exact Fs]).
    apply Rlt_bool_false. rewrite S1, (proj2 half_val).
    change (/ 2) with (bpow radix2 (-1)). rewrite <- (rnd_bpow (-1)) by lia. apply round_le; [exact (FLT_exp_valid (-1074) 53)|apply valid_rnd_N|].
    change (bpow radix2 (-1)) with (/ 2). rewrite <- (sqrt_square (/ 2)) by lra. apply sqrt_le_1_alt.
    change (bpow radix2 (-9)) with (/ 512) in H. pose proof (Rle_abs (b2r (magSq TMvec x))). lra.
  - assert (NN : is_nan (Bsqrt mode_NE (magSq TMvec x)) = true).
    { destruct (magSq TMvec x) as [s|s| |[] m e Hb]; try discriminate F; try reflexivity; try discriminate Fs. rewrite S2 in Fs. discriminate. }
    destruct (Bsqrt mode_NE (magSq TMvec x)); try discriminate NN. reflexivity.
Qed.
Lemma halve_unfold : forall fuel (x : MultiVector f64) n, halve_loop (S fuel) x n =
  if nltb half (magnitude TMvec x) then halve_loop fuel (halved x) (S n) else Some (x, n).
Proof. reflexivity. Qed.
Lemma halve_ends : forall d (x : MultiVector f64) n, (Z.of_nat d <= 1030)%Z -> within (-6 + Z.of_nat d) TMvec x -> halve_loop (S d) x n <> None.
Proof.
  induction d as [|d IH]; intros x n L W; rewrite halve_unfold.
  - rewrite small_exit by exact W. discriminate.
  - destruct (nltb _ _); [|discriminate]. apply IH; [lia|].
    replace (-6 + Z.of_nat d)%Z with ((-6 + Z.of_nat (S d)) - 1)%Z by lia. apply halved_within; [lia|exact W].
Qed.
Lemma finite_ends : forall (x : MultiVector f64) fuel, all_finite TMvec x -> (1031 <= Z.of_nat fuel)%Z -> computeExp fuel x <> None.
Proof.
  intros x fuel H L. unfold computeExp. destruct (isValid TMvec x); [|discriminate].
  pose (d := Z.to_nat 1030). assert (D : Z.of_nat d = 1030%Z) by (apply Z2Nat.id; lia).
  assert (E : halve_loop (S d) x 0 <> None).
  { apply halve_ends; [lia|]. rewrite D. apply finite_within, H. }
  clearbody d. destruct (halve_loop (S d) x 0) as [p|] eqn:Q; [|contradiction].
  rewrite (halve_more (S d) fuel x 0 p Q) by lia. destruct p. cbv zeta. destruct (series_loop _ _ _ _ _). discriminate.
Qed.

(** ** Infinities *)
Definition pinf (v : f64) : Prop := v = B754_infinity false.
Definition psd (v : f64) : Prop := pinf v \/ (fin v = true /\ 0 <= b2r v).
Lemma psd_sq : forall v : f64, is_nan v = false -> psd (Bmult mode_NE v v).
Proof.
  intros v N. destruct v as [s|s| |s m e Hb] eqn:Ev; try discriminate N.
  - right. split; [reflexivity|]. cbn. lra.
  - left. destruct s; reflexivity.
  - rewrite <- Ev. pose proof (Bmult_correct 53 1024 _ _ mode_NE v v) as C.
    assert (Fv : fin v = true) by (rewrite Ev; reflexivity).
    destruct (Rlt_bool_spec (Rabs (rnd64 (b2r v * b2r v))) (bpow radix2 1024)) as [h|h].
    + rewrite Rlt_bool_true in C by exact h. destruct C as (C1 & C2 & _). right. rewrite C2, Fv. split; [reflexivity|].
      rewrite C1. rewrite <- (round_0 radix2 fexp64 ZnearestE). apply round_le; [exact (FLT_exp_valid (-1074) 53)|apply valid_rnd_N|nra].
    + rewrite Rlt_bool_false in C by exact h. left. rewrite xorb_nilpotent in C. apply B2SF_inj. exact C.
Qed.
Lemma psd_plus : forall a b : f64, psd a -> psd b -> psd (Bplus mode_NE a b).
Proof.
  intros a b [A|[Fa A]] [B|[Fb B]].
  - rewrite A, B. left. reflexivity.
  - rewrite A. left. destruct b as [s|s| |s m e Hb]; try discriminate Fb; reflexivity.
  - rewrite B. left. destruct a as [s|s| |s m e Hb]; try discriminate Fa; reflexivity.
  - pose proof (Bplus_correct 53 1024 _ _ mode_NE a b Fa Fb) as C.
    assert (P : 0 <= rnd64 (b2r a + b2r b)).
    { rewrite <- (round_0 radix2 fexp64 ZnearestE). apply round_le; [exact (FLT_exp_valid (-1074) 53)|apply valid_rnd_N|lra]. }
    destruct (Rlt_bool_spec (Rabs (rnd64 (b2r a + b2r b))) (bpow radix2 1024)) as [h|h].
    + rewrite Rlt_bool_true in C by exact h. destruct C as (C1 & C2 & _). right. rewrite C2, C1. split; [reflexivity|exact P].
    + rewrite Rlt_bool_false in C by exact h. destruct C as [C S]. left. apply B2SF_inj. rewrite C.
      destruct (Bsign a) eqn:Sa; [|reflexivity]. exfalso.
      assert (Z : forall v : f64, fin v = true -> 0 <= b2r v -> Bsign v = true -> b2r v = 0).
      { intros v Fv Hv Sv. destruct v as [s|s| |s m e Hb]; try discriminate Fv; [reflexivity|]. cbn in Sv. subst s.
        exfalso. cbn in Hv. assert (F2R (Float radix2 (Zneg m) e) < 0) by (apply F2R_lt_0; reflexivity). cbn in H. lra. }
      rewrite (Z a Fa A Sa), (Z b Fb B (eq_sym S)), Rplus_0_r, round_0, Rabs_R0 in h by apply valid_rnd_N.
      pose proof (bpow_gt_0 radix2 1024). lra.
Qed.
Definition no_nan (x : MultiVector f64) : Prop := Forall (fun v => is_nan v = false) (elems TMvec x).
Lemma magSq_psd : forall x : MultiVector f64, no_nan x -> psd (magSq TMvec x).
Proof.
  intros x N. unfold no_nan in N. dvs. cbv [elems app arr3_list arr1_list map flat_map] in N. cbn in N. unfold arr1_list in N. cbn in N.
  repeat match goal with h : Forall _ (_ :: _) |- _ => inversion h; clear h; subst end.
  cbn -[Bplus Bmult]. repeat apply psd_plus; first [apply psd_sq; assumption | right; split; [reflexivity|cbn; lra]].
Qed.
Lemma inf_stays : forall x : MultiVector f64, no_nan x -> has_nonfinite TMvec x -> nltb half (magnitude TMvec x) = true.
Proof.
  intros x N I. destruct (magSq_psd x N) as [E|[F _]].
  - unfold magnitude. rewrite E. reflexivity.
  - exfalso. pose proof (keep_magSq _ spoils_nonfin TMvec x) as K. cbv beta in K.
    unfold has_nonfinite in I.
    assert (Q : nonfin (magSq TMvec x) = true).
    { apply K. eapply Exists_impl; [|exact I]. intros v Hv. unfold nonfin. rewrite Hv. reflexivity. }
    unfold nonfin in Q. rewrite F in Q. discriminate.
Qed.
Lemma half_kind : forall v : f64, is_nan v = false -> is_nan (Bmult mode_NE half v) = false /\ (fin v = false -> fin (Bmult mode_NE half v) = false).
Proof.
  intros v N. destruct (fin v) eqn:F.
  - split; [|discriminate]. destruct (half_within 1024 v ltac:(lia) F) as [A _].
    + left. apply abs_B2R_lt_emax.
    + destruct (Bmult mode_NE half v); try discriminate A; reflexivity.
  - destruct v as [s|s| |s m e Hb]; try discriminate F; try discriminate N. split; reflexivity.
Qed.
Lemma halved_inf : forall x : MultiVector f64, no_nan x -> has_nonfinite TMvec x -> no_nan (halved x) /\ has_nonfinite TMvec (halved x).
Proof.
  intros x N I. unfold no_nan, has_nonfinite in *. rewrite halved_elems. split.
  - apply Forall_map. eapply Forall_impl; [|exact N]. intros v Hv. apply half_kind, Hv.
  - apply Exists_exists in I. destruct I as (v & Iv & Fv). apply Exists_exists. exists (Bmult mode_NE half v). split; [apply in_map_iff; exists v; auto|].
    apply half_kind; [|exact Fv]. rewrite Forall_forall in N. apply N, Iv.
Qed.
Lemma halve_forever : forall fuel (x : MultiVector f64) n, no_nan x -> has_nonfinite TMvec x -> halve_loop fuel x n = None.
Proof.
  induction fuel as [|fuel IH]; intros x n N I; [reflexivity|]. rewrite halve_unfold, inf_stays by assumption.
  destruct (halved_inf x N I). apply IH; assumption.
Qed.

(** ** NaN *)
Lemma series_nan : forall rounds (x : MultiVector f64) k nt es, has_nan TMvec es -> fst (series_loop rounds x k nt es) = false.
Proof.
  induction rounds as [|rounds IH]; intros x k nt es N; [reflexivity|]. cbn [series_loop]. cbv zeta.
  set (nt' := mul_Dub_Mvec _ _).
  assert (N2 : has_nan TMvec (add_Mvec_Mvec es nt')) by (apply (proj1 (proj2 (nan_kept TMvec TMvec es nt' (or_introl N))))).
  assert (E : nltb (ndiv (magnitude TMvec (mul_Mvec_Mvec es nt')) (magnitude TMvec (add_Mvec_Mvec es nt'))) (sSmallMag : f64) = false).
  { pose proof (bdiv_nan_r (magnitude TMvec (mul_Mvec_Mvec es nt')) _ (magnitude_nan TMvec _ N2)) as Q.
    change (Bltb (Bdiv mode_NE (magnitude TMvec (mul_Mvec_Mvec es nt')) (magnitude TMvec (add_Mvec_Mvec es nt'))) (sSmallMag : f64) = false).
    destruct (Bdiv _ _ _); try discriminate Q. reflexivity. }
  change (@narith_ring f64 Arith_B) with Ring0_B. rewrite E. apply IH, N2.
Qed.
Lemma nan_null : forall (x : MultiVector f64) fuel, has_nan TMvec x -> (1 <= fuel)%nat -> computeExp fuel x = Some null_Mvec.
Proof.
  intros x fuel N L. unfold computeExp. destruct (isValid TMvec x); [|reflexivity]. destruct fuel as [|fuel]; [lia|].
  rewrite halve_unfold.
  assert (E : nltb half (magnitude TMvec x) = false).
  { pose proof (magnitude_nan TMvec x N) as Q. change (Bltb half (magnitude TMvec x) = false). destruct (magnitude TMvec x); try discriminate Q. reflexivity. }
  rewrite E. cbv zeta.
  pose proof (series_nan 56 x 1 x (add_Mvec_Mvec (add_Mvec_Mvec zero_Mvec one_Mvec) x)) as S.
  destruct (series_loop _ _ _ _ _) as [c es]. cbn [fst] in S.
  rewrite S; [reflexivity|]. apply (proj1 (proj2 (nan_kept TMvec TMvec (add_Mvec_Mvec zero_Mvec one_Mvec) x (or_intror N)))).
Qed.
Lemma invalid_null : forall (x : MultiVector f64) fuel, isValid TMvec x = false -> computeExp fuel x = Some null_Mvec.
Proof. intros x fuel V. unfold computeExp. rewrite V. reflexivity. Qed.

Lemma kinds : forall x : MultiVector f64, has_nan TMvec x \/ all_finite TMvec x \/ (no_nan x /\ has_nonfinite TMvec x).
Proof.
  intros x. unfold has_nan, all_finite, no_nan, has_nonfinite. generalize (elems TMvec x). intros l.
  induction l as [|v l IH]; [right; left; constructor|].
  destruct (is_nan v) eqn:N; [left; left; exact N|].
  destruct IH as [A|[A|[A B]]].
  - left; right; exact A.
  - destruct (fin v) eqn:F; [right; left; constructor; assumption|]. right; right. split; [|left; exact F].
    constructor; [exact N|]. eapply Forall_impl; [|exact A]. intros w Fw. destruct w; try discriminate Fw; reflexivity.
  - right; right; split; [constructor; assumption|right; exact B].
Qed.
Lemma ends_iff : forall x : MultiVector f64, (exists fuel, computeExp fuel x <> None) <->
  isValid TMvec x = false \/ has_nan TMvec x \/ all_finite TMvec x.
Proof.
  intros x. split.
  - intros [fuel E]. destruct (isValid TMvec x) eqn:V; [right|left; reflexivity].
    destruct (kinds x) as [A|[A|[A B]]]; [left; exact A|right; exact A|]. exfalso. apply E. unfold computeExp. rewrite V, halve_forever by assumption. reflexivity.
  - intros [V|[N|A]].
    + exists 0%nat. rewrite invalid_null by exact V. discriminate.
    + exists 1%nat. rewrite nan_null by (auto with arith). discriminate.
    + exists (Z.to_nat 1031). apply finite_ends; [exact A|rewrite Z2Nat.id; lia].
Qed.
Lemma bad_null : forall (x : MultiVector f64) fuel, isValid TMvec x = false \/ has_nan TMvec x -> (1 <= fuel)%nat ->
  computeExp fuel x = Some null_Mvec.
Proof. intros x fuel [V|N] L; [apply invalid_null, V|apply nan_null; assumption]. Qed.
Lemma never : forall x : MultiVector f64, isValid TMvec x = true -> no_nan x -> has_nonfinite TMvec x -> forall fuel, computeExp fuel x = None.
Proof. intros x V N I fuel. unfold computeExp. rewrite V, halve_forever by assumption. reflexivity. Qed.
Lemma run_zero : computeExp 1 (zero_Mvec : MultiVector f64) = Some one_Mvec.
Proof.
  assert (E : match computeExp 1 (zero_Mvec : MultiVector f64) with Some r => map B2SF (elems TMvec r) | None => nil end = map B2SF (elems TMvec (one_Mvec : MultiVector f64)))
    by (vm_compute; reflexivity).
  destruct (computeExp 1 (zero_Mvec : MultiVector f64)) as [r|]; [|discriminate E]. f_equal.
  destruct r as [[[s]] [[v1 v2 v3]] [[b1 b2 b3]] [[t]]]. cbn [elems] in E.
  cbv [map elems app arr1_list arr3_list mvSca mvVec mvBiv mvTri scaData vecData bivData triData at0 at30 at31 at32] in E.
  unfold one_Mvec. cbv [one_Sca zero_Vec zero_Biv zero_Tri one_Mvec Sca Vec Biv Tri] in *.
  injection E. intros. repeat f_equal; apply B2SF_inj; assumption.
Qed.
