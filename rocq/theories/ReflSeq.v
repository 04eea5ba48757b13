(** * Sequences of reflections on binary64: proofs. *)

Require Import Reals ZArith List Bool Lra Lia.
From Flocq Require Import Core BinarySingleNaN.
Require Import Verif.Num Verif.Types Verif.OpsUni Verif.OpsMul Verif.Func Verif.SpecCl Verif.RealInst Verif.AlgTac Verif.AlgFacts Verif.SpecFunc Verif.SpecGeom
  Verif.FuncFacts Verif.B64 Verif.SpecRound Verif.SpecAcc Verif.SpecGeomAcc Verif.NormFacts Verif.GeomAcc Verif.ExtentFacts Verif.SpecReflSeq.
Import ListNotations.
Local Open Scope R_scope.

Lemma mirror_exists : forall n v : Vector R, 0 < dot n n -> exists w, mirrored n v w.
Proof.
  intros n v P. exists (vplus v (vtimes (- (2 * (dot v n / dot n n))) n)). split; [|exists (- (2 * (dot v n / dot n n))); reflexivity].
  revert P. destruct n as [[n0 n1 n2]], v as [[v0 v1 v2]]. gcbv. intros P. field. lra.
Qed.
Lemma mirrors_exist : forall ns v, Forall (fun n : Vector R => 0 < dot n n) ns -> exists w, mirrored_all ns v w.
Proof.
  intros ns. induction ns as [|n ns IH]; intros v F; [exists v; reflexivity|]. inversion F as [|? ? P F']; subst.
  destruct (mirror_exists n v P) as [u Hu]. destruct (IH u F') as [w Hw]. exists w, u. split; assumption.
Qed.
Lemma mirror_isometry : forall n v w v' w' : Vector R, 0 < dot n n -> mirrored n v w -> mirrored n v' w' ->
  cnorm (csub (den TVec w) (den TVec w')) = cnorm (csub (den TVec v) (den TVec v')).
Proof.
  intros n v w v' w' P H H'. rewrite (mirror_unique n v w P H), (mirror_unique n v' w' P H'). unfold cnorm. f_equal.
  revert P. clear. destruct n as [[n0 n1 n2]], v as [[v0 v1 v2]], v' as [[x0 x1 x2]]. unfold cnorm2. gcbv. intros P. field. lra.
Qed.
Lemma mirrors_isometry : forall ns v w v' w', Forall (fun n : Vector R => 0 < dot n n) ns -> mirrored_all ns v w -> mirrored_all ns v' w' ->
  cnorm (csub (den TVec w) (den TVec w')) = cnorm (csub (den TVec v) (den TVec v')).
Proof.
  intros ns. induction ns as [|n ns IH]; intros v w v' w' F H H'; [cbn in H, H'; subst; reflexivity|].
  inversion F as [|? ? P F']; subst. destruct H as (u & Hu & Hw), H' as (u' & Hu' & Hw'). rewrite (IH u w u' w' F' Hw Hw'). apply (mirror_isometry n); assumption.
Qed.
Lemma mirror_norm : forall n v w : Vector R, 0 < dot n n -> mirrored n v w -> cnorm (den TVec w) = cnorm (den TVec v).
Proof.
  intros n v w P H. rewrite (mirror_unique n v w P H). unfold cnorm. f_equal.
  revert P. clear. destruct n as [[n0 n1 n2]], v as [[v0 v1 v2]]. unfold cnorm2. gcbv. intros P. field. lra.
Qed.
Lemma dist_triangle : forall a b c : clf, cnorm (csub a c) <= cnorm (csub a b) + cnorm (csub b c).
Proof. intros a b c. rewrite (cnorm_ceq (csub a c) (cadd (csub a b) (csub b c))) by (intros k; unfold csub, cadd; ring). apply cnorm_triangle. Qed.
Lemma dist_norm : forall a b : clf, cnorm a <= cnorm b + cnorm (csub a b).
Proof. intros a b. rewrite (cnorm_ceq a (cadd b (csub a b))) at 1 by (intros k; unfold csub, cadd; ring). apply cnorm_triangle. Qed.
Lemma dist_0 : forall a : clf, cnorm (csub a a) = 0.
Proof. intros a. rewrite (cnorm_ceq _ (cscale 0 a)) by (intros j; unfold csub, cscale; ring). rewrite cnorm_scale, Rabs_R0. ring. Qed.
Lemma dist_sym : forall a b : clf, cnorm (csub a b) = cnorm (csub b a).
Proof. intros a b. rewrite <- cnorm_opp. apply cnorm_ceq. intros k. unfold copp, csub. ring. Qed.

Notation exv := (mapv (fun v : f64 => B2R v) TVec).
Notation rate := (72 * unit_roundoff).

Lemma one_reflection : forall n v : Vector f64, sized TVec n -> sized TVec v ->
  let r := imspVec (neg TImsp (mul TSpin TVec (mul TVec TVec n v) (inverse_Vec n))) in
  all_finite TVec r /\ forall w, mirrored (exv n) (exv v) w -> cnorm (csub (exactly TVec r) (den TVec w)) <= rate * cnorm (exactly TVec v).
Proof.
  intros n v Sn Sv. destruct (reflection_accurate n v Sn Sv) as [F H]. cbv zeta. set (q := neg TImsp (mul TSpin TVec (mul TVec TVec n v) (inverse_Vec n)) : ImSpin f64) in *. split.
  - clear H. clearbody q. revert F. destruct q as [[[x y z]] [[c]]]. unfold all_finite. change (elems TImsp _) with [x; y; z; c]. change (elems TVec _) with [x; y; z].
    intros W. inversion W as [|? ? A W1]; subst. inversion W1 as [|? ? B W2]; subst. inversion W2 as [|? ? C W3]; subst. repeat constructor; assumption.
  - intros w Hw. eapply Rle_trans; [|exact (H w Hw)]. rewrite ex_vec. pose proof (proj1 (part_diff_odd (mapv (fun v : f64 => B2R v) TImsp q) (mkImsp w (Tri 0)))) as D.
    cbn [imspVec] in D. eapply Rle_trans; [exact D|]. right. apply cnorm_ceq. intros k. apply f_equal. destruct w as [[w0 w1 w2]]. dblade k; reflexivity.
Qed.

Lemma rate_small : 0 < rate < / 1000000.
Proof. rewrite u_val. lra. Qed.

Theorem reflections_accurate : forall (ns : list (Vector f64)) (v : Vector f64), Forall (sized TVec) ns -> all_finite TVec v ->
  let m := cnorm (exactly TVec v) in let k := length ns in
  bpow radix2 (-200) <= (1 - rate) ^ k * m -> (1 + rate) ^ k * m <= bpow radix2 200 ->
  all_finite TVec (reflect_all ns v) /\ (exists w, mirrored_all (map exv ns) (exv v) w) /\
  forall w, mirrored_all (map exv ns) (exv v) w -> cnorm (csub (exactly TVec (reflect_all ns v)) (den TVec w)) <= ((1 + rate) ^ k - 1) * m.
Proof.
  pose proof rate_small as Rs.
  assert (Pos : forall ns, Forall (sized TVec) ns -> Forall (fun n : Vector R => 0 < dot n n) (map exv ns)).
  { intros ns H. induction H as [|n ns Hn _ IH]; constructor; [|exact IH]. rewrite <- vec_n2. exact (sized_pos TVec n Hn). }
  intros ns. induction ns as [|n ns IH]; intros v F Fv m k L U.
  - cbn [reflect_all]. split; [exact Fv|]. split; [exists (exv v); reflexivity|]. intros w Hw. cbn in Hw. subst w. unfold k. cbn [length pow].
    apply Rle_trans with 0; [|lra]. right. exact (dist_0 (exactly TVec v)).
  - inversion F as [|? ? Sn F']; subst. cbv zeta in IH. unfold k in *. clear k. cbn [length] in *. set (j := length ns) in *.
    assert (m0 : 0 <= m) by apply cnorm_nonneg. assert (J0 : 0 < (1 - rate) ^ j) by (apply pow_lt; lra). assert (J1 : 1 <= (1 + rate) ^ j) by (apply pow_R1_Rle; lra).
    assert (J2 : (1 - rate) ^ j <= 1) by (apply Rle_trans with (1 ^ j); [apply pow_incr; lra|rewrite pow1; lra]). cbn [pow] in *.
    set (A := (1 - rate) ^ j) in *. set (B := (1 + rate) ^ j) in *. set (e := rate) in *. clearbody A B.
    assert (Sv : sized TVec v). { split; [exact Fv|]. fold m. pose proof (Rmult_le_compat_r m _ _ m0 J2). pose proof (Rmult_le_compat_r m _ _ m0 J1). assert ((1 - e) * A <= A) by nra. assert (B <= (1 + e) * B) by nra. pose proof (Rmult_le_compat_r m _ _ m0 H1). pose proof (Rmult_le_compat_r m _ _ m0 H2). lra. }
    destruct (one_reflection n v Sn Sv) as [F1 H1]. change (cnorm (exactly TVec v)) with m in H1. change rate with e in H1. clearbody e. cbn [reflect_all]. set (v1 := imspVec (neg TImsp (mul TSpin TVec (mul TVec TVec n v) (inverse_Vec n)))) in *.
    destruct (mirror_exists (exv n) (exv v)) as [u Hu]; [rewrite <- vec_n2; exact (sized_pos TVec n Sn)|]. specialize (H1 u Hu).
    assert (Nu : cnorm (den TVec u) = m). { apply (mirror_norm (exv n) (exv v)); [rewrite <- vec_n2; exact (sized_pos TVec n Sn)|exact Hu]. }
    pose proof (dist_norm (exactly TVec v1) (den TVec u)) as D1. pose proof (dist_norm (den TVec u) (exactly TVec v1)) as D2. rewrite (dist_sym (den TVec u)) in D2. rewrite Nu in *.
    set (m1 := cnorm (exactly TVec v1)) in *.
    assert (M1 : (1 - e) * m <= m1) by lra. assert (M2 : m1 <= (1 + e) * m) by lra.
    destruct (IH v1 F' F1) as (G & Ex & E).
    { fold m1. pose proof (Rmult_le_compat_l A _ _ (Rlt_le _ _ J0) M1). lra. } { fold m1. pose proof (Rmult_le_compat_l B _ _ (Rle_trans _ _ _ Rle_0_1 J1) M2). lra. }
    fold m1 in E.
    split; [exact G|]. split; [apply mirrors_exist; apply Pos; exact F|]. intros w (u' & Hu' & Hw).
    destruct Ex as [w1 Hw1]. specialize (E w1 Hw1). pose proof (mirrors_isometry _ _ _ _ _ (Pos ns F') Hw1 Hw) as I.
    assert (Eu : u' = u). { rewrite (mirror_unique _ _ _ ltac:(rewrite <- vec_n2; exact (sized_pos TVec n Sn)) Hu), (mirror_unique _ _ _ ltac:(rewrite <- vec_n2; exact (sized_pos TVec n Sn)) Hu'). reflexivity. } subst u'.
    change (den TVec (exv v1)) with (exactly TVec v1) in I. eapply Rle_trans; [apply (dist_triangle _ (den TVec w1))|]. rewrite I.
    apply Rle_trans with ((B - 1) * m1 + e * m); [lra|]. pose proof (Rmult_le_compat_l (B - 1) _ _ ltac:(lra) M2). lra.
Qed.

Lemma powers_near_1 : forall k e, 0 <= e -> INR k * e <= / 73 -> / 2 <= (1 - e) ^ k /\ (1 + e) ^ k <= 2 /\ (1 + e) ^ k - 1 <= 73 / 72 * (INR k * e).
Proof.
  intros k e He Hk. pose proof (pos_INR k) as K0. assert (t0 : 0 <= INR k * e) by (apply Rmult_le_pos; assumption).
  destruct k as [|k]; [cbn [pow INR] in *; lra|]. assert (e1 : e <= / 73).
  { rewrite S_INR in Hk, t0. pose proof (pos_INR k). pose proof (Rmult_le_pos _ _ H He). lra. }
  assert (B1 : 1 - INR (S k) * e <= (1 - e) ^ S k).
  { clear -He e1. induction (S k) as [|j IH]; [cbn; lra|]. rewrite S_INR. cbn [pow]. pose proof (Rmult_le_compat_l (1 - e) _ _ ltac:(lra) IH). pose proof (pos_INR j).
    assert (0 <= e * e * INR j) by (apply Rmult_le_pos; [apply Rmult_le_pos; assumption|assumption]). lra. }
  assert (B2 : (1 + e) ^ S k * (1 - e) ^ S k <= 1).
  { rewrite <- Rpow_mult_distr. apply Rle_trans with (1 ^ S k); [apply pow_incr|rewrite pow1; lra]. pose proof (Rmult_le_pos _ _ He He). pose proof (Rmult_le_compat e (/73) e (/73) He He e1 e1). lra. }
  assert (C : 0 < (1 + e) ^ S k) by (apply pow_lt; lra). set (t := INR (S k) * e) in *. set (P := (1 + e) ^ S k) in *. set (Q := (1 - e) ^ S k) in *. clearbody t P Q.
  assert (B3 : P * (1 - t) <= 1) by (pose proof (Rmult_le_compat_l P _ _ (Rlt_le _ _ C) B1); lra).
  assert (P2 : P <= 2). { apply Rnot_lt_le. intros H. pose proof (Rmult_lt_compat_r (1 - t) 2 P ltac:(lra) H). lra. }
  assert (P3 : P <= 73 / 72). { apply Rnot_lt_le. intros H. pose proof (Rmult_lt_compat_r (1 - t) _ P ltac:(lra) H). lra. }
  split; [lra|]. split; [exact P2|]. pose proof (Rmult_le_compat_r t P (73 / 72) t0 P3). lra.
Qed.

Theorem many_reflections : forall (ns : list (Vector f64)) (v : Vector f64), Forall (sized TVec) ns -> all_finite TVec v ->
  let m := cnorm (exactly TVec v) in let k := INR (length ns) in
  bpow radix2 (-199) <= m <= bpow radix2 199 -> k * rate <= / 73 ->
  all_finite TVec (reflect_all ns v) /\
  forall w, mirrored_all (map exv ns) (exv v) w -> cnorm (csub (exactly TVec (reflect_all ns v)) (den TVec w)) <= 73 * unit_roundoff * k * m.
Proof.
  intros ns v F Fv m k [L U] K. pose proof rate_small as Rs. destruct (powers_near_1 (length ns) rate ltac:(lra) K) as (A & B & C). fold k in C.
  assert (m0 : 0 <= m) by apply cnorm_nonneg.
  destruct (reflections_accurate ns v F Fv) as (G & _ & E); fold m.
  { change (bpow radix2 (-199)) with (bpow radix2 (1 + -200)) in L. rewrite bpow_plus in L. change (bpow radix2 1) with 2 in L. pose proof (Rmult_le_compat_r m _ _ m0 A). lra. }
  { change (bpow radix2 200) with (bpow radix2 (1 + 199)). rewrite bpow_plus. change (bpow radix2 1) with 2. pose proof (Rmult_le_compat_r m _ _ m0 B). lra. }
  split; [exact G|]. intros w Hw. eapply Rle_trans; [exact (E w Hw)|]. fold m. pose proof (Rmult_le_compat_r m _ _ m0 C). lra.
Qed.

Theorem reflected_twice : forall n v : Vector f64, sized TVec n -> all_finite TVec v -> let m := cnorm (exactly TVec v) in
  bpow radix2 (-199) <= m <= bpow radix2 199 ->
  all_finite TVec (reflect_all [n; n] v) /\ cnorm (csub (exactly TVec (reflect_all [n; n] v)) (exactly TVec v)) <= 146 * unit_roundoff * m.
Proof.
  intros n v Sn Fv m Rg. assert (P : 0 < dot (exv n) (exv n)) by (rewrite <- vec_n2; exact (sized_pos TVec n Sn)).
  destruct (many_reflections [n; n] v) as [G E]; [apply Forall_cons; [exact Sn|apply Forall_cons; [exact Sn|apply Forall_nil]]|exact Fv|exact Rg|cbn [length INR]; pose proof rate_small; lra|].
  split; [exact G|]. change (exactly TVec v) with (den TVec (exv v)). eapply Rle_trans; [apply E|].
  - destruct (mirror_exists _ (exv v) P) as [u Hu]. exists u. split; [exact Hu|]. exists (exv v). split; [|reflexivity]. destruct Hu as [H1 [a H2]]. split.
    + rewrite <- H1. generalize (exv v). clear. intros x. destruct u as [[u0 u1 u2]], x as [[x0 x1 x2]], (exv n) as [[n0 n1 n2]]. gcbv. ring.
    + exists (- a). rewrite H2. generalize (exv v) (exv n). clear. intros x y. destruct x as [[x0 x1 x2]], y as [[n0 n1 n2]]. gcbv. repeat (f_equal; try ring).
  - cbn [length INR]. fold m. assert (0 <= m) by apply cnorm_nonneg. lra.
Qed.

(** [25 e1] in the mirrors of [3 e1 + 4 e3], [e2] and [e3]. *)
Lemma example_refl : let z := f64_lit 0 0 in let o := f64_lit 1 0 in let n := Vec (f64_lit 3 0) z (f64_lit 4 0) : Vector f64 in
  let ns := [n; Vec z o z; Vec z z o] in let v := Vec (f64_lit 25 0) z z : Vector f64 in
  let m := cnorm (exactly TVec v) in
  Forall (sized TVec) ns /\ all_finite TVec v /\ m = 25 /\ bpow radix2 (-199) <= m <= bpow radix2 199 /\ INR (length ns) * (72 * unit_roundoff) <= / 73 /\
  bpow radix2 (-200) <= (1 - rate) ^ length ns * m /\ (1 + rate) ^ length ns * m <= bpow radix2 200 /\
  mirrored_all (map exv ns) (exv v) (Vec 7 0 24).
Proof.
  destruct example_geom as (S1 & _ & S3 & _ & M & _). cbv zeta. set (z := f64_lit 0 0) in *. set (a := f64_lit 3 0) in *. set (b := f64_lit 4 0) in *. set (c := f64_lit 25 0) in *. set (o := f64_lit 1 0).
  destruct (lit_of 0 0 ltac:(lia) ltac:(lia)) as [Fz Bz]. destruct (lit_of 1 0 ltac:(lia) ltac:(lia)) as [Fo Bo]. destruct (lit_of 25 0 ltac:(lia) ltac:(lia)) as [Fc Bc].
  fold z in Fz, Bz. fold o in Fo, Bo. fold c in Fc, Bc. change (bpow radix2 0) with 1 in *. rewrite Rmult_1_r in *. clearbody z a b c o.
  assert (Sz : forall m, 1 <= m <= 32 -> bpow radix2 (-199) <= m <= bpow radix2 199).
  { intros m Hm. pose proof (bpow_le radix2 (-199) 0 ltac:(lia)). pose proof (bpow_le radix2 5 199 ltac:(lia)). change (bpow radix2 0) with 1 in *. change (bpow radix2 5) with 32 in *. lra. }
  pose proof (bpow_le radix2 (-200) (-199) ltac:(lia)) as P1. pose proof (bpow_le radix2 199 200 ltac:(lia)) as P2.
  assert (N : forall x m, 0 <= m -> cnorm2 x = m * m -> cnorm x = m) by (intros x m Hm H; unfold cnorm; rewrite H; apply sqrt_square; exact Hm).
  assert (E25 : cnorm (exactly TVec (Vec c z z)) = 25). { apply N; [lra|]. unfold exactly. cbv -[B2R Rplus Rmult R0 IZR Ropp]. rewrite Bz, Bc. ring. }
  rewrite E25. cbn [length].
  split; [|split; [exact (proj1 S3)|split; [reflexivity|split; [apply Sz; lra|split; [|split; [|split]]]]]].
  - apply Forall_cons; [exact S1|]. apply Forall_cons; [|apply Forall_cons; [|apply Forall_nil]]; (split; [unfold all_finite; repeat constructor; assumption|]); (rewrite (N _ 1); [pose proof (Sz 1 ltac:(lra)); lra|lra|]; unfold exactly; cbv -[B2R Rplus Rmult R0 IZR Ropp]; rewrite Bz, Bo; ring).
  - cbn [INR]. pose proof rate_small. lra.
  - pose proof (powers_near_1 3 rate) as [A _]; [pose proof rate_small; lra|cbn [INR]; pose proof rate_small; lra|]. pose proof (Sz 1 ltac:(lra)). lra.
  - pose proof (powers_near_1 3 rate) as [_ [A _]]; [pose proof rate_small; lra|cbn [INR]; pose proof rate_small; lra|]. pose proof (bpow_le radix2 6 200 ltac:(lia)). change (bpow radix2 6) with 64 in *. lra.
  - cbn [map mirrored_all]. exists (Vec 7 0 (-24)). split; [exact M|]. exists (Vec 7 0 (-24)). split; [|exists (Vec 7 0 24); split; [|reflexivity]]; split.
    + cbv -[B2R Rplus Rmult R0 IZR Ropp]. rewrite Bz, Bo. ring.
    + exists 0. cbv -[B2R Rplus Rmult R0 IZR Ropp]. rewrite Bz, Bo. repeat (f_equal; try ring).
    + cbv -[B2R Rplus Rmult R0 IZR Ropp]. rewrite Bz, Bo. ring.
    + exists 48. cbv -[B2R Rplus Rmult R0 IZR Ropp]. rewrite Bz, Bo. repeat (f_equal; try ring).
Qed.
