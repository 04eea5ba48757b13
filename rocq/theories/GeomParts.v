(** * The parts of a vector along and across another, on binary64: proofs. *)

Require Import Reals ZArith List Bool Lra Lia.
From Flocq Require Import Core BinarySingleNaN.
Require Import Verif.Num Verif.Types Verif.OpsUni Verif.OpsMul Verif.Func Verif.SpecCl Verif.RealInst Verif.AlgTac Verif.AlgFacts Verif.SpecFunc Verif.SpecGeom
  Verif.FuncFacts Verif.B64 Verif.SpecRound Verif.SpecAcc Verif.SpecGeomAcc Verif.NormFacts Verif.GeomAcc Verif.ExtentFacts.
Local Open Scope R_scope.

Lemma dot_bound : forall a b : Vector R, Rabs (dot a b) <= cnorm (den TVec a) * cnorm (den TVec b).
Proof.
  intros a b. apply Rsqr_incr_0_var.
  - rewrite <- Rsqr_abs. unfold Rsqr. pose proof (cauchy_schwarz (den TVec a) (den TVec b)) as C.
    replace (cdot (den TVec a) (den TVec b)) with (dot a b) in C by (destruct a as [[a0 a1 a2]], b as [[b0 b1 b2]]; gcbv; ring).
    eapply Rle_trans; [exact C|]. right. rewrite <- !cnorm_sq. ring.
  - apply Rmult_le_pos; apply cnorm_nonneg.
Qed.

Lemma split_exists : forall n v : Vector R, 0 < dot n n -> exists p r, split_along n v p r.
Proof.
  intros n v P. exists (vtimes (dot v n / dot n n) n), (vplus v (vtimes (- (dot v n / dot n n)) n)). split; [|split; [exists (dot v n / dot n n); reflexivity|]].
  - generalize (dot v n / dot n n). clear. intros q. destruct n as [[n0 n1 n2]], v as [[v0 v1 v2]]. gcbv. repeat (f_equal; try ring).
  - revert P. destruct n as [[n0 n1 n2]], v as [[v0 v1 v2]]. gcbv. intros P. field. lra.
Qed.

Lemma parts_near : forall (n v p r p0 r0 : Vector R) d, split_along n v p0 r0 ->
  cnorm (csub (den TVec p) (den TVec p0)) <= d -> cnorm (csub (den TVec r) (den TVec r0)) <= d ->
  Rabs (dot r n) <= d * cnorm (den TVec n) /\ cnorm (den TVec (cross p n)) <= d * cnorm (den TVec n) /\
  cnorm (csub (cadd (den TVec p) (den TVec r)) (den TVec v)) <= 2 * d.
Proof.
  intros n v p r p0 r0 t (Ev & (a & Ea) & D0) E1 E3. assert (m0 : 0 <= cnorm (den TVec n)) by apply cnorm_nonneg. split; [|split].
  - set (d := vplus r (vtimes (-1) r0)). assert (Ed : cnorm (den TVec d) <= t).
    { eapply Rle_trans; [|exact E3]. right. apply cnorm_ceq. unfold d. clear. intros k. destruct r as [[x0 x1 x2]], r0 as [[y0 y1 y2]]. dblade k; unfold csub; gcbv; ring. }
    replace (dot r n) with (dot d n).
    + eapply Rle_trans; [apply dot_bound|]. apply Rmult_le_compat_r; assumption.
    + transitivity (dot r n - dot r0 n); [|lra]. unfold d. clear. destruct r as [[x0 x1 x2]], r0 as [[y0 y1 y2]], n as [[n0 n1 n2]]. gcbv. ring.
  - set (d := vplus p (vtimes (-1) p0)). assert (Ed : cnorm (den TVec d) <= t).
    { eapply Rle_trans; [|exact E1]. right. apply cnorm_ceq. unfold d. clear. intros k. destruct p as [[x0 x1 x2]], p0 as [[y0 y1 y2]]. dblade k; unfold csub; gcbv; ring. }
    replace (cross p n) with (cross d n).
    + apply Rle_trans with (cnorm (den TVec d) * cnorm (den TVec n)); [|apply Rmult_le_compat_r; assumption].
      apply Rsqr_incr_0_var; [|apply Rmult_le_pos; apply cnorm_nonneg]. unfold Rsqr. rewrite cnorm_sq.
      apply Rle_trans with ((cnorm (den TVec d) * cnorm (den TVec d)) * (cnorm (den TVec n) * cnorm (den TVec n))); [|right; ring].
      rewrite !cnorm_sq, !vec_n2. pose proof (Rle_0_sqr (dot d n)) as Q. unfold Rsqr in Q.
      replace (dot d d * dot n n) with (dot (cross d n) (cross d n) + dot d n * dot d n); [lra|]. clear. destruct d as [[x0 x1 x2]], n as [[n0 n1 n2]]. gcbv. ring.
    + unfold d. rewrite Ea. clear. destruct p as [[x0 x1 x2]], n as [[n0 n1 n2]]. gcbv. repeat (f_equal; try ring).
  - apply Rle_trans with (cnorm (cadd (csub (den TVec p) (den TVec p0)) (csub (den TVec r) (den TVec r0)))).
    + right. apply cnorm_ceq. intros k. rewrite Ev. clear. unfold csub, cadd. destruct p as [[x0 x1 x2]], p0 as [[y0 y1 y2]], r as [[s0 s1 s2]], r0 as [[t0 t1 t2]]. dblade k; gcbv; ring.
    + eapply Rle_trans; [apply cnorm_triangle|]. lra.
Qed.
Lemma odd_vec_near : forall (q : ImSpin f64) (w : Vector R), cnorm (csub (exactly TVec (imspVec q)) (den TVec w)) <= cnorm (csub (exactly TImsp q) (den TVec w)).
Proof.
  intros q w. rewrite ex_vec. pose proof (proj1 (part_diff_odd (mapv (fun v : f64 => B2R v) TImsp q) (mkImsp w (Tri 0)))) as D. cbn [imspVec] in D.
  eapply Rle_trans; [exact D|]. right. apply cnorm_ceq. intros k. apply f_equal. destruct w as [[w0 w1 w2]]. dblade k; reflexivity.
Qed.

Theorem parts_orthogonal : forall n v : Vector f64, sized TVec n -> sized TVec v ->
  let rn := mapv (fun v : f64 => B2R v) TVec n in
  let p := mapv (fun v : f64 => B2R v) TVec (mul TSca TVec (spinSca (mul TVec TVec v n)) (inverse_Vec n)) in
  let r := mapv (fun v : f64 => B2R v) TVec (imspVec (mul TBiv TVec (spinBiv (mul TVec TVec v n)) (inverse_Vec n))) in
  Rabs (dot r rn) <= 72 * unit_roundoff * (cnorm (exactly TVec v) * cnorm (exactly TVec n)) /\
  cnorm (den TVec (cross p rn)) <= 72 * unit_roundoff * (cnorm (exactly TVec v) * cnorm (exactly TVec n)) /\
  cnorm (csub (cadd (den TVec p) (den TVec r)) (exactly TVec v)) <= 144 * unit_roundoff * cnorm (exactly TVec v).
Proof.
  intros n v Sn Sv rn p r. pose proof (sized_pos TVec n Sn) as PN. change (exactly TVec n) with (den TVec rn) in *. rewrite vec_n2 in PN.
  destruct (projection_accurate n v Sn Sv) as (_ & _ & H). destruct (split_exists rn (mapv (fun v : f64 => B2R v) TVec v) PN) as (p0 & r0 & Hs). destruct (H p0 r0 Hs) as [E1 E2]. clear H.
  pose proof (Rle_trans _ _ _ (odd_vec_near _ _) E2) as E3.
  destruct (parts_near rn _ p r p0 r0 _ Hs E1 E3) as (A & C & D). split; [lra|]. split; [lra|].
  eapply Rle_trans; [|eapply Rle_trans; [exact D|lra]]. right. reflexivity.
Qed.

Theorem parts_orthogonal_plane : forall (B : BiVector f64) (v : Vector f64), sized TBiv B -> sized TVec v ->
  let n := axis (mapv (fun v : f64 => B2R v) TBiv B) in
  let p := mapv (fun v : f64 => B2R v) TVec (imspVec (mul TVec TBiv (imspVec (mul TVec TBiv v B)) (inverse_Biv B))) in
  let r := mapv (fun v : f64 => B2R v) TVec (mul TTri TBiv (imspTri (mul TVec TBiv v B)) (inverse_Biv B)) in
  Rabs (dot p n) <= 72 * unit_roundoff * (cnorm (exactly TVec v) * cnorm (exactly TBiv B)) /\
  cnorm (den TVec (cross r n)) <= 72 * unit_roundoff * (cnorm (exactly TVec v) * cnorm (exactly TBiv B)) /\
  cnorm (csub (cadd (den TVec p) (den TVec r)) (exactly TVec v)) <= 144 * unit_roundoff * cnorm (exactly TVec v).
Proof.
  intros B v SB Sv n p r. pose proof (sized_pos TBiv B SB) as PN. change (exactly TBiv B) with (den TBiv (mapv (fun v : f64 => B2R v) TBiv B)) in PN. rewrite biv_n2 in PN. fold n in PN.
  assert (NB : cnorm (exactly TBiv B) = cnorm (den TVec n)). { unfold cnorm. f_equal. rewrite vec_n2. exact (biv_n2 (mapv (fun v : f64 => B2R v) TBiv B)). }
  destruct (projection_plane_accurate B v SB Sv) as (_ & _ & H). destruct (split_exists n (mapv (fun v : f64 => B2R v) TVec v) PN) as (r0 & p0 & Hs). destruct (H r0 p0 Hs) as [E1 E2]. clear H.
  pose proof (Rle_trans _ _ _ (odd_vec_near _ _) E1) as E3.
  destruct (parts_near n _ r p r0 p0 _ Hs E2 E3) as (A & C & D). rewrite NB. split; [lra|]. split; [lra|].
  eapply Rle_trans; [|eapply Rle_trans; [exact D|lra]]. right. apply cnorm_ceq. intros k. unfold csub, cadd, exactly. ring.
Qed.

(** ** Projecting twice *)
Lemma across_norm : forall n p : Vector R, 0 < dot n n -> forall p0 r0, split_along n p p0 r0 ->
  cnorm (csub (den TVec p0) (den TVec p)) * cnorm (den TVec n) = cnorm (den TVec (cross p n)).
Proof.
  intros n p P p0 r0 Hs. destruct (split_unique n p p0 r0 P Hs) as [-> _]. apply Rsqr_inj; [apply Rmult_le_pos; apply cnorm_nonneg|apply cnorm_nonneg|]. unfold Rsqr.
  transitivity ((cnorm (csub (den TVec (vtimes (dot p n / dot n n) n)) (den TVec p)) * cnorm (csub (den TVec (vtimes (dot p n / dot n n) n)) (den TVec p))) * (cnorm (den TVec n) * cnorm (den TVec n))); [ring|].
  rewrite !cnorm_sq. revert P. clear. destruct n as [[n0 n1 n2]], p as [[v0 v1 v2]]. unfold cnorm2. gcbv. intros P. field. lra.
Qed.
Theorem projected_twice : forall n v : Vector f64, sized TVec n -> sized TVec v ->
  let proj := fun x : Vector f64 => mul TSca TVec (spinSca (mul TVec TVec x n)) (inverse_Vec n) : Vector f64 in
  sized TVec (proj v) ->
  cnorm (csub (exactly TVec (proj (proj v))) (exactly TVec (proj v))) <= 145 * unit_roundoff * cnorm (exactly TVec v).
Proof.
  intros n v Sn Sv proj Sp. pose proof (sized_pos TVec n Sn) as PN. pose proof PN as PN'. set (rn := mapv (fun v : f64 => B2R v) TVec n). change (exactly TVec n) with (den TVec rn) in *. rewrite vec_n2 in PN.
  assert (N0 : 0 < cnorm (den TVec rn)) by (unfold cnorm; apply sqrt_lt_R0; exact PN').
  destruct (parts_orthogonal n v Sn Sv) as (_ & C & _). fold rn in C. change (exactly TVec n) with (den TVec rn) in C.
  destruct (projection_accurate n (proj v) Sn Sp) as (_ & _ & H). destruct (projection_accurate n v Sn Sv) as (_ & _ & K). fold rn in H, K.
  destruct (split_exists rn (mapv (fun v : f64 => B2R v) TVec (proj v)) PN) as (p0 & r0 & Hs). destruct (H p0 r0 Hs) as [E _]. clear H.
  destruct (split_exists rn (mapv (fun v : f64 => B2R v) TVec v) PN) as (p1 & r1 & Hs1). destruct (K p1 r1 Hs1) as [E1 _]. clear K.
  pose proof (across_norm rn _ PN _ _ Hs) as A. fold (proj v) in C. fold (proj (proj v)) in E. fold (proj v) in E1. change (den TVec (mapv (fun v : f64 => B2R v) TVec (proj v))) with (exactly TVec (proj v)) in A.
  assert (D : cnorm (csub (den TVec p0) (exactly TVec (proj v))) <= 72 * unit_roundoff * cnorm (exactly TVec v)).
  { apply Rmult_le_reg_r with (cnorm (den TVec rn)); [exact N0|]. rewrite A. lra. }
  assert (L : cnorm (den TVec p1) <= cnorm (exactly TVec v)).
  { destruct (split_unique _ _ _ _ PN Hs1) as [-> _]. change (exactly TVec v) with (den TVec (mapv (fun v : f64 => B2R v) TVec v)). set (x := mapv _ TVec v) in *. clearbody x.
    unfold cnorm. apply sqrt_le_1_alt. rewrite !vec_n2. 
    assert (I : dot (vtimes (dot x rn / dot rn rn) rn) (vtimes (dot x rn / dot rn rn) rn) + dot (vplus x (vtimes (- (dot x rn / dot rn rn)) rn)) (vplus x (vtimes (- (dot x rn / dot rn rn)) rn)) = dot x x).
    { revert PN. clear. destruct rn as [[n0 n1 n2]], x as [[v0 v1 v2]]. gcbv. intros P. field. lra. }
    pose proof (cnorm_nonneg (den TVec (vplus x (vtimes (- (dot x rn / dot rn rn)) rn)))) as J. pose proof (Rmult_le_pos _ _ J J) as J2. rewrite cnorm_sq, vec_n2 in J2. lra. }
  assert (M : cnorm (exactly TVec (proj v)) <= cnorm (exactly TVec v) + 72 * unit_roundoff * cnorm (exactly TVec v)).
  { rewrite (cnorm_ceq (exactly TVec (proj v)) (cadd (den TVec p1) (csub (exactly TVec (proj v)) (den TVec p1)))) by (intros k; unfold cadd, csub; ring). eapply Rle_trans; [apply cnorm_triangle|]. lra. }
  rewrite (cnorm_ceq _ (cadd (csub (exactly TVec (proj (proj v))) (den TVec p0)) (csub (den TVec p0) (exactly TVec (proj v))))) by (intros k; unfold cadd, csub; ring).
  eapply Rle_trans; [apply cnorm_triangle|]. assert (m0 : 0 <= cnorm (exactly TVec v)) by apply cnorm_nonneg. rewrite u_val in *. lra.
Qed.
Lemma example_again : let z := f64_lit 0 0 in let n := Vec (f64_lit 3 0) z (f64_lit 4 0) : Vector f64 in let v := Vec (f64_lit 25 0) z z : Vector f64 in
  sized TVec n /\ sized TVec v /\ sized TVec (mul TSca TVec (spinSca (mul TVec TVec v n)) (inverse_Vec n)).
Proof.
  destruct example_geom as (Sn & _ & Sv & _ & _ & Hs). cbv zeta. split; [exact Sn|]. split; [exact Sv|].
  destruct (projection_accurate _ _ Sn Sv) as (F & _ & H). destruct (H _ _ Hs) as [E _]. split; [exact F|]. clear H F Hs Sn.
  set (q := exactly TVec (mul TSca TVec _ _)) in *. set (m := cnorm (exactly TVec _)) in E.
  assert (M : m = 25).
  { unfold m, cnorm. rewrite <- (sqrt_square 25) by lra. f_equal. destruct (lit_of 0 0 ltac:(lia) ltac:(lia)) as [_ Bz]. destruct (lit_of 25 0 ltac:(lia) ltac:(lia)) as [_ Bc].
    change (bpow radix2 0) with 1 in *. rewrite Rmult_1_r in *. unfold exactly. set (z := f64_lit 0 0) in *. set (c := f64_lit 25 0) in *. clearbody z c. cbv -[B2R Rplus Rmult R0 IZR Ropp]. rewrite Bz, Bc. ring. }
  rewrite M, u_val in E. clearbody q. assert (P : cnorm (den TVec (Vec 9 0 12)) = 15) by (unfold cnorm; rewrite vec_n2; replace (dot _ _) with (15 * 15) by (gcbv; ring); apply sqrt_square; lra).
  assert (A : cnorm q <= cnorm (den TVec (Vec 9 0 12)) + cnorm (csub q (den TVec (Vec 9 0 12)))).
  { rewrite (cnorm_ceq q (cadd (den TVec (Vec 9 0 12)) (csub q (den TVec (Vec 9 0 12))))) at 1 by (intros k; unfold cadd, csub; ring). apply cnorm_triangle. }
  assert (B : cnorm (den TVec (Vec 9 0 12)) <= cnorm q + cnorm (csub q (den TVec (Vec 9 0 12)))).
  { rewrite (cnorm_ceq (den TVec (Vec 9 0 12)) (cadd q (copp (csub q (den TVec (Vec 9 0 12)))))) at 1 by (intros k; unfold cadd, copp, csub; ring). eapply Rle_trans; [apply cnorm_triangle|]. rewrite cnorm_opp. lra. }
  rewrite P in A, B. pose proof (bpow_le radix2 (-200) 0 ltac:(lia)). pose proof (bpow_le radix2 5 200 ltac:(lia)). change (bpow radix2 0) with 1 in *. change (bpow radix2 5) with 32 in *. lra.
Qed.
