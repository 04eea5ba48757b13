(** * Reflections and projections on binary64: proofs. *)

Require Import Reals ZArith List Bool Lra Lia.
From Flocq Require Import Core BinarySingleNaN.
Require Import Verif.Num Verif.Types Verif.Priv Verif.OpsUni Verif.OpsMul Verif.Func Verif.SpecCl Verif.RealInst Verif.AlgTac Verif.AlgMul Verif.AlgFacts Verif.SpecFunc Verif.SpecGeom
  Verif.FuncFacts Verif.Rel Verif.B64 Verif.B64Facts Verif.SpecValid Verif.SpecRound Verif.ErrFacts Verif.SpecAcc Verif.BoundFacts Verif.AccFacts Verif.AccThm Verif.NormFacts Verif.SpecGeomAcc Verif.ExtentFacts.
Import ListNotations.
Local Open Scope R_scope.
Ltac gcbv := cbv -[Rplus Rminus Rmult Ropp Rdiv Rinv R R0 R1 IZR Rabs].

(** ** Norms from bounds on the components *)
Lemma cnorm_mono : forall a b : clf, (forall k, Rabs (a k) <= b k) -> cnorm a <= cnorm b.
Proof.
  intros a b H. unfold cnorm. apply sqrt_le_1_alt.
  assert (K : forall k, a k * a k <= b k * b k).
  { intros k. specialize (H k). pose proof (Rabs_pos (a k)). replace (a k * a k) with (Rabs (a k) * Rabs (a k)) by (rewrite <- Rabs_mult, Rabs_pos_eq; [reflexivity|apply Rle_0_sqr]). apply Rmult_le_compat; lra. }
  assert (E : forall c : clf, cnorm2 c = c bS * c bS + c bE1 * c bE1 + c bE2 * c bE2 + c bE3 * c bE3 + c bE12 * c bE12 + c bE13 * c bE13 + c bE23 * c bE23 + c bE123 * c bE123)
    by (intros c; unfold cnorm2; cbv -[Rplus Rmult R0 IZR bS bE1 bE2 bE3 bE12 bE13 bE23 bE123]; ring).
  rewrite !E. pose proof (K bS). pose proof (K bE1). pose proof (K bE2). pose proof (K bE3). pose proof (K bE12). pose proof (K bE13). pose proof (K bE23). pose proof (K bE123). lra.
Qed.
Lemma cnorm_comps : forall (d x : clf) al be, 0 <= al -> 0 <= be -> (forall k, Rabs (d k) <= al * Rabs (x k) + be) -> cnorm d <= al * cnorm x + 3 * be.
Proof.
  intros d x al be Ha Hb H. apply Rle_trans with (cnorm (cadd (cscale al (fun k => Rabs (x k))) (cscale be (fun _ => 1)))).
  - apply cnorm_mono. intros k. unfold cadd, cscale. rewrite Rmult_1_r. apply H.
  - eapply Rle_trans; [apply cnorm_triangle|]. rewrite !cnorm_scale, !Rabs_pos_eq by assumption. apply Rplus_le_compat.
    + apply Rmult_le_compat_l; [exact Ha|]. unfold cnorm. apply sqrt_le_1_alt. right. 
      unfold cnorm2. cbv -[Rplus Rmult R0 IZR Rabs]. rewrite <- !Rabs_mult. rewrite !(Rabs_pos_eq (_ * _)) by apply Rle_0_sqr. reflexivity.
    + rewrite (Rmult_comm 3). apply Rmult_le_compat_l; [exact Hb|]. unfold cnorm. replace (cnorm2 (fun _ : blade => 1)) with 8 by (unfold cnorm2; cbv -[Rplus Rmult R0 IZR]; ring).
      rewrite <- (sqrt_square 3) by lra. apply sqrt_le_1_alt. lra.
Qed.

Lemma cnorm_opp : forall a, cnorm (copp a) = cnorm a.
Proof. intros a. unfold cnorm. f_equal. unfold cnorm2. cbv -[Rplus Rmult Ropp R0 IZR]. ring. Qed.

(** ** Parts *)
Lemma part_norms : forall x : Spinor R, cnorm (den TSca (spinSca x)) <= cnorm (den TSpin x) /\ cnorm (den TBiv (spinBiv x)) <= cnorm (den TSpin x).
Proof.
  intros [[[c]] [[x y z]]]. split; unfold cnorm; apply sqrt_le_1_alt; unfold cnorm2; gcbv.
  - pose proof (Rle_0_sqr x). pose proof (Rle_0_sqr y). pose proof (Rle_0_sqr z). unfold Rsqr in *. lra.
  - pose proof (Rle_0_sqr c). unfold Rsqr in *. lra.
Qed.
Lemma part_norms_odd : forall x : ImSpin R, cnorm (den TVec (imspVec x)) <= cnorm (den TImsp x) /\ cnorm (den TTri (imspTri x)) <= cnorm (den TImsp x).
Proof.
  intros [[[x y z]] [[c]]]. split; unfold cnorm; apply sqrt_le_1_alt; unfold cnorm2; gcbv.
  - pose proof (Rle_0_sqr c). unfold Rsqr in *. lra.
  - pose proof (Rle_0_sqr x). pose proof (Rle_0_sqr y). pose proof (Rle_0_sqr z). unfold Rsqr in *. lra.
Qed.
Lemma part_diff : forall x y : Spinor R, cnorm (csub (den TSca (spinSca x)) (den TSca (spinSca y))) <= cnorm (csub (den TSpin x) (den TSpin y)) /\
  cnorm (csub (den TBiv (spinBiv x)) (den TBiv (spinBiv y))) <= cnorm (csub (den TSpin x) (den TSpin y)).
Proof.
  intros [[[c]] [[x y z]]] [[[d]] [[u v w]]]. pose proof (part_norms (mkSpin (Sca (c - d)) (Biv (x - u) (y - v) (z - w)))) as [P1 P2]. split.
  - eapply Rle_trans; [|eapply Rle_trans; [exact P1|]]; right; apply cnorm_ceq; intros k; dblade k; unfold csub; gcbv; ring.
  - eapply Rle_trans; [|eapply Rle_trans; [exact P2|]]; right; apply cnorm_ceq; intros k; dblade k; unfold csub; gcbv; ring.
Qed.
Lemma part_diff_odd : forall x y : ImSpin R, cnorm (csub (den TVec (imspVec x)) (den TVec (imspVec y))) <= cnorm (csub (den TImsp x) (den TImsp y)) /\
  cnorm (csub (den TTri (imspTri x)) (den TTri (imspTri y))) <= cnorm (csub (den TImsp x) (den TImsp y)).
Proof.
  intros [[[x y z]] [[c]]] [[[u v w]] [[d]]]. pose proof (part_norms_odd (mkImsp (Vec (x - u) (y - v) (z - w)) (Tri (c - d)))) as [P1 P2]. split.
  - eapply Rle_trans; [|eapply Rle_trans; [exact P1|]]; right; apply cnorm_ceq; intros k; dblade k; unfold csub; gcbv; ring.
  - eapply Rle_trans; [|eapply Rle_trans; [exact P2|]]; right; apply cnorm_ceq; intros k; dblade k; unfold csub; gcbv; ring.
Qed.

(** ** One division *)
Lemma u_val : unit_roundoff = / 9007199254740992.
Proof. unfold unit_roundoff; simpl; lra. Qed.
Lemma eta_small : forall m, bpow radix2 (-400) <= m -> underflow_unit <= / 1000000 * (unit_roundoff * m).
Proof.
  intros m H. apply Rle_trans with (bpow radix2 (-20) * (unit_roundoff * bpow radix2 (-400))).
  - unfold underflow_unit, unit_roundoff. rewrite <- !bpow_plus. apply bpow_le. lia.
  - pose proof u53_pos. change u53 with unit_roundoff in *. pose proof (bpow_gt_0 radix2 (-400)).
    apply Rmult_le_compat; [apply bpow_ge_0|apply Rmult_le_pos; lra|simpl; lra|apply Rmult_le_compat_l; lra].
Qed.

Lemma inv_norm : forall t inv (x : val f64 t), inverts t inv -> sized t x -> let X := exactly t x in let n := cnorm X in
  all_finite t (inv x) /\ cnorm (csub (exactly t (inv x)) (cscale (/ cnorm2 X) (crev X))) <= 15 * unit_roundoff * / n /\ cnorm (cscale (/ cnorm2 X) (crev X)) = / n.
Proof.
  intros t inv x I (F & N1 & N2) X n. fold X n in N1, N2. pose proof (bpow_gt_0 radix2 (-200)) as P200. assert (n0 : 0 < n) by lra.
  assert (nn : n * n = cnorm2 X) by apply cnorm_sq.
  destruct (I x F) as (Fi & C & _). { fold X n. split; [eapply Rle_trans; [|exact N1]|eapply Rle_trans; [exact N2|]]; apply bpow_le; lia. }
  fold X in C. split; [exact Fi|]. split.
  - apply Rle_trans with (14 * unit_roundoff * / cnorm2 X * cnorm X + 3 * underflow_unit).
    + pose proof u53_pos. change u53 with unit_roundoff in *. apply cnorm_comps.
      * apply Rmult_le_pos; [lra|]. left. apply Rinv_0_lt_compat. rewrite <- nn. apply Rmult_lt_0_compat; assumption.
      * left. apply bpow_gt_0.
      * intros k. eapply Rle_trans; [|eapply Rle_trans; [exact (C k)|]]; [right; unfold csub, cscale; f_equal; unfold Rdiv; ring|]. right. unfold Rdiv. ring.
    + fold n. rewrite <- nn. replace (14 * unit_roundoff * / (n * n) * n) with (14 * unit_roundoff * / n) by (field; lra).
      assert (E : bpow radix2 (-400) <= / n).
      { apply Rle_trans with (/ bpow radix2 200); [rewrite <- bpow_opp; apply bpow_le; lia|]. apply Rinv_le; assumption. }
      pose proof (eta_small (/ n) E). pose proof u53_pos. change u53 with unit_roundoff in *. assert (0 < unit_roundoff * / n) by (apply Rmult_lt_0_compat; [assumption|apply Rinv_0_lt_compat, n0]). lra.
  - rewrite cnorm_scale, Rabs_pos_eq by (left; apply Rinv_0_lt_compat; rewrite <- nn; apply Rmult_lt_0_compat; assumption).
    unfold cnorm at 1. rewrite cnorm2_rev. fold (cnorm X). fold n. rewrite <- nn. field. lra.
Qed.

Lemma divided : forall t1 t2 (y : val f64 t1) (Y : clf) (z : val f64 t2) (Z : clf) m n,
  unmixed t1 = true -> rev_scalar Z -> all_finite _ (mul t1 t2 y z) -> 0 < n -> bpow radix2 (-200) <= m ->
  cnorm (csub (exactly t1 y) Y) <= 27 * unit_roundoff * (m * n) -> cnorm Y <= m * n ->
  cnorm (csub (exactly t2 z) Z) <= 15 * unit_roundoff * / n -> cnorm Z = / n ->
  cnorm (csub (exactly _ (mul t1 t2 y z)) (gp Y Z)) <= 72 * unit_roundoff * m.
Proof.
  intros t1 t2 y Y z Z m n Hu HZ F n0 Hm H1 H2 H3 H4. pose proof (bpow_gt_0 radix2 (-200)) as P200. assert (m0 : 0 < m) by lra.
  pose proof u53_pos as U. change u53 with unit_roundoff in U. pose proof u_val as UV.
  assert (mn : 0 < m * n) by (apply Rmult_lt_0_compat; assumption). assert (in0 : 0 < / n) by (apply Rinv_0_lt_compat, n0).
  pose proof (mul_norm_error t1 t2 y z F) as E. change u53 with unit_roundoff in E. change eta with underflow_unit in E.
  set (ey := exactly t1 y) in *. set (ez := exactly t2 z) in *.
  assert (umn : unit_roundoff * (m * n) = / 9007199254740992 * (m * n)) by (rewrite UV; reflexivity).
  assert (uin : unit_roundoff * / n = / 9007199254740992 * / n) by (rewrite UV; reflexivity).
  assert (Ny : cnorm ey <= 101 / 100 * (m * n)) by (pose proof (norm_le_sub ey Y); lra).
  assert (Nz : cnorm ez <= 101 / 100 * / n) by (pose proof (norm_le_sub ez Z); lra).
  pose proof (cnorm_nonneg ey) as y0. pose proof (cnorm_nonneg ez) as z0.
  assert (Nyz : cnorm ey * cnorm ez <= 103 / 100 * m).
  { apply Rle_trans with (101 / 100 * (m * n) * (101 / 100 * / n)); [apply Rmult_le_compat; assumption|].
    replace (101 / 100 * (m * n) * (101 / 100 * / n)) with (101 / 100 * (101 / 100) * m) by (field; lra). lra. }
  assert (G : cnorm (csub (gp ey ez) (gp Y Z)) <= 44 * unit_roundoff * m).
  { eapply Rle_trans; [apply (norm_sub_le _ (gp ey Z))|].
    rewrite (cnorm_ceq (csub (gp ey ez) (gp ey Z)) (gp ey (csub ez Z))) by (intros k; symmetry; apply gp_sub_r).
    rewrite (cnorm_ceq (csub (gp ey Z) (gp Y Z)) (gp (csub ey Y) Z)) by (intros k; symmetry; apply gp_sub_l).
    rewrite norm_gp_l by (apply (unmixed_rev t1 (mapv (fun v : f64 => B2R v) t1 y)); exact Hu). rewrite norm_gp_r by exact HZ. rewrite H4.
    assert (X1 : cnorm ey * cnorm (csub ez Z) <= 101 / 100 * (m * n) * (15 * unit_roundoff * / n)) by (apply Rmult_le_compat; [exact y0|apply cnorm_nonneg|exact Ny|exact H3]).
    assert (X2 : cnorm (csub ey Y) * / n <= 27 * unit_roundoff * (m * n) * / n) by (apply Rmult_le_compat_r; lra).
    replace (101 / 100 * (m * n) * (15 * unit_roundoff * / n)) with (101 / 100 * 15 * (unit_roundoff * m)) in X1 by (field; lra).
    replace (27 * unit_roundoff * (m * n) * / n) with (27 * (unit_roundoff * m)) in X2 by (field; lra).
    assert (0 < unit_roundoff * m) by (apply Rmult_lt_0_compat; assumption). lra. }
  assert (um : 0 < unit_roundoff * m) by (apply Rmult_lt_0_compat; assumption).
  assert (Et : underflow_unit <= / 1000000 * (unit_roundoff * m)) by (apply eta_small; eapply Rle_trans; [|exact Hm]; apply bpow_le; lia).
  assert (Eu : 26 * unit_roundoff * (cnorm ey * cnorm ez) <= 26 * unit_roundoff * (103 / 100 * m)) by (apply Rmult_le_compat_l; lra).
  eapply Rle_trans; [apply (norm_sub_le _ (gp ey ez))|]. lra.
Qed.

(** ** The products *)
Lemma prod_ok : forall t1 t2 (x : val f64 t1) (y : val f64 t2), unmixed t1 = true -> sized t1 x -> sized t2 y ->
  let m := cnorm (exactly t1 x) in let n := cnorm (exactly t2 y) in
  within 403 _ (mul t1 t2 x y) /\ cnorm (csub (exactly _ (mul t1 t2 x y)) (gp (exactly t1 x) (exactly t2 y))) <= 27 * unit_roundoff * (m * n) /\
  cnorm (gp (exactly t1 x) (exactly t2 y)) = m * n /\ 0 < m * n.
Proof.
  intros t1 t2 x y Hu (Fx & X1 & X2) (Fy & Y1 & Y2) m n. fold m in X1, X2. fold n in Y1, Y2. pose proof (bpow_gt_0 radix2 (-200)) as P200.
  assert (W : within 403 _ (mul t1 t2 x y)).
  { change 403%Z with (200 + 200 + 3)%Z. apply mul_within; [lia|lia|apply norm_within; assumption|apply norm_within; assumption]. }
  assert (F : all_finite _ (mul t1 t2 x y)) by (eapply Forall_impl; [|exact W]; intros v [f _]; exact f).
  assert (mn : 0 < m * n) by (apply Rmult_lt_0_compat; lra).
  split; [exact W|]. split; [|split; [|exact mn]].
  - pose proof (mul_norm_error t1 t2 x y F) as E. change u53 with unit_roundoff in E. change eta with underflow_unit in E. fold m n in E.
    assert (L : bpow radix2 (-400) <= m * n).
    { change (-400)%Z with (-200 + -200)%Z. rewrite bpow_plus. apply Rmult_le_compat; lra. }
    pose proof (eta_small _ L). pose proof u53_pos as U. change u53 with unit_roundoff in U. assert (0 < unit_roundoff * (m * n)) by (apply Rmult_lt_0_compat; assumption). lra.
  - apply norm_gp_l. apply (unmixed_rev t1 (mapv (fun v : f64 => B2R v) t1 x)). exact Hu.
Qed.
Lemma within_spin : forall e (p : Spinor f64), within e TSpin p -> within e TSca (spinSca p) /\ within e TBiv (spinBiv p).
Proof. intros e [[[c]] [[x y z]]] W. unfold within in *. cbn in *. inversion W; subst. split; [apply Forall_cons; [exact H1|apply Forall_nil]|exact H2]. Qed.
Lemma within_imsp : forall e (p : ImSpin f64), within e TImsp p -> within e TVec (imspVec p) /\ within e TTri (imspTri p).
Proof.
  intros e [[[x y z]] [[c]]] W. unfold within in *. change (elems TImsp _) with [x; y; z; c] in W. change (elems TVec _) with [x; y; z]. change (elems TTri _) with [c].
  inversion W as [|? ? A W1]; subst. inversion W1 as [|? ? B W2]; subst. inversion W2 as [|? ? C W3]; subst.
  split; [repeat (apply Forall_cons; [assumption|]); apply Forall_nil|exact W3].
Qed.
Lemma fin_div : forall t1 t2 (y : val f64 t1) (z : val f64 t2) n, within 403 t1 y -> all_finite t2 z -> bpow radix2 (-200) <= n ->
  cnorm (exactly t2 z) <= 101 / 100 * / n -> all_finite _ (mul t1 t2 y z).
Proof.
  intros t1 t2 y z n W F Hn H. pose proof (bpow_gt_0 radix2 (-200)) as P200.
  assert (Wz : within 201 t2 z).
  { apply norm_within; [exact F|]. eapply Rle_trans; [exact H|]. change 201%Z with (1 + 200)%Z. rewrite bpow_plus. change (bpow radix2 1) with 2.
    assert (/ n <= bpow radix2 200). { change 200%Z with (- (-200))%Z. rewrite bpow_opp. apply Rinv_le; assumption. } pose proof (bpow_gt_0 radix2 200). lra. }
  eapply Forall_impl; [|exact (mul_within 403 201 t1 t2 y z ltac:(lia) ltac:(lia) W Wz)]. intros v [f _]; exact f.
Qed.
(** The exact inverse. *)
Definition rinv (t : ty) (x : val R t) : val R t := scale t (/ cnorm2 (den t x)) (reverse t x).
Lemma rinv_den : forall t (x : val R t), ceq (den t (rinv t x)) (cscale (/ cnorm2 (den t x)) (crev (den t x))).
Proof. intros t x. unfold rinv. rewrite (scale_den t). intros k. unfold cscale. rewrite (reverse_den t x k). reflexivity. Qed.

(** A part of a product of [x] and [y], divided by [y]. *)
Lemma quotient : forall t1 t2 (y : val f64 t1) (Y : val R t1) inv (x : val f64 t2) m, unmixed t1 = true -> unmixed t2 = true ->
  inverts t2 inv -> sized t2 x -> bpow radix2 (-200) <= m -> within 403 t1 y -> let n := cnorm (exactly t2 x) in
  cnorm (csub (exactly t1 y) (den t1 Y)) <= 27 * unit_roundoff * (m * n) -> cnorm (den t1 Y) <= m * n ->
  all_finite _ (mul t1 t2 y (inv x)) /\
  cnorm (csub (exactly _ (mul t1 t2 y (inv x))) (den _ (mul t1 t2 Y (rinv t2 (mapv (fun v : f64 => B2R v) t2 x))))) <= 72 * unit_roundoff * m.
Proof.
  intros t1 t2 y Y inv x m U1 U2 I Sx Hm W n H1 H2. destruct (inv_norm t2 inv x I Sx) as (Fi & N1 & N2). fold n in N1, N2.
  set (Z := rinv t2 (mapv (fun v : f64 => B2R v) t2 x)). pose proof (rinv_den t2 (mapv (fun v : f64 => B2R v) t2 x)) as HZ. fold Z in HZ. change (den t2 (mapv (fun v : f64 => B2R v) t2 x)) with (exactly t2 x) in HZ.
  destruct Sx as (Fx & X1 & X2). fold n in X1, X2. pose proof (bpow_gt_0 radix2 (-200)) as P200. assert (n0 : 0 < n) by lra. assert (in0 : 0 < / n) by (apply Rinv_0_lt_compat, n0).
  rewrite <- (cnorm_ceq _ _ HZ) in N2.
  assert (N1' : cnorm (csub (exactly t2 (inv x)) (den t2 Z)) <= 15 * unit_roundoff * / n).
  { eapply Rle_trans; [|exact N1]. right. apply cnorm_ceq. intros k. unfold csub. rewrite (HZ k). reflexivity. }
  assert (uin : unit_roundoff * / n = / 9007199254740992 * / n) by (rewrite u_val; reflexivity).
  assert (Nz : cnorm (exactly t2 (inv x)) <= 101 / 100 * / n) by (pose proof (norm_le_sub (exactly t2 (inv x)) (den t2 Z)); lra).
  pose proof (fin_div t1 t2 y (inv x) n W Fi X1 Nz) as F. split; [exact F|].
  rewrite (cnorm_ceq _ (csub (exactly _ (mul t1 t2 y (inv x))) (gp (den t1 Y) (den t2 Z)))) by (intros k; unfold csub; rewrite (mul_den t1 t2 Y Z k); reflexivity).
  apply (divided t1 t2 y (den t1 Y) (inv x) (den t2 Z) m n); try assumption. apply unmixed_rev, U2.
Qed.

Lemma ex_sca : forall p : Spinor f64, exactly TSca (spinSca p) = den TSca (spinSca (mapv (fun v : f64 => B2R v) TSpin p)).
Proof. intros [[[c]] [[x y z]]]. reflexivity. Qed.
Lemma ex_biv : forall p : Spinor f64, exactly TBiv (spinBiv p) = den TBiv (spinBiv (mapv (fun v : f64 => B2R v) TSpin p)).
Proof. intros [[[c]] [[x y z]]]. reflexivity. Qed.
Lemma ex_vec : forall p : ImSpin f64, exactly TVec (imspVec p) = den TVec (imspVec (mapv (fun v : f64 => B2R v) TImsp p)).
Proof. intros [[[x y z]] [[c]]]. reflexivity. Qed.
Lemma ex_tri : forall p : ImSpin f64, exactly TTri (imspTri p) = den TTri (imspTri (mapv (fun v : f64 => B2R v) TImsp p)).
Proof. intros [[[x y z]] [[c]]]. reflexivity. Qed.

Lemma split_unique : forall n v p r, 0 < dot n n -> split_along n v p r -> p = vtimes (dot v n / dot n n) n /\ r = vplus v (vtimes (- (dot v n / dot n n)) n).
Proof.
  intros n v p r N (E & (a & Ep) & D). assert (A : a = dot v n / dot n n).
  { assert (dot v n = a * dot n n). { subst v p. transitivity (a * dot n n + dot r n); [|lra]. clear. destruct n as [[n0 n1 n2]], r as [[r0 r1 r2]]. gcbv. ring. } rewrite H. field. lra. }
  rewrite <- A. split; [exact Ep|]. subst p v. clear. destruct n as [[n0 n1 n2]], r as [[r0 r1 r2]]. gcbv. f_equal. repeat (f_equal; try ring).
Qed.
Lemma mirror_unique : forall n v w, 0 < dot n n -> mirrored n v w -> w = vplus v (vtimes (- (2 * (dot v n / dot n n))) n).
Proof.
  intros n v w N (D & (a & E)). assert (A : a = - (2 * (dot v n / dot n n))).
  { assert (0 = 2 * dot v n + a * dot n n). { rewrite <- D, E. clear. destruct n as [[n0 n1 n2]], v as [[r0 r1 r2]]. gcbv. ring. } field_simplify_eq; lra. }
  rewrite <- A. exact E.
Qed.
Lemma vec_n2 : forall a : Vector R, cnorm2 (den TVec a) = dot a a.
Proof. intros [[a0 a1 a2]]. unfold cnorm2. gcbv. ring. Qed.
Lemma biv_n2 : forall a : BiVector R, cnorm2 (den TBiv a) = dot (axis a) (axis a).
Proof. intros [[a0 a1 a2]]. unfold cnorm2. gcbv. ring. Qed.
Lemma sized_pos : forall t (x : val f64 t), sized t x -> 0 < cnorm2 (exactly t x).
Proof. intros t x (_ & H & _). pose proof (bpow_gt_0 radix2 (-200)). rewrite <- cnorm_sq. apply Rmult_lt_0_compat; lra. Qed.

Theorem reflection_accurate : forall n v : Vector f64, sized TVec n -> sized TVec v ->
  let rn := mapv (fun v : f64 => B2R v) TVec n in let rv := mapv (fun v : f64 => B2R v) TVec v in
  let r := neg TImsp (mul TSpin TVec (mul TVec TVec n v) (inverse_Vec n)) in
  all_finite TImsp r /\ forall w, mirrored rn rv w -> cnorm (csub (exactly TImsp r) (den TVec w)) <= 72 * unit_roundoff * cnorm (exactly TVec v).
Proof.
  intros n v Sn Sv rn rv r. destruct (prod_ok TVec TVec n v eq_refl Sn Sv) as (W & E & N & Mn). pose proof (sized_pos TVec n Sn) as PN. change (exactly TVec n) with (den TVec rn) in PN. rewrite vec_n2 in PN.
  set (p := mul TVec TVec n v) in *. set (P := mul TVec TVec rn rv : Spinor R).
  assert (HP : ceq (den TSpin P) (gp (exactly TVec n) (exactly TVec v))) by (apply (mul_den TVec TVec rn rv)).
  destruct (quotient TSpin TVec p P inverse_Vec n (cnorm (exactly TVec v)) eq_refl eq_refl (proj1 (proj2 blades_invert)) Sn (proj1 (proj2 Sv)) W) as [F Q].
  { rewrite (cnorm_ceq _ (csub (exactly TSpin p) (gp (exactly TVec n) (exactly TVec v)))) by (intros k; unfold csub; rewrite (HP k); reflexivity). rewrite (Rmult_comm (cnorm (exactly TVec v))). exact E. }
  { rewrite (cnorm_ceq _ _ HP), N, Rmult_comm. lra. }
  set (s := mul TSpin TVec p (inverse_Vec n)) in *.
  assert (NE : ceq (exactly TImsp r) (copp (exactly TImsp s))).
  { unfold r. fold p. fold s. clear. destruct s as [[[x y z]] [[c]]]. intros k. unfold exactly, copp. dblade k; cbv -[B2R Bopp Rplus Ropp R0]; rewrite ?B2R_Bopp; ring. }
  split.
  - unfold r. fold p s. clear - F. revert F. generalize s. intros [[[x y z]] [[c]]] F. unfold all_finite in *. change (elems TImsp _) with [x; y; z; c] in F.
    change (elems TImsp _) with [Bopp x; Bopp y; Bopp z; Bopp c]. inversion F as [|? ? A F1]; subst. inversion F1 as [|? ? B F2]; subst. inversion F2 as [|? ? C F3]; subst. inversion F3 as [|? ? D F4]; subst.
    repeat (apply Forall_cons; [rewrite is_finite_Bopp; assumption|]). apply Forall_nil.
  - intros w Hw. rewrite (mirror_unique rn rv w PN Hw). eapply Rle_trans; [|exact Q]. right.
    rewrite <- (cnorm_opp (csub (exactly _ s) _)). apply cnorm_ceq. intros k. unfold csub, copp. rewrite (NE k). unfold copp.
    assert (I : den TVec (vplus rv (vtimes (- (2 * (dot rv rn / dot rn rn))) rn)) k = - den TImsp (mul TSpin TVec P (rinv TVec rn)) k).
    { unfold rinv. rewrite vec_n2. unfold P. clear - PN. clearbody rn rv. revert PN. destruct rn as [[n0 n1 n2]], rv as [[v0 v1 v2]]. dblade k; gcbv; intros PN; field; lra. }
    rewrite I. change (mulTy TSpin TVec) with TImsp. fold rn. ring.
Qed.

Theorem projection_accurate : forall n v : Vector f64, sized TVec n -> sized TVec v ->
  let rn := mapv (fun v : f64 => B2R v) TVec n in let rv := mapv (fun v : f64 => B2R v) TVec v in
  let p := mul TSca TVec (spinSca (mul TVec TVec v n)) (inverse_Vec n) in
  let r := mul TBiv TVec (spinBiv (mul TVec TVec v n)) (inverse_Vec n) in
  all_finite TVec p /\ all_finite TImsp r /\ forall p0 r0, split_along rn rv p0 r0 ->
    cnorm (csub (exactly TVec p) (den TVec p0)) <= 72 * unit_roundoff * cnorm (exactly TVec v) /\
    cnorm (csub (exactly TImsp r) (den TVec r0)) <= 72 * unit_roundoff * cnorm (exactly TVec v).
Proof.
  intros n v Sn Sv rn rv p r. destruct (prod_ok TVec TVec v n eq_refl Sv Sn) as (W & E & N & Mn). pose proof (sized_pos TVec n Sn) as PN. change (exactly TVec n) with (den TVec rn) in PN. rewrite vec_n2 in PN.
  unfold p, r. clear p r. set (q := mul TVec TVec v n) in *. set (P := mul TVec TVec rv rn : Spinor R).
  assert (HP : ceq (den TSpin P) (gp (exactly TVec v) (exactly TVec n))) by (apply (mul_den TVec TVec rv rn)).
  assert (E' : cnorm (csub (den TSpin (mapv (fun v : f64 => B2R v) TSpin q)) (den TSpin P)) <= 27 * unit_roundoff * (cnorm (exactly TVec v) * cnorm (exactly TVec n))).
  { rewrite (cnorm_ceq _ (csub (exactly TSpin q) (gp (exactly TVec v) (exactly TVec n)))) by (intros k; unfold csub; rewrite (HP k); reflexivity). exact E. }
  rewrite <- (cnorm_ceq _ _ HP) in N. destruct (part_diff (mapv (fun v : f64 => B2R v) TSpin q) P) as [D1 D2]. destruct (part_norms P) as [N1 N2].
  destruct (within_spin 403 q W) as [W1 W2].
  destruct (quotient TSca TVec (spinSca q) (spinSca P) inverse_Vec n (cnorm (exactly TVec v)) eq_refl eq_refl (proj1 (proj2 blades_invert)) Sn (proj1 (proj2 Sv)) W1) as [F1 Q1].
  { rewrite ex_sca. eapply Rle_trans; [exact D1|exact E']. } { rewrite <- N. exact N1. }
  destruct (quotient TBiv TVec (spinBiv q) (spinBiv P) inverse_Vec n (cnorm (exactly TVec v)) eq_refl eq_refl (proj1 (proj2 blades_invert)) Sn (proj1 (proj2 Sv)) W2) as [F2 Q2].
  { rewrite ex_biv. eapply Rle_trans; [exact D2|exact E']. } { rewrite <- N. exact N2. }
  split; [exact F1|]. split; [exact F2|]. intros p0 r0 Hs. destruct (split_unique rn rv p0 r0 PN Hs) as [-> ->]. split.
  - eapply Rle_trans; [|exact Q1]. right. apply cnorm_ceq. intros k. unfold csub. f_equal. fold rn.
    unfold rinv. rewrite vec_n2. unfold P. clear - PN. clearbody rn rv. revert PN. destruct rn as [[n0 n1 n2]], rv as [[v0 v1 v2]]. dblade k; gcbv; intros PN; field; lra.
  - eapply Rle_trans; [|exact Q2]. right. apply cnorm_ceq. intros k. unfold csub. f_equal. fold rn.
    unfold rinv. rewrite vec_n2. unfold P. clear - PN. clearbody rn rv. revert PN. destruct rn as [[n0 n1 n2]], rv as [[v0 v1 v2]]. dblade k; gcbv; intros PN; field; lra.
Qed.

Theorem projection_plane_accurate : forall (B : BiVector f64) (v : Vector f64), sized TBiv B -> sized TVec v ->
  let rB := mapv (fun v : f64 => B2R v) TBiv B in let rv := mapv (fun v : f64 => B2R v) TVec v in
  let p := mul TVec TBiv (imspVec (mul TVec TBiv v B)) (inverse_Biv B) in
  let r := mul TTri TBiv (imspTri (mul TVec TBiv v B)) (inverse_Biv B) in
  all_finite TImsp p /\ all_finite TVec r /\ forall r0 p0, split_along (axis rB) rv r0 p0 ->
    cnorm (csub (exactly TImsp p) (den TVec p0)) <= 72 * unit_roundoff * cnorm (exactly TVec v) /\
    cnorm (csub (exactly TVec r) (den TVec r0)) <= 72 * unit_roundoff * cnorm (exactly TVec v).
Proof.
  intros B v Sn Sv rn rv p r. destruct (prod_ok TVec TBiv v B eq_refl Sv Sn) as (W & E & N & Mn). pose proof (sized_pos TBiv B Sn) as PN. change (exactly TBiv B) with (den TBiv rn) in PN. rewrite biv_n2 in PN.
  unfold p, r. clear p r. set (q := mul TVec TBiv v B) in *. set (P := mul TVec TBiv rv rn : ImSpin R).
  assert (HP : ceq (den TImsp P) (gp (exactly TVec v) (exactly TBiv B))) by (apply (mul_den TVec TBiv rv rn)).
  assert (E' : cnorm (csub (den TImsp (mapv (fun v : f64 => B2R v) TImsp q)) (den TImsp P)) <= 27 * unit_roundoff * (cnorm (exactly TVec v) * cnorm (exactly TBiv B))).
  { rewrite (cnorm_ceq _ (csub (exactly TImsp q) (gp (exactly TVec v) (exactly TBiv B)))) by (intros k; unfold csub; rewrite (HP k); reflexivity). exact E. }
  rewrite <- (cnorm_ceq _ _ HP) in N. destruct (part_diff_odd (mapv (fun v : f64 => B2R v) TImsp q) P) as [D1 D2]. destruct (part_norms_odd P) as [N1 N2].
  destruct (within_imsp 403 q W) as [W1 W2].
  destruct (quotient TVec TBiv (imspVec q) (imspVec P) inverse_Biv B (cnorm (exactly TVec v)) eq_refl eq_refl (proj1 (proj2 (proj2 blades_invert))) Sn (proj1 (proj2 Sv)) W1) as [F1 Q1].
  { rewrite ex_vec. eapply Rle_trans; [exact D1|exact E']. } { rewrite <- N. exact N1. }
  destruct (quotient TTri TBiv (imspTri q) (imspTri P) inverse_Biv B (cnorm (exactly TVec v)) eq_refl eq_refl (proj1 (proj2 (proj2 blades_invert))) Sn (proj1 (proj2 Sv)) W2) as [F2 Q2].
  { rewrite ex_tri. eapply Rle_trans; [exact D2|exact E']. } { rewrite <- N. exact N2. }
  split; [exact F1|]. split; [exact F2|]. intros r0 p0 Hs. destruct (split_unique (axis rn) rv r0 p0 PN Hs) as [-> ->]. split.
  - eapply Rle_trans; [|exact Q1]. right. apply cnorm_ceq. intros k. unfold csub. f_equal. fold rn.
    unfold rinv. rewrite biv_n2. unfold P. clear - PN. clearbody rn rv. revert PN. destruct rn as [[n0 n1 n2]], rv as [[v0 v1 v2]]. dblade k; gcbv; intros PN; field; lra.
  - eapply Rle_trans; [|exact Q2]. right. apply cnorm_ceq. intros k. unfold csub. f_equal. fold rn.
    unfold rinv. rewrite biv_n2. unfold P. clear - PN. clearbody rn rv. revert PN. destruct rn as [[n0 n1 n2]], rv as [[v0 v1 v2]]. dblade k; gcbv; intros PN; field; lra.
Qed.

(** The normal [3 e1 + 4 e3], and the vector [25 e1]. *)
Lemma example_geom : let z := f64_lit 0 0 in let n := Vec (f64_lit 3 0) z (f64_lit 4 0) : Vector f64 in let B := Biv (f64_lit 3 0) z (f64_lit 4 0) : BiVector f64 in
  let v := Vec (f64_lit 25 0) z z : Vector f64 in
  let rn := mapv (fun v : f64 => B2R v) TVec n in let rv := mapv (fun v : f64 => B2R v) TVec v in
  sized TVec n /\ sized TBiv B /\ sized TVec v /\ axis (mapv (fun v : f64 => B2R v) TBiv B) = rn /\
  mirrored rn rv (Vec 7 0 (-24)) /\ split_along rn rv (Vec 9 0 12) (Vec 16 0 (-12)).
Proof.
  cbv zeta. set (z := f64_lit 0 0). set (a := f64_lit 3 0). set (b := f64_lit 4 0). set (c := f64_lit 25 0).
  destruct (lit_of 0 0 ltac:(lia) ltac:(lia)) as [Fz Bz]. destruct (lit_of 3 0 ltac:(lia) ltac:(lia)) as [Fa Ba].
  destruct (lit_of 4 0 ltac:(lia) ltac:(lia)) as [Fb Bb]. destruct (lit_of 25 0 ltac:(lia) ltac:(lia)) as [Fc Bc].
  fold z in Fz, Bz. fold a in Fa, Ba. fold b in Fb, Bb. fold c in Fc, Bc. change (bpow radix2 0) with 1 in *. rewrite Rmult_1_r in *.
  clearbody z a b c.
  assert (S : forall m, 1 <= m <= 32 -> bpow radix2 (-200) <= m <= bpow radix2 200).
  { intros m Hm. pose proof (bpow_le radix2 (-200) 0 ltac:(lia)). pose proof (bpow_le radix2 5 200 ltac:(lia)). change (bpow radix2 0) with 1 in *. change (bpow radix2 5) with 32 in *. lra. }
  assert (N : forall x m, 0 <= m -> cnorm2 x = m * m -> cnorm x = m) by (intros x m Hm H; unfold cnorm; rewrite H; apply sqrt_square; exact Hm).
  split; [|split; [|split; [|split; [|split]]]].
  - split; [unfold all_finite; repeat constructor; assumption|]. rewrite (N _ 5); [apply S; lra|lra|]. unfold exactly. cbv -[B2R Rplus Rmult R0 IZR Ropp]. rewrite Bz, Ba, Bb. ring.
  - split; [unfold all_finite; repeat constructor; assumption|]. rewrite (N _ 5); [apply S; lra|lra|]. unfold exactly. cbv -[B2R Rplus Rmult R0 IZR Ropp]. rewrite Bz, Ba, Bb. ring.
  - split; [unfold all_finite; repeat constructor; assumption|]. rewrite (N _ 25); [apply S; lra|lra|]. unfold exactly. cbv -[B2R Rplus Rmult R0 IZR Ropp]. rewrite Bz, Bc. ring.
  - reflexivity.
  - split.
    + unfold dot, vplus. cbv -[B2R Rplus Rmult R0 IZR Ropp]. rewrite Bz, Ba, Bb, Bc. ring.
    + exists (-6). unfold vplus, vtimes. cbv -[B2R Rplus Rmult R0 IZR Ropp]. rewrite Bz, Ba, Bb, Bc. repeat (f_equal; try ring).
  - split; [|split].
    + unfold vplus, vtimes. cbv -[B2R Rplus Rmult R0 IZR Ropp]. rewrite Bz, Bc. repeat (f_equal; try ring).
    + exists 3. unfold vtimes. cbv -[B2R Rplus Rmult R0 IZR Ropp]. rewrite Bz, Ba, Bb. repeat (f_equal; try ring).
    + unfold dot. cbv -[B2R Rplus Rmult R0 IZR Ropp]. rewrite Bz, Ba, Bb. ring.
Qed.
