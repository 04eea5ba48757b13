(** * Unit spinors and rotations (proofs only). *)

Require Import Reals ZArith Lra Lia List Bool.
Require Import Verif.Num Verif.Types Verif.Priv Verif.OpsUni Verif.OpsAdd Verif.OpsSub Verif.OpsMul Verif.Const
  Verif.Func Verif.SpecCl Verif.SpecFunc Verif.RealInst Verif.AlgTac Verif.AlgMul
  Verif.AlgFacts Verif.AlgSpec Verif.AlgThm Verif.FuncFacts Verif.FuncThm Verif.SpecCover.
Local Open Scope R_scope.

Ltac flat := cbv -[Rplus Rminus Rmult Ropp Rinv Rdiv R R0 R1 IZR].
Ltac flat_in H := cbv -[Rplus Rminus Rmult Ropp Rinv Rdiv R R0 R1 IZR] in H.
Definition ux : Vector R := Vec 1 0 0.
Definition uy : Vector R := Vec 0 1 0.
Definition uz : Vector R := Vec 0 0 1.

Lemma rotate_scale : forall r s v, rotate (scale TSpin r s) v = scale TVec (r * r) (rotate s v).
Proof. intros r [[[a]] [[p q t]]] [[x y z]]. flat. do 2 f_equal; ring. Qed.
Lemma rotate_back : forall s, magSq TSpin s = 1 -> forall v, rotate (reverse TSpin s) (rotate s v) = v /\ rotate s (rotate (reverse TSpin s) v) = v.
Proof.
  intros s Hs v. rewrite !rotate_compose.
  assert (A : forall w : Vector R, rotate (one TSpin) w = w) by (intros [[x y z]]; flat; do 2 f_equal; ring).
  assert (B : mul TSpin TSpin (reverse TSpin s) s = one TSpin /\ mul TSpin TSpin s (reverse TSpin s) = one TSpin).
  { revert Hs. destruct s as [[[a]] [[p q t]]]. flat. intros Hs. split; (do 2 f_equal; [f_equal; lra|f_equal; ring]). }
  destruct B as [B1 B2]. rewrite B1, B2, !A. split; reflexivity.
Qed.
Lemma unit_rev : forall s : Spinor R, magSq TSpin (reverse TSpin s) = magSq TSpin s.
Proof. intros [[[a]] [[p q t]]]. flat. ring. Qed.
Lemma unit_mul : forall s r : Spinor R, magSq TSpin s = 1 -> magSq TSpin r = 1 -> magSq TSpin (mul TSpin TSpin s r) = 1.
Proof.
  intros s r Hs Hr. transitivity (magSq TSpin s * magSq TSpin r); [|rewrite Hs, Hr; ring]. clear. destruct s as [[[a]] [[p q t]]], r as [[[b]] [[x y z]]]. flat. ring.
Qed.
Lemma scale_back : forall m (b : Vector R), 0 < m -> scale TVec (/ m) (scale TVec m b) = b.
Proof. intros m [[x y z]] H. flat. apply (f_equal (fun a => mkVec a)). f_equal; field; lra. Qed.
Lemma normalise : forall (s : Spinor R) a b, 0 < magSq TSpin s -> rotate s a = scale TVec (magSq TSpin s) b ->
  let u := scale TSpin (/ sqrt (magSq TSpin s)) s in magSq TSpin u = 1 /\ rotate u a = b.
Proof.
  intros s a b P H u. assert (Q : / sqrt (magSq TSpin s) * / sqrt (magSq TSpin s) = / magSq TSpin s).
  { rewrite <- Rinv_mult. rewrite sqrt_sqrt by lra. reflexivity. }
  split.
  - unfold u. transitivity ((/ sqrt (magSq TSpin s) * / sqrt (magSq TSpin s)) * magSq TSpin s); [|rewrite Q; field; lra].
    generalize (/ sqrt (magSq TSpin s)). intros r. clear. destruct s as [[[e]] [[p q t]]]. flat. ring.
  - unfold u. rewrite rotate_scale, H, Q. apply scale_back, P.
Qed.
(** A unit spinor that turns the first axis into [a]. *)
Lemma aim_x : forall a : Vector R, dot a a = 1 -> exists s, magSq TSpin s = 1 /\ rotate s ux = a.
Proof.
  intros [[x y z]] H. unfold dot in H. flat_in H. destruct (Req_dec x (-1)) as [N|N].
  - assert (y = 0) by nra. assert (z = 0) by nra. subst. exists (mkSpin (Sca 0) (Biv 0 0 1)). split; [flat; ring|]. flat. do 2 f_equal; ring.
  - assert (P : 0 < 1 + x) by (assert (-1 <= x) by nra; lra).
    exists (scale TSpin (/ sqrt (magSq TSpin (mkSpin (Sca (1 + x)) (Biv 0 z (- y))))) (mkSpin (Sca (1 + x)) (Biv 0 z (- y)))).
    assert (M : magSq TSpin (mkSpin (Sca (1 + x)) (Biv 0 z (- y))) = 2 * (1 + x)) by (flat; nra).
    apply normalise; [rewrite M; lra|]. rewrite M. flat. do 2 f_equal; nra.
Qed.
Lemma aim_y : forall p q, p * p + q * q = 1 -> exists s, magSq TSpin s = 1 /\ rotate s uy = Vec 0 p q /\ rotate s ux = ux.
Proof.
  intros p q H. destruct (Req_dec p (-1)) as [N|N].
  - assert (q = 0) by nra. subst. exists (mkSpin (Sca 0) (Biv 1 0 0)). split; [flat; ring|]. split; flat; do 2 f_equal; ring.
  - assert (P : 0 < 1 + p) by (assert (-1 <= p) by nra; lra). set (s := mkSpin (Sca (1 + p)) (Biv (- q) 0 0)).
    assert (M : magSq TSpin s = 2 * (1 + p)) by (unfold s; flat; nra).
    exists (scale TSpin (/ sqrt (magSq TSpin s)) s).
    destruct (normalise s uy (Vec 0 p q)) as [A B]; [rewrite M; lra|rewrite M; unfold s; flat; do 2 f_equal; nra|].
    destruct (normalise s ux ux) as [_ C]; [rewrite M; lra|rewrite M; unfold s; flat; do 2 f_equal; nra|]. auto.
Qed.
Lemma rotation_rotate : forall s, magSq TSpin s = 1 -> rotation (rotate s).
Proof.
  intros s Hs. split.
  - intros u v. destruct (rotate_norm s v) as (_ & _ & H). destruct (H Hs) as [D _]. apply D.
  - intros u v w. destruct (rotate_norm s v) as (_ & _ & H). destruct (H Hs) as (_ & _ & D). apply D.
Qed.
Lemma rotation_then : forall f g, rotation f -> rotation g -> rotation (fun v => g (f v)).
Proof. intros f g [A B] [C D]. split; intros; [rewrite C; apply A|rewrite D; apply B]. Qed.
Lemma rotation_id : forall f, rotation f -> f ux = ux -> f uy = uy -> forall v, f v = v.
Proof.
  intros f [D V] X Y. assert (Z : f uz = uz).
  { pose proof (D ux uz) as A. pose proof (D uy uz) as B. pose proof (V ux uy uz) as C. rewrite X, Y in *. revert A B C. destruct (f uz) as [[x y z]]. unfold dot, det3. flat. intros. do 2 f_equal; lra. }
  intros v. pose proof (D ux v) as A. pose proof (D uy v) as B. pose proof (D uz v) as C. rewrite X, Y, Z in *. revert A B C. destruct (f v) as [[x y z]], v as [[p q r]]. unfold dot. flat. intros. do 2 f_equal; lra.
Qed.
Lemma rotation_spinor : forall f, rotation f -> exists s, magSq TSpin s = 1 /\ forall v, f v = rotate s v.
Proof.
  intros f Hf. destruct (aim_x (f ux)) as (s & Hs & Es).
  { destruct Hf as [D _]. rewrite D. unfold dot. flat. ring. }
  assert (Hr : magSq TSpin (reverse TSpin s) = 1) by (rewrite unit_rev; exact Hs).
  set (g := fun v => rotate (reverse TSpin s) (f v)). assert (Hg : rotation g) by exact (rotation_then f (rotate (reverse TSpin s)) Hf (rotation_rotate _ Hr)).
  assert (Gx : g ux = ux) by (unfold g; rewrite <- Es; exact (proj1 (rotate_back s Hs ux))).
  assert (Gy : exists p q, p * p + q * q = 1 /\ g uy = Vec 0 p q).
  { destruct Hg as [D _]. pose proof (D ux uy) as A. pose proof (D uy uy) as B. rewrite Gx in A. revert A B. destruct (g uy) as [[x y z]]. unfold dot. flat. intros A B. exists y, z. split; [nra|]. do 2 f_equal; lra. }
  destruct Gy as (p & q & N & Gy). destruct (aim_y p q N) as (t & Ht & Ey & Ex).
  set (h := fun v => rotate (reverse TSpin t) (g v)).
  assert (Hh : rotation h) by exact (rotation_then g (rotate (reverse TSpin t)) Hg (rotation_rotate _ (eq_trans (unit_rev t) Ht))).
  assert (I : forall v, h v = v).
  { apply rotation_id; [exact Hh| |]; unfold h.
    - rewrite Gx. exact (eq_trans (f_equal (rotate (reverse TSpin t)) (eq_sym Ex)) (proj1 (rotate_back t Ht ux))).
    - rewrite Gy, <- Ey. exact (proj1 (rotate_back t Ht uy)). }
  exists (mul TSpin TSpin s t). split; [apply unit_mul; assumption|]. intros v. rewrite <- rotate_compose.
  assert (G : g v = rotate t v) by (exact (eq_trans (eq_sym (proj2 (rotate_back t Ht (g v)))) (f_equal (rotate t) (I v)))).
  rewrite <- G. unfold g. symmetry. exact (proj2 (rotate_back s Hs (f v))).
Qed.
Lemma trivial_turn : forall r, magSq TSpin r = 1 -> (forall v, rotate r v = v) -> r = one TSpin \/ r = neg TSpin (one TSpin).
Proof.
  intros r Hr H. pose proof (f_equal (fun v : Vector R => vec_0 v) (H ux)) as A. pose proof (f_equal (fun v : Vector R => vec_1 v) (H uy)) as B. clear H. revert Hr A B.
  destruct r as [[[w]] [[x y z]]]. flat. intros Hr A B. assert (y = 0) by nra. assert (z = 0) by nra. assert (x = 0) by nra. subst.
  assert (Q : (w - 1) * (w + 1) = 0) by nra. apply Rmult_integral in Q. destruct Q as [Q|Q].
  - left. assert (w = 1) by lra. subst. reflexivity.
  - right. assert (w = -1) by lra. subst. rewrite Ropp_0. repeat f_equal; lra.
Qed.
Lemma two_spinors : forall s s', magSq TSpin s = 1 -> magSq TSpin s' = 1 -> ((forall v, rotate s' v = rotate s v) <-> s' = s \/ s' = neg TSpin s).
Proof.
  intros s s' Hs Hs'. split.
  - intros H. set (r := mul TSpin TSpin (reverse TSpin s) s').
    assert (Hr : r = one TSpin \/ r = neg TSpin (one TSpin)).
    { apply trivial_turn; [apply unit_mul; [rewrite unit_rev|]; assumption|]. intros v. unfold r. rewrite <- rotate_compose, H. exact (proj1 (rotate_back s Hs v)). }
    assert (E : s' = mul TSpin TSpin s r).
    { apply den_inj. unfold r. revert Hs. clear. intros Hs. assert (Q : forall k, den TSpin s' k = magSq TSpin s * den TSpin s' k) by (intros k; rewrite Hs; ring).
      intros k. rewrite Q. revert k. clear. destruct s as [[[a]] [[p q t]]], s' as [[[b]] [[x y z]]]. intros k. dblade k; flat; ring. }
    destruct Hr as [R|R]; rewrite R in E; rewrite E; [left|right]; clear; destruct s as [[[a]] [[p q t]]]; flat; f_equal; f_equal; f_equal; ring.
  - intros [-> | ->] v; [reflexivity|]. destruct s as [[[a]] [[p q t]]], v as [[x y z]]. flat. do 2 f_equal; ring.
Qed.
Lemma rotation_exactly_two : forall f, rotation f -> exists s, magSq TSpin s = 1 /\ s <> neg TSpin s /\
  forall s', magSq TSpin s' = 1 -> ((forall v, rotate s' v = f v) <-> s' = s \/ s' = neg TSpin s).
Proof.
  intros f Hf. destruct (rotation_spinor f Hf) as (s & Hs & E). exists s. split; [exact Hs|]. split.
  - intros N. revert Hs N. clear. destruct s as [[[a]] [[p q t]]]. flat. intros Hs N. injection N as N1 N2 N3 N4. assert (a = 0) by lra. assert (p = 0) by lra. assert (q = 0) by lra. assert (t = 0) by lra. subst. lra.
  - intros s' Hs'. rewrite <- (two_spinors s s' Hs Hs'). split; intros H v; rewrite H, E; reflexivity.
Qed.
(** ** Maps that keep distances *)
Lemma gram : forall a b c x y z : Vector R, det3 a b c * det3 x y z =
  dot a x * (dot b y * dot c z - dot b z * dot c y) - dot a y * (dot b x * dot c z - dot b z * dot c x) + dot a z * (dot b x * dot c y - dot b y * dot c x).
Proof. intros. unfold dot, det3. ring. Qed.
Lemma orthogonal_det : forall g, (forall u v, dot (g u) (g v) = dot u v) -> exists D, (D = 1 \/ D = -1) /\ forall u v w, det3 (g u) (g v) (g w) = D * det3 u v w.
Proof.
  intros g H. assert (U : det3 ux uy uz = 1) by (unfold det3; flat; ring).
  assert (K : forall u v w, det3 (g u) (g v) (g w) * det3 (g ux) (g uy) (g uz) = det3 u v w).
  { intros u v w. rewrite gram, !H, <- gram, U. ring. }
  exists (det3 (g ux) (g uy) (g uz)). pose proof (K ux uy uz) as D. rewrite U in D. split.
  - assert (Q : (det3 (g ux) (g uy) (g uz) - 1) * (det3 (g ux) (g uy) (g uz) + 1) = 0) by lra. apply Rmult_integral in Q. lra.
  - intros u v w. rewrite <- (K u v w). set (d := det3 (g ux) (g uy) (g uz)) in *. clearbody d. transitivity (det3 (g u) (g v) (g w) * (d * d)); [rewrite D; ring|ring].
Qed.
Lemma orthogonal : forall g, (forall u v, dot (g u) (g v) = dot u v) -> exists s, magSq TSpin s = 1 /\ ((forall v, g v = rotate s v) \/ (forall v, g v = neg TVec (rotate s v))).
Proof.
  intros g H. destruct (orthogonal_det g H) as (D & [-> | ->] & K).
  - destruct (rotation_spinor g) as (s & Hs & E); [split; [exact H|intros; rewrite K; ring]|]. exists s. auto.
  - destruct (rotation_spinor (fun v => neg TVec (g v))) as (s & Hs & E).
    + split.
      * intros u v. rewrite <- (H u v). destruct (g u) as [[x y z]], (g v) as [[p q r]]. unfold dot. flat. ring.
      * intros u v w. transitivity (- det3 (g u) (g v) (g w)); [|rewrite K; ring]. destruct (g u) as [[x y z]], (g v) as [[p q r]], (g w) as [[a b c]]. unfold det3. flat. ring.
    + exists s. split; [exact Hs|]. right. intros v. rewrite <- E. destruct (g v) as [[x y z]]. flat. do 2 f_equal; ring.
Qed.
Lemma isometry_motion : forall f, isometry f -> exists s t, magSq TSpin s = 1 /\
  ((forall v, f v = add_Vec_Vec (rotate s v) t) \/ (forall v, f v = sub TVec TVec t (rotate s v))).
Proof.
  intros f H. set (g := fun v => difference (f v) (f (Vec 0 0 0))).
  assert (N : forall v, dot (g v) (g v) = dot v v).
  { intros v. unfold g. rewrite H. destruct v as [[x y z]]. unfold dot, difference. flat. ring. }
  assert (P : forall u v, dot (g u) (g v) = dot u v).
  { intros u v. assert (Q : forall a b, 2 * dot a b = dot a a + dot b b - dot (difference a b) (difference a b)) by (intros a b; unfold dot, difference; flat; ring).
    assert (E : dot (difference (g u) (g v)) (difference (g u) (g v)) = dot (difference u v) (difference u v)).
    { rewrite <- (H u v). unfold g. generalize (f u) (f v) (f (Vec 0 0 0)). intros a b c. unfold dot, difference. flat. ring. }
    pose proof (Q (g u) (g v)) as A. pose proof (Q u v) as B. rewrite E, !N in A. lra. }
  destruct (orthogonal g P) as (s & Hs & [E|E]); exists s, (f (Vec 0 0 0)); (split; [exact Hs|]); [left|right]; intros v; specialize (E v); unfold g in E; revert E;
    generalize (f v) (f (Vec 0 0 0)) (rotate s v); intros [[x y z]] [[p q r]] [[a b c]]; unfold difference; flat; intros E; injection E as E1 E2 E3; do 2 f_equal; lra.
Qed.
Lemma motion_isometry : forall s t, magSq TSpin s = 1 -> isometry (fun v => add_Vec_Vec (rotate s v) t) /\ isometry (fun v => sub TVec TVec t (rotate s v)).
Proof.
  intros s t Hs. destruct (rotation_rotate s Hs) as [D _].
  assert (Q : forall a b, dot (difference a b) (difference a b) = dot a a + dot b b - 2 * dot a b) by (intros a b; unfold dot, difference; flat; ring).
  split; intros u v.
  - transitivity (dot (difference (rotate s u) (rotate s v)) (difference (rotate s u) (rotate s v))).
    + generalize (rotate s u) (rotate s v). intros [[x y z]] [[p q r]]. destruct t as [[a b c]]. unfold dot, difference. flat. ring.
    + rewrite !Q, !D. reflexivity.
  - transitivity (dot (difference (rotate s u) (rotate s v)) (difference (rotate s u) (rotate s v))).
    + generalize (rotate s u) (rotate s v). intros [[x y z]] [[p q r]]. destruct t as [[a b c]]. unfold dot, difference. flat. ring.
    + rewrite !Q, !D. reflexivity.
Qed.
