(** * Lengths and angles under sequences of reflections on binary64: proofs. *)

Require Import Reals ZArith List Bool Lra Lia.
From Flocq Require Import Core BinarySingleNaN.
Require Import Verif.Num Verif.Types Verif.OpsUni Verif.OpsMul Verif.Func Verif.SpecCl Verif.RealInst Verif.AlgTac Verif.AlgFacts Verif.SpecFunc Verif.SpecGeom
  Verif.FuncFacts Verif.B64 Verif.SpecRound Verif.SpecAcc Verif.SpecGeomAcc Verif.NormFacts Verif.GeomAcc Verif.GeomParts Verif.ExtentFacts Verif.SpecReflSeq Verif.ReflSeq.
Import ListNotations.
Local Open Scope R_scope.

Lemma mirrors_dot : forall ns a x b y, Forall (fun n : Vector R => 0 < dot n n) ns -> mirrored_all ns a x -> mirrored_all ns b y -> dot x y = dot a b.
Proof.
  intros ns. induction ns as [|n ns IH]; intros a x b y F H H'; [cbn in H, H'; subst; reflexivity|].
  inversion F as [|? ? P F']; subst. destruct H as (u & Hu & Hw), H' as (u' & Hu' & Hw'). rewrite (IH u x u' y F' Hw Hw').
  rewrite (mirror_unique n a u P Hu), (mirror_unique n b u' P Hu'). revert P. clear. destruct n as [[n0 n1 n2]], a as [[v0 v1 v2]], b as [[x0 x1 x2]]. gcbv. intros P. field. lra.
Qed.

Lemma dot_near : forall (x y x0 y0 : Vector R) d p q, 0 <= d -> cnorm (den TVec x0) = p -> cnorm (den TVec y0) = q ->
  cnorm (csub (den TVec x) (den TVec x0)) <= d * p -> cnorm (csub (den TVec y) (den TVec y0)) <= d * q ->
  Rabs (dot x y - dot x0 y0) <= (2 * d + d * d) * (p * q).
Proof.
  intros x y x0 y0 d p q Hd Np Nq Ex Ey. set (dx := vplus x (vtimes (-1) x0)). set (dy := vplus y (vtimes (-1) y0)).
  assert (Dx : cnorm (den TVec dx) <= d * p).
  { eapply Rle_trans; [|exact Ex]. right. apply cnorm_ceq. unfold dx. clear. intros k. destruct x as [[a0 a1 a2]], x0 as [[b0 b1 b2]]. dblade k; unfold csub; gcbv; ring. }
  assert (Dy : cnorm (den TVec dy) <= d * q).
  { eapply Rle_trans; [|exact Ey]. right. apply cnorm_ceq. unfold dy. clear. intros k. destruct y as [[a0 a1 a2]], y0 as [[b0 b1 b2]]. dblade k; unfold csub; gcbv; ring. }
  replace (dot x y - dot x0 y0) with (dot dx y0 + dot x0 dy + dot dx dy)
    by (unfold dx, dy; clear; destruct x as [[a0 a1 a2]], x0 as [[b0 b1 b2]], y as [[c0 c1 c2]], y0 as [[d0 d1 d2]]; gcbv; ring).
  pose proof (dot_bound dx y0) as B1. pose proof (dot_bound x0 dy) as B2. pose proof (dot_bound dx dy) as B3. rewrite Nq in B1. rewrite Np in B2.
  pose proof (cnorm_nonneg (den TVec dx)). pose proof (cnorm_nonneg (den TVec dy)). pose proof (cnorm_nonneg (den TVec x0)) as P0. pose proof (cnorm_nonneg (den TVec y0)) as Q0. rewrite Np in P0. rewrite Nq in Q0.
  pose proof (Rmult_le_compat_r q _ _ Q0 Dx). pose proof (Rmult_le_compat_l p _ _ P0 Dy). pose proof (Rmult_le_compat _ _ _ _ H H0 Dx Dy).
  eapply Rle_trans; [apply Rabs_triang|]. eapply Rle_trans; [apply Rplus_le_compat_r; apply Rabs_triang|]. lra.
Qed.

Theorem reflections_angles : forall (ns : list (Vector f64)) (a b : Vector f64), Forall (sized TVec) ns -> all_finite TVec a -> all_finite TVec b ->
  let p := cnorm (exactly TVec a) in let q := cnorm (exactly TVec b) in let k := INR (length ns) in let ex := mapv (fun v : f64 => B2R v) TVec in
  bpow radix2 (-199) <= p <= bpow radix2 199 -> bpow radix2 (-199) <= q <= bpow radix2 199 -> k * (72 * unit_roundoff) <= / 73 ->
  Rabs (dot (ex (reflect_all ns a)) (ex (reflect_all ns b)) - dot (ex a) (ex b)) <= 148 * unit_roundoff * k * (p * q).
Proof.
  intros ns a b F Fa Fb p q k ex Ra Rb K.
  assert (Pos : Forall (fun n : Vector R => 0 < dot n n) (map ex ns)).
  { clear K k. induction F as [|n ns Hn _ IH]; constructor; [|exact IH]. rewrite <- vec_n2. exact (sized_pos TVec n Hn). }
  destruct (many_reflections ns a F Fa Ra K) as [_ Ea]. destruct (many_reflections ns b F Fb Rb K) as [_ Eb]. fold k in Ea, Eb. fold p in Ea. fold q in Eb. fold ex in Ea, Eb.
  destruct (mirrors_exist _ (ex a) Pos) as [x0 Hx]. destruct (mirrors_exist _ (ex b) Pos) as [y0 Hy]. specialize (Ea x0 Hx). specialize (Eb y0 Hy).
  rewrite <- (mirrors_dot _ _ _ _ _ Pos Hx Hy).
  assert (Np : cnorm (den TVec x0) = p) by (unfold cnorm; rewrite vec_n2, (mirrors_dot _ _ _ _ _ Pos Hx Hx), <- vec_n2; reflexivity).
  assert (Nq : cnorm (den TVec y0) = q) by (unfold cnorm; rewrite vec_n2, (mirrors_dot _ _ _ _ _ Pos Hy Hy), <- vec_n2; reflexivity).
  pose proof (pos_INR (length ns)) as k0. fold k in k0. set (d := 73 * unit_roundoff * k) in *.
  assert (d0 : 0 <= d <= / 72). { unfold d. rewrite u_val in *. lra. }
  assert (pq : 0 <= p * q) by (apply Rmult_le_pos; apply cnorm_nonneg).
  eapply Rle_trans; [apply (dot_near (ex (reflect_all ns a)) (ex (reflect_all ns b)) x0 y0 d p q); [lra|exact Np|exact Nq|exact Ea|exact Eb]|].
  apply Rmult_le_compat_r; [exact pq|]. replace (148 * unit_roundoff * k) with (148 / 73 * d) by (unfold d; field). 
  pose proof (Rmult_le_compat_r d d (/ 72) (proj1 d0) (proj2 d0)). clearbody d. clear -H d0. lra.
Qed.
