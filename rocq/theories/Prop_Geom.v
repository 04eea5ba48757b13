(** * Geometric properties in exact arithmetic: result types, logarithm of an
    exponential, rotors between vectors, reflections and projections.

    Only statements; proofs are in GeomThm.v. *)

Require Import Reals List Lra Bool.
From Flocq Require Import Core.
Require Import Verif.Num Verif.Types Verif.Priv Verif.OpsUni Verif.OpsAdd
  Verif.OpsSub Verif.OpsMul Verif.Const Verif.Validity Verif.Func Verif.SpecCl Verif.SpecExp
  Verif.SpecFunc Verif.SpecGeom Verif.RealInst Verif.AlgTac Verif.AlgFacts Verif.AlgThm Verif.FuncFacts
  Verif.ExpThm Verif.LogThm Verif.GeomThm.
Local Open Scope R_scope.

(** C49 *)
Theorem C49_product_types_minimal : forall (a b : ty) (n : nat),
  has_grade (mulTy a b) n = true <->
  exists (x : val R a) (y : val R b) (k : blade), grade k = n /\ gp (den a x) (den b y) k <> 0.
Proof. exact product_grades. Qed.
Print Assumptions C49_product_types_minimal.
Example C49_example : has_grade (mulTy TVec TBiv) 3 = true /\ has_grade (mulTy TVec TBiv) 2 = false.
Proof. split; reflexivity. Qed.

(** C50 *)
Theorem C50_log_of_exp : forall (S : Spinor R) (plane : BiVector R),
  let s := sca_0 (spinSca S) in
  let m := cnorm (den TBiv (spinBiv S)) in
  deps < exp s -> 2 * tiny < m < PI -> Rabs (cos m) <= 1 - deps -> tiny < cnorm (den TBiv plane) ->
  exists r, exp_Spin (exact TSpin S) = exact TSpin r /\
            logG2 (exact TSpin r) (exact TBiv plane) = exact TSpin S.
Proof. exact log_exp. Qed.
Print Assumptions C50_log_of_exp.
Example C50_example : let S := mkSpin (Sca 0) (Biv 0 0 (PI / 2)) in
  deps < exp (sca_0 (spinSca S)) /\ 2 * tiny < cnorm (den TBiv (spinBiv S)) < PI /\
  Rabs (cos (cnorm (den TBiv (spinBiv S)))) <= 1 - deps.
Proof.
  cbn [spinSca spinBiv]. pose proof PI_RGT_0; pose proof PI2_1.
  assert (E : cnorm (den TBiv (Biv 0 0 (PI / 2))) = PI / 2).
  { unfold cnorm; replace (cnorm2 _) with ((PI / 2) * (PI / 2)) by dring; apply sqrt_square; lra. }
  rewrite E, cos_PI2, Rabs_R0; change (sca_0 (Sca 0)) with 0; rewrite exp_0.
  pose proof tiny_small; pose proof deps_val; lra.
Qed.

(** C51 *)
Theorem C51_rotor_between_vectors : forall (a b : Vector R) (plane : BiVector R),
  let M := cnorm (den TVec a) * cnorm (den TVec b) in
  4 * deps <= M -> Rabs (dot a b) <= (1 - deps) * M -> tiny < cnorm (den TBiv plane) ->
  exists q, sqrtG2 (exact TSpin (mul TVec TVec b a)) (exact TBiv plane) = exact TSpin q /\
    ceq (den TImsp (sandwich q a)) (den TVec (vtimes (dot a a) b)).
Proof. exact rotor_between. Qed.
Print Assumptions C51_rotor_between_vectors.
Example C51_example : let a := Vec 2 0 0 : Vector R in let b := Vec 3 3 0 in
  Rabs (dot a b) <= (1 - deps) * (cnorm (den TVec a) * cnorm (den TVec b)).
Proof.
  cbv zeta. assert (E1 : cnorm (den TVec (Vec 2 0 0)) = 2).
  { unfold cnorm; replace (cnorm2 _) with (2 * 2) by dring; apply sqrt_square; lra. }
  assert (E2 : 4 <= cnorm (den TVec (Vec 3 3 0))).
  { unfold cnorm; replace (cnorm2 _) with 18 by dring; rewrite <- (sqrt_square 4) by lra; apply sqrt_le_1_alt; lra. }
  rewrite E1. replace (dot _ _) with 6 by (cbv -[Rplus Rmult IZR]; lra). rewrite Rabs_pos_eq by lra.
  pose proof deps_val; nra.
Qed.

(** C52 *)
Theorem C52_reflection : forall n v : Vector R, n <> zero TVec -> exists m,
  inverse_Vec (exact TVec n) = exact TVec m /\
  let r := neg TImsp (mul TSpin TVec (mul TVec TVec n v) m) in
  mirrored n v (imspVec r) /\ imspTri r = Tri 0.
Proof. exact reflection. Qed.
Print Assumptions C52_reflection.
Theorem C52_projection_on_vector : forall n v : Vector R, n <> zero TVec -> exists m,
  inverse_Vec (exact TVec n) = exact TVec m /\
  let p := mul TSca TVec (spinSca (mul TVec TVec v n)) m in
  let r := mul TBiv TVec (spinBiv (mul TVec TVec v n)) m in
  split_along n v p (imspVec r) /\ imspTri r = Tri 0.
Proof. exact projection_vec. Qed.
Print Assumptions C52_projection_on_vector.
Theorem C52_projection_on_plane : forall (B : BiVector R) (v : Vector R), B <> zero TBiv -> exists m,
  inverse_Biv (exact TBiv B) = exact TBiv m /\
  let p := mul TVec TBiv (imspVec (mul TVec TBiv v B)) m in
  let r := mul TTri TBiv (imspTri (mul TVec TBiv v B)) m in
  split_along (axis B) v r (imspVec p) /\ imspTri p = Tri 0.
Proof. exact projection_biv. Qed.
Print Assumptions C52_projection_on_plane.
Example C52_example : let n := Vec 0 0 2 : Vector R in let v := Vec 1 2 3 in
  n <> zero TVec /\ mirrored n v (Vec 1 2 (-3)).
Proof.
  cbv zeta; split; [|split].
  - intros H; apply (f_equal vec_2) in H; cbv in H; lra.
  - cbv -[Rplus Rmult Ropp IZR]; lra.
  - exists (-3); cbv -[Rplus Rmult Ropp IZR]; repeat f_equal; lra.
Qed.

(** C53 *)
Theorem C53_vector_product : forall u v : Vector R, let p := mul TVec TVec u v in
  spinSca p = Sca (dot u v) /\ axis (spinBiv p) = cross u v.
Proof. exact vector_product. Qed.
Print Assumptions C53_vector_product.
Theorem C53_triple_product : forall u v w : Vector R,
  let p := mul TSpin TVec (mul TVec TVec u v) w in
  imspTri p = Tri (det3 u v w) /\ det3 u v w = dot u (cross v w) /\
  imspVec p = vplus (vplus (vtimes (dot v w) u) (vtimes (- dot u w) v)) (vtimes (dot u v) w).
Proof. exact triple_product. Qed.
Print Assumptions C53_triple_product.
Theorem C53_bivector_products : forall (u : Vector R) (B C : BiVector R),
  (imspTri (mul TVec TBiv u B) = Tri (dot u (axis B)) /\ imspVec (mul TVec TBiv u B) = cross (axis B) u) /\
  (imspTri (mul TBiv TVec B u) = Tri (dot u (axis B)) /\ imspVec (mul TBiv TVec B u) = cross u (axis B)) /\
  (spinSca (mul TBiv TBiv B C) = Sca (- dot (axis B) (axis C)) /\
   axis (spinBiv (mul TBiv TBiv B C)) = cross (axis C) (axis B)).
Proof. exact bivector_products. Qed.
Print Assumptions C53_bivector_products.
Theorem C53_trivector_products : forall (a b : R) (u : Vector R) (B : BiVector R),
  (axis (mul TTri TVec (Tri a) u) = vtimes a u /\ axis (mul TVec TTri u (Tri a)) = vtimes a u) /\
  (mul TTri TBiv (Tri a) B = vtimes (- a) (axis B) /\ mul TBiv TTri B (Tri a) = vtimes (- a) (axis B)) /\
  mul TTri TTri (Tri a) (Tri b) = Sca (- (a * b)).
Proof. exact trivector_products. Qed.
Print Assumptions C53_trivector_products.
Example C53_example : mul TVec TVec (Vec 1 0 0) (Vec 0 1 0 : Vector R) = mkSpin (Sca 0) (Biv 0 0 1).
Proof. cbv -[Rplus Rminus Rmult Ropp IZR]; repeat f_equal; lra. Qed.
