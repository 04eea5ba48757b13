(** * Turning one vector into another. *)

Require Import Reals ZArith Lra.
From Flocq Require Import Core BinarySingleNaN.
Require Import Verif.Num Verif.Types Verif.OpsUni Verif.OpsMul Verif.Const Verif.Func Verif.SpecCl Verif.SpecFunc Verif.SpecGeom Verif.RealInst
  Verif.AlgTac Verif.AlgFacts Verif.FuncFacts Verif.LogThm Verif.B64 Verif.SpecRound Verif.SpecAcc Verif.SpecToward Verif.TowardFacts Verif.TowardAcc.
Local Open Scope R_scope.

(** C101. [sqrtG2(b * a, plane)] has squared norm [|a||b|]. Away from parallel
    and opposite vectors it takes [a] to [|a|^2 b] exactly, is
    [(|a||b| + b a) / sqrt(2(|a||b| + a.b))], and among all spinors that do so
    it turns by the smallest angle, alone but for the sign. For nearly parallel
    vectors it misses by at most 2^-25 of the length; for nearly opposite
    vectors it also misses by twice the part of [a] normal to the plane. *)
Theorem C101_turn : forall (a b : Vector R) (plane : BiVector R), let M := cnorm (den TVec a) * cnorm (den TVec b) in
  4 * deps <= M -> tiny < cnorm (den TBiv plane) ->
  exists q, turner (exact TVec a) (exact TVec b) (exact TBiv plane) = exact TSpin q /\ cnorm2 (den TSpin q) = M /\
    (Rabs (dot a b) <= (1 - deps) * M -> turns q a b /\
       ceq (cscale (sqrt (2 * (M + dot a b))) (den TSpin q)) (cadd (cscale M cone) (gp (den TVec b) (den TVec a))) /\
       forall r, turns r a b -> Rabs (sca_0 (spinSca r)) <= sca_0 (spinSca q) /\
         (Rabs (sca_0 (spinSca r)) = sca_0 (spinSca q) -> r = q \/ r = neg TSpin q)) /\
    (- (1 - deps) * M <= dot a b ->
       cnorm (csub (den TImsp (sandwich q a)) (den TVec (vtimes (dot a a) b))) <= branch_error * (M * cnorm (den TVec a))) /\
    (dot a b < - (1 - deps) * M ->
       cnorm (csub (den TImsp (sandwich q a)) (cadd (den TVec (vtimes (dot a a) b)) (den TVec (vtimes (2 * M) (normal_part plane a))))) <=
         branch_error * (M * cnorm (den TVec a))).
Proof. exact turning. Qed.
Print Assumptions C101_turn.

(** Opposite vectors along the normal of the plane, for instance along e1 with
    the default plane e23: the first is not turned at all. *)
Theorem C101_opposite_refuted : forall (plane : BiVector R) t k, let a := vtimes t (axis plane) in let b := vtimes (- k) a in
  0 < k -> 4 * deps <= cnorm (den TVec a) * cnorm (den TVec b) -> tiny < cnorm (den TBiv plane) ->
  exists q, turner (exact TVec a) (exact TVec b) (exact TBiv plane) = exact TSpin q /\
    ceq (den TImsp (sandwich q a)) (den TVec (vtimes (- dot a a) b)).
Proof. exact stays. Qed.
Print Assumptions C101_opposite_refuted.

(** Short vectors: below the threshold of [sqrtG2] the turn is zero. *)
Theorem C101_short_refuted : forall (a b : Vector R) (plane : BiVector xreal), cnorm (den TVec a) * cnorm (den TVec b) < 4 * deps ->
  turner (exact TVec a) (exact TVec b) plane = exact TSpin (zero TSpin).
Proof. exact turner_small. Qed.
Print Assumptions C101_short_refuted.

(** On doubles: with [h] below the cosine of half the angle between the vectors,
    the computed spinor is within [2 err / h] of the shortest turn, and the
    expression [q * a * reverse(q)] within [5 err / h + 60 u] of [|a|^2 b],
    relative to the norms. *)
Theorem C101_doubles : forall (L : Libm f64) eps, trig_within eps L -> exp_within eps L -> log_within eps L -> atan2_within eps L ->
  eps <= bpow radix2 (-40) -> forall (a b : Vector f64) (plane : BiVector f64) h,
  all_finite TVec a -> all_finite TVec b -> cnorm (exactly TVec a) <= bpow radix2 240 -> cnorm (exactly TVec b) <= bpow radix2 240 ->
  let p := mul TVec TVec b a in root_domain p plane -> bpow radix2 (-49) <= cnorm (exactly TSpin p) ->
  let ra := mapv (fun v : f64 => B2R v) TVec a in let rb := mapv (fun v : f64 => B2R v) TVec b in
  let M := cnorm (exactly TVec a) * cnorm (exactly TVec b) in let N := cnorm (exactly TSpin p) in
  bpow radix2 (-30) <= h -> 2 * (h * h) * M <= M + dot ra rb ->
  let q := turner a b plane in let r := mul TImsp TSpin (mul TSpin TVec q a) (reverse TSpin q) in
  all_finite TSpin q /\ all_finite TImsp r /\
  exists q0 : Spinor R, turns q0 ra rb /\ (forall r0, turns r0 ra rb -> Rabs (sca_0 (spinSca r0)) <= sca_0 (spinSca q0)) /\
    forall d, bpow radix2 (-20) <= d \/ (320 * unit_roundoff <= d /\ bpow radix2 (-23) * N <= cnorm (exactly TBiv (spinBiv p))) ->
    let err := eps * (15 + 3 * Rabs (ln N)) + d in
    cnorm (csub (exactly TSpin q) (den TSpin q0)) <= 2 * err / h * sqrt M /\
    cnorm (csub (exactly TImsp r) (den TVec (vtimes (dot ra ra) rb))) <= (5 * err / h + 60 * unit_roundoff) * (M * cnorm (exactly TVec a)).
Proof. exact @toward_accurate. Qed.
Print Assumptions C101_doubles.

(** From [3 e1] to [4 e2], with the default plane. *)
Example C101_example : let a := Vec 3 0 0 : Vector R in let b := Vec 0 4 0 in let M := cnorm (den TVec a) * cnorm (den TVec b) in
  M = 12 /\ 4 * deps <= M /\ tiny < cnorm (den TBiv (c_e23 : BiVector R)) /\ Rabs (dot a b) <= (1 - deps) * M /\
  turner (exact TVec a) (exact TVec b) (exact TBiv c_e23) = exact TSpin (halfway a b) /\ turns (halfway a b) a b.
Proof.
  cbv zeta. assert (E1 : cnorm (den TVec (Vec 3 0 0)) = 3).
  { unfold cnorm; replace (cnorm2 _) with (3 * 3) by dring; apply sqrt_square; lra. }
  assert (E2 : cnorm (den TVec (Vec 0 4 0)) = 4).
  { unfold cnorm; replace (cnorm2 _) with (4 * 4) by dring; apply sqrt_square; lra. }
  assert (E3 : cnorm (den TBiv (c_e23 : BiVector R)) = 1).
  { unfold cnorm; replace (cnorm2 _) with (1 * 1) by dring; apply sqrt_square; lra. }
  assert (D : dot (Vec 3 0 0) (Vec 0 4 0) = 0) by (cbv -[Rplus Rmult IZR]; lra).
  pose proof tiny_small. pose proof deps_val.
  assert (T := turner_form (Vec 3 0 0) (Vec 0 4 0) c_e23). assert (U := halfway_turns (Vec 3 0 0) (Vec 0 4 0)). cbv zeta in T, U.
  rewrite E1, E2, E3, D, Rabs_R0 in *. repeat split; try lra; try (apply T; lra); apply U; lra.
Qed.
(** From [e1] to [-2 e1], with the default plane. *)
Example C101_example_opposite : let plane := c_e23 : BiVector R in let a := vtimes 1 (axis plane) in let b := vtimes (- (2)) a in
  a = c_e1 /\ 0 < 2 /\ 4 * deps <= cnorm (den TVec a) * cnorm (den TVec b) /\ tiny < cnorm (den TBiv plane) /\
  dot a b < - (1 - deps) * (cnorm (den TVec a) * cnorm (den TVec b)).
Proof.
  cbv zeta.
  assert (E1 : cnorm (den TVec (vtimes 1 (axis (c_e23 : BiVector R)))) = 1).
  { unfold cnorm; replace (cnorm2 _) with (1 * 1) by dring; apply sqrt_square; lra. }
  assert (E2 : cnorm (den TVec (vtimes (- (2)) (vtimes 1 (axis (c_e23 : BiVector R))))) = 2).
  { unfold cnorm; replace (cnorm2 _) with (2 * 2) by dring; apply sqrt_square; lra. }
  assert (E3 : cnorm (den TBiv (c_e23 : BiVector R)) = 1).
  { unfold cnorm; replace (cnorm2 _) with (1 * 1) by dring; apply sqrt_square; lra. }
  assert (D : dot (vtimes 1 (axis (c_e23 : BiVector R))) (vtimes (- (2)) (vtimes 1 (axis (c_e23 : BiVector R)))) = -2) by (cbv -[Rplus Rmult Ropp IZR]; lra).
  rewrite E1, E2, E3, D. pose proof tiny_small. pose proof deps_val. repeat split; try lra.
  apply (den_inj TVec). intros k. dblade k; dring.
Qed.
(** Orthogonal vectors of length 2^-26. *)
Example C101_example_short : let a := Vec (/ 67108864) 0 0 : Vector R in let b := Vec 0 (/ 67108864) 0 in
  cnorm (den TVec a) * cnorm (den TVec b) < 4 * deps.
Proof.
  cbv zeta. assert (E1 : cnorm (den TVec (Vec (/ 67108864) 0 0)) = / 67108864).
  { unfold cnorm; replace (cnorm2 _) with (/ 67108864 * / 67108864) by dring; apply sqrt_square; lra. }
  assert (E2 : cnorm (den TVec (Vec 0 (/ 67108864) 0)) = / 67108864).
  { unfold cnorm; replace (cnorm2 _) with (/ 67108864 * / 67108864) by dring; apply sqrt_square; lra. }
  rewrite E1, E2, deps_val. lra.
Qed.
(** On doubles, from [e1] to [e2]: a right angle, with [h = 1/2]. *)
Example C101_example_doubles : let o := f64_lit 1 0 in let z := f64_lit 0 0 in let a := Vec o z z : Vector f64 in let b := Vec z o z : Vector f64 in
  let plane := Biv z o z : BiVector f64 in let p := mul TVec TVec b a in
  let ra := mapv (fun v : f64 => B2R v) TVec a in let rb := mapv (fun v : f64 => B2R v) TVec b in
  all_finite TVec a /\ all_finite TVec b /\ cnorm (exactly TVec a) = 1 /\ cnorm (exactly TVec b) = 1 /\ root_domain p plane /\ cnorm (exactly TSpin p) = 1 /\
  dot ra rb = 0 /\ cnorm (exactly TBiv (spinBiv p)) = 1.
Proof. exact example_toward. Qed.
