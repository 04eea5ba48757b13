(** * Properties of the mathematical functions in exact arithmetic.

    Only statements; proofs are in FuncFacts.v, ExpThm.v, LogThm.v and
    FuncThm.v.  [exact t x] is the value of type [t] with the real components
    of [x]; an outcome that is not a real number (NaN, infinity) is [None]. *)

Require Import Reals List Lra Bool.
From Flocq Require Import Core.
From Coquelicot Require Import Coquelicot.
Require Import Verif.Num Verif.Types Verif.Priv Verif.OpsUni Verif.OpsAdd
  Verif.OpsSub Verif.OpsMul Verif.Const Verif.Validity Verif.Func Verif.SpecCl Verif.SpecExp
  Verif.SpecFunc Verif.RealInst Verif.AlgTac Verif.AlgFacts Verif.AlgThm Verif.FuncFacts
  Verif.ExpThm Verif.LogThm Verif.FuncThm Verif.SpecAnti Verif.AntiThm.
Local Open Scope R_scope.

(** C11 *)
Theorem C11_magnitude_squared : forall t (x : val R t), exists m,
  magnitude t (exact t x) = Some m /\ 0 <= m /\ m * m = magSq t x.
Proof. exact mag_square. Qed.
Print Assumptions C11_magnitude_squared.
Theorem C11_magnitude_scales : forall t (c : R) (x : val R t) m,
  magnitude t (exact t x) = Some m ->
  magnitude _ (exact _ (mul TDub t c x)) = Some (Rabs c * m).
Proof. exact mag_scale. Qed.
Print Assumptions C11_magnitude_scales.
Theorem C11_triangle : forall a b (x : val R a) (y : val R b) mx my,
  magnitude a (exact a x) = Some mx -> magnitude b (exact b y) = Some my ->
  if_exists (fun c z => exists mz, magnitude c (exact c z) = Some mz /\ mz <= mx + my)
    (addTy a b) (add a b x y).
Proof. exact mag_triangle. Qed.
Print Assumptions C11_triangle.
Theorem C11_multiplicative : forall a b (x : val R a) (y : val R b) mx my,
  unmixed a = true \/ unmixed b = true ->
  magnitude a (exact a x) = Some mx -> magnitude b (exact b y) = Some my ->
  magnitude _ (exact _ (mul a b x y)) = Some (mx * my).
Proof. exact mag_mult. Qed.
Print Assumptions C11_multiplicative.
Theorem C11_product_bound : forall a b (x : val R a) (y : val R b),
  magSq _ (mul a b x y) <= 2 * magSq a x * magSq b y.
Proof. exact mag_bound. Qed.
Print Assumptions C11_product_bound.
Example C11_example : magnitude TVec (exact TVec (Vec 3 0 4)) = Some 5.
Proof.
  rewrite magnitude_exact; unfold cnorm; replace (cnorm2 _) with (5 * 5) by dring.
  rewrite sqrt_square by lra; reflexivity.
Qed.
Example C11_bound_reached : (* |(1+e1)(1+e1)|^2 = 8 = 2 * 2 * 2 *)
  magSq TMvec (mul TMvec TMvec (mv_of_8 1 1 0 0 0 0 0 0) (mv_of_8 1 1 0 0 0 0 0 0)) = 8.
Proof. dring. Qed.

(** C12 *)
Theorem C12_ampSq : forall t f (x : val R t), ampSq t = Some f ->
  exists z : ComPlex R, f (exact t x) = exact TCplx z /\
    ceq (den TCplx z) (den _ (mul t t x (dirverse t x))) /\
    ceq (den TCplx z) (den _ (mul t t (dirverse t x) x)).
Proof. exact ampSq_is_dirverse_product. Qed.
Print Assumptions C12_ampSq.
Theorem C12_ampSq_overloads : forall t,
  (ampSq t : option (val xreal t -> ComPlex xreal)) = None <-> t = TDub.
Proof. exact ampSq_all. Qed.
Print Assumptions C12_ampSq_overloads.
Theorem C12_ampSq_multiplicative : forall a b f g h (x : val R a) (y : val R b),
  ampSq a = Some f -> ampSq b = Some g -> ampSq (mulTy a b) = Some h ->
  exists zx zy zxy : ComPlex R,
    f (exact a x) = exact TCplx zx /\ g (exact b y) = exact TCplx zy /\
    h (exact _ (mul a b x y)) = exact TCplx zxy /\ zxy = mul TCplx TCplx zx zy.
Proof. exact ampSq_multiplicative. Qed.
Print Assumptions C12_ampSq_multiplicative.
Example C12_example : exists f g h, ampSq TVec = Some f /\ ampSq TDplx = Some g /\
  ampSq (mulTy TVec TDplx) = Some h /\
  f (exact TVec (Vec 1 2 3)) = exact TCplx (mkCplx (Sca (-14)) (Tri 0)).
Proof.
  do 3 eexists; repeat (split; [reflexivity|]); apply cplx_some; dring.
Qed.

(** C13 *)
Theorem C13_amplitude : forall t f g (x : val R t),
  amplitude t = Some f -> ampSq t = Some g ->
  exists z w : ComPlex R, f (exact t x) = exact TCplx z /\ g (exact t x) = exact TCplx w /\
    ceq (den _ (mul TCplx TCplx z z)) (den TCplx w) /\
    (0 < sca_0 (cplxSca z) \/ (sca_0 (cplxSca z) = 0 /\ 0 <= tri_0 (cplxTri z))).
Proof. exact amplitude_exact. Qed.
Print Assumptions C13_amplitude.
Example C13_example : exists f g,
  (amplitude TMvec : option (val xreal TMvec -> _)) = Some f /\
  (ampSq TMvec : option (val xreal TMvec -> _)) = Some g.
Proof. do 2 eexists; split; reflexivity. Qed.

(** C14 *)
Theorem C14_blade_inverse : forall t inv (x : val R t),
  blade_inverse t = Some inv -> x <> zero t ->
  exists y, inv (exact t x) = exact t y /\
    ceq (den _ (mul t t x y)) cone /\ ceq (den _ (mul t t y x)) cone.
Proof. exact blade_inverse_ok. Qed.
Print Assumptions C14_blade_inverse.
Theorem C14_blade_inverse_of_zero : forall t inv, blade_inverse t = Some inv ->
  isValid t (inv (exact t (zero t))) = false.
Proof. exact blade_inverse_zero. Qed.
Print Assumptions C14_blade_inverse_of_zero.
Example C14_example : blade_inverse TVec = Some inverse_Vec /\ (Vec 0 2 0 : Vector R) <> zero TVec.
Proof. split; [reflexivity|]; intros H; injection H; lra. Qed.

(** C15 *)
Theorem C15_complex : forall z : ComPlex R,
  isValid TCplx (inverse_Cplx (exact TCplx z)) = true ->
  exists w, inverse_Cplx (exact TCplx z) = exact TCplx w /\
    mul TCplx TCplx z w = one TCplx /\ mul TCplx TCplx w z = one TCplx.
Proof. exact inverse_Cplx_valid_inverse. Qed.
Print Assumptions C15_complex.
Theorem C15_complex_valid : forall z : ComPlex R,
  isValid TCplx (inverse_Cplx (exact TCplx z)) = true <-> dmin < magSq TCplx z.
Proof. exact inverse_Cplx_valid_iff. Qed.
Print Assumptions C15_complex_valid.
Theorem C15_complex_null : forall z : ComPlex R, magSq TCplx z <= dmin ->
  inverse_Cplx (exact TCplx z) = null TCplx.
Proof. intros z H; rewrite magSq_den in H; exact (inverse_Cplx_null z H). Qed.
Print Assumptions C15_complex_null.
Theorem C15_multivector : forall m : MultiVector R,
  isValid TMvec (inverse_Mvec (exact TMvec m)) = true ->
  exists w, inverse_Mvec (exact TMvec m) = exact TMvec w /\
    mul TMvec TMvec m w = one TMvec /\ mul TMvec TMvec w m = one TMvec.
Proof. exact inverse_Mvec_valid_inverse. Qed.
Print Assumptions C15_multivector.
Theorem C15_multivector_valid : forall m : MultiVector R,
  isValid TMvec (inverse_Mvec (exact TMvec m)) = true <->
  dmin < magSq TMvec (mul TMvec TMvec m (dirverse TMvec m)).
Proof. exact inverse_Mvec_valid_iff. Qed.
Print Assumptions C15_multivector_valid.
Theorem C15_multivector_null : forall m : MultiVector R,
  isValid TMvec (inverse_Mvec (exact TMvec m)) = false ->
  forall i, In i (elems TMvec (inverse_Mvec (exact TMvec m))) -> i = None.
Proof. exact inverse_Mvec_invalid_all_nan. Qed.
Print Assumptions C15_multivector_null.
Theorem C15_no_inverse : forall m : MultiVector R,
  (forall w, mul TMvec TMvec m w <> one TMvec) ->
  isValid TMvec (inverse_Mvec (exact TMvec m)) = false.
Proof. exact inverse_Mvec_none. Qed.
Print Assumptions C15_no_inverse.
(** The threshold also refuses some invertible multivectors. *)
Theorem C15_threshold_refuses_invertible : exists m w : MultiVector R,
  mul TMvec TMvec m w = one TMvec /\ isValid TMvec (inverse_Mvec (exact TMvec m)) = false.
Proof. exact inverse_Mvec_threshold. Qed.
Print Assumptions C15_threshold_refuses_invertible.
Example C15_example : (* 2 + e12 has an inverse; 1 + e1 has none *)
  dmin < magSq TMvec (mul TMvec TMvec (mv_of_8 2 0 0 0 0 0 1 0) (dirverse TMvec (mv_of_8 2 0 0 0 0 0 1 0))) /\
  (forall w, mul TMvec TMvec (mv_of_8 1 1 0 0 0 0 0 0) w <> one TMvec).
Proof.
  split.
  - match goal with |- _ < ?x => replace x with 25 by dring end.
    pose proof dmin_small; lra.
  - intros w H; apply (f_equal (fun v => magSq TMvec (mul TMvec TMvec (mv_of_8 1 (-1) 0 0 0 0 0 0) v))) in H.
    match type of H with ?a = ?b => replace a with 0 in H by (clear H; dvals; dring); replace b with 2 in H by dring end.
    lra.
Qed.

(** C16 *)
Theorem C16_decomposition : forall t (x : val R t), tiny < cnorm (den t x) ->
  exists m d, pairMagDirFrom t (exact t x) = (Some m, exact t d) /\
    direction t (exact t x) = exact t d /\
    magnitude t (exact t x) = Some m /\ 0 < m /\
    scale t m d = x /\ magnitude t (exact t d) = Some 1.
Proof. exact direction_split. Qed.
Print Assumptions C16_decomposition.
Theorem C16_zero : forall t (x : val R t), cnorm (den t x) <= tiny ->
  exists m, pairMagDirFrom t (exact t x) = (Some m, null t) /\
    direction t (exact t x) = null t /\ 0 <= m <= tiny.
Proof. exact direction_tiny. Qed.
Print Assumptions C16_zero.
Lemma norm_e12 : cnorm (den TBiv c_e12) = 1.
Proof. unfold cnorm; replace (cnorm2 _) with 1 by dring; apply sqrt_1. Qed.
Lemma tiny_lt_1 : tiny < 1.
Proof. pose proof tiny_small; lra. Qed.
Example C16_example : tiny < cnorm (den TBiv c_e12) /\ cnorm (den TVec (zero TVec)) <= tiny.
Proof.
  split; [rewrite norm_e12; apply tiny_lt_1|].
  rewrite (cnorm_ceq _ _ (zero_den TVec)), cnorm_zero; apply Rlt_le, tiny_pos.
Qed.

(** C17.  [is_cexp a E]: [E] is the sum of the series of [a].  The result is
    the series, exactly, for every bivector that is zero or longer than the
    smallest positive double, and within that length of it otherwise. *)
Theorem C17_series : forall B : BiVector R, exists r E,
  exp_Biv (exact TBiv B) = exact TSpin r /\ is_cexp (den TBiv B) E /\
  (nontiny B -> ceq (den TSpin r) E) /\ cnorm (csub (den TSpin r) E) <= tiny.
Proof. exact exp_Biv_series. Qed.
Print Assumptions C17_series.
Theorem C17_unit_magnitude : forall B : BiVector R, exists r,
  exp_Biv (exact TBiv B) = exact TSpin r /\ cnorm (den TSpin r) = 1.
Proof. exact exp_Biv_unit. Qed.
Print Assumptions C17_unit_magnitude.
Theorem C17_inverse : forall B : BiVector R, exists r r',
  exp_Biv (exact TBiv B) = exact TSpin r /\ exp_Biv (exact TBiv (neg TBiv B)) = exact TSpin r' /\
  ceq (den _ (mul TSpin TSpin r r')) cone /\ ceq (den _ (mul TSpin TSpin r' r)) cone /\
  r' = reverse TSpin r.
Proof. exact exp_Biv_inverse. Qed.
Print Assumptions C17_inverse.
Theorem C17_one_parameter_group : forall (B : BiVector R) s t,
  nontiny (scale TBiv s B) -> nontiny (scale TBiv t B) -> nontiny (scale TBiv (s + t) B) ->
  exists rs rt rst, exp_Biv (exact TBiv (scale TBiv s B)) = exact TSpin rs /\
    exp_Biv (exact TBiv (scale TBiv t B)) = exact TSpin rt /\
    exp_Biv (exact TBiv (scale TBiv (s + t) B)) = exact TSpin rst /\
    rst = mul TSpin TSpin rs rt.
Proof. exact exp_Biv_scaled. Qed.
Print Assumptions C17_one_parameter_group.
Theorem C17_commuting : forall (A B : BiVector R),
  ceq (den _ (mul TBiv TBiv A B)) (den _ (mul TBiv TBiv B A)) ->
  nontiny A -> nontiny B -> nontiny (add_Biv_Biv A B) ->
  exists ra rb rc, exp_Biv (exact TBiv A) = exact TSpin ra /\ exp_Biv (exact TBiv B) = exact TSpin rb /\
    exp_Biv (exact TBiv (add_Biv_Biv A B)) = exact TSpin rc /\
    rc = mul TSpin TSpin ra rb.
Proof. exact exp_Biv_add. Qed.
Print Assumptions C17_commuting.
Theorem C17_zero : exp_Biv (exact TBiv (zero TBiv)) = exact TSpin (one TSpin).
Proof. exact exp_Biv_zero. Qed.
Print Assumptions C17_zero.
Example C17_example : nontiny (scale TBiv 1 c_e12) /\ nontiny (scale TBiv (1 + -1) c_e12).
Proof.
  split; [right | left].
  - rewrite (cnorm_ceq _ _ (scale_den TBiv 1 c_e12)), cnorm_scale, norm_e12, Rabs_R1, Rmult_1_l; apply tiny_lt_1.
  - apply (den_inj TBiv); intro k; dblade k; dring.
Qed.

(** C18 *)
Theorem C18_series : forall S : Spinor R, exists r E,
  exp_Spin (exact TSpin S) = exact TSpin r /\ is_cexp (den TSpin S) E /\
  (nontiny (spinBiv S) -> ceq (den TSpin r) E) /\
  cnorm (csub (den TSpin r) E) <= exp (sca_0 (spinSca S)) * tiny.
Proof. exact exp_Spin_series. Qed.
Print Assumptions C18_series.
Theorem C18_inverse : forall S : Spinor R, exists r r',
  exp_Spin (exact TSpin S) = exact TSpin r /\ exp_Spin (exact TSpin (neg TSpin S)) = exact TSpin r' /\
  ceq (den _ (mul TSpin TSpin r r')) cone /\ ceq (den _ (mul TSpin TSpin r' r)) cone.
Proof. exact exp_Spin_inverse. Qed.
Print Assumptions C18_inverse.
Example C18_example : nontiny (spinBiv (mkSpin (Sca 2) c_e12)).
Proof. right; cbn [spinBiv]; rewrite norm_e12; apply tiny_lt_1. Qed.

(** C19, full statement; false of the code: for every non-zero trivector and
    every non-zero vector the result is not the sum of the series. *)
Theorem C19_refuted :
  ~ (forall M : MultiVector R, exists r,
       exp_Mvec (exact TMvec M) = exact TMvec r /\ is_cexp (den TMvec M) (den TMvec r)).
Proof. exact exp_Mvec_refuted. Qed.
Print Assumptions C19_refuted.
Theorem C19_wrong_trivectors : forall t : R, t <> 0 -> exists r E,
  exp_Mvec (exact TMvec (mv_of_Tri (Tri t))) = exact TMvec r /\
  is_cexp (den TTri (Tri t)) E /\ ~ ceq (den TMvec r) E.
Proof. exact exp_Mvec_tri_wrong. Qed.
Print Assumptions C19_wrong_trivectors.
Theorem C19_wrong_vectors : forall v : Vector R, v <> zero TVec -> exists r E,
  exp_Mvec (exact TMvec (mv_of_Vec v)) = exact TMvec r /\
  is_cexp (den TVec v) E /\ ~ ceq (den TMvec r) E.
Proof. exact exp_Mvec_vec_wrong. Qed.
Print Assumptions C19_wrong_vectors.
(** It is the series for scalar plus bivector arguments.  Missing: arguments
    with a vector or trivector part, where it is false. *)
Theorem C19_spinor_partial : forall S : Spinor R, exists r E,
  exp_Mvec (exact TMvec (mv_of_Spin S)) = exact TMvec r /\
  is_cexp (den TSpin S) E /\
  (spinBiv S = zero TBiv \/ sync_lim <= cnorm (den TBiv (spinBiv S)) -> ceq (den TMvec r) E) /\
  cnorm (csub (den TMvec r) E) <=
    exp (sca_0 (spinSca S)) * (2 / 10 ^ 28) * cnorm (den TBiv (spinBiv S)).
Proof. exact exp_Mvec_spinor. Qed.
Print Assumptions C19_spinor_partial.
(** What it computes instead, for every argument: the exponential in the
    algebra whose generators square to -1, where the pseudoscalar squares to
    +1.  [ap] is that product. *)
Theorem C19_other_algebra :
  (forall a b c : clf, ceq (ap (ap a b) c) (ap a (ap b c))) /\
  (forall a : clf, ceq (ap cone a) a /\ ceq (ap a cone) a) /\
  (forall a b c : clf, ceq (ap (cadd a b) c) (cadd (ap a c) (ap b c)) /\
     ceq (ap c (cadd a b)) (cadd (ap c a) (ap c b))) /\
  (forall (r : R) (a b : clf),
     ceq (ap (cscale r a) b) (cscale r (ap a b)) /\ ceq (ap a (cscale r b)) (cscale r (ap a b))) /\
  (ceq (ap (cbasis bE1) (cbasis bE1)) (copp cone) /\
   ceq (ap (cbasis bE2) (cbasis bE2)) (copp cone) /\ ceq (ap (cbasis bE3) (cbasis bE3)) (copp cone)) /\
  (ceq (ap (cbasis bE2) (cbasis bE1)) (copp (ap (cbasis bE1) (cbasis bE2))) /\
   ceq (ap (cbasis bE3) (cbasis bE1)) (copp (ap (cbasis bE1) (cbasis bE3))) /\
   ceq (ap (cbasis bE3) (cbasis bE2)) (copp (ap (cbasis bE2) (cbasis bE3)))) /\
  (ceq (cbasis bE12) (ap (cbasis bE1) (cbasis bE2)) /\
   ceq (cbasis bE13) (ap (cbasis bE1) (cbasis bE3)) /\ ceq (cbasis bE23) (ap (cbasis bE2) (cbasis bE3)) /\
   ceq (cbasis bE123) (ap (ap (cbasis bE1) (cbasis bE2)) (cbasis bE3))).
Proof. exact ap_algebra. Qed.
Print Assumptions C19_other_algebra.
Theorem C19_what_is_computed : forall M : MultiVector R, exists r E,
  exp_Mvec (exact TMvec M) = exact TMvec r /\ is_aexp (den TMvec M) E /\
  (sync_exactly (part_minus M) -> sync_exactly (part_plus M) -> ceq (den TMvec r) E) /\
  cnorm (csub (den TMvec r) E)
    <= exp (sca_0 (mvSca M) + Rabs (tri_0 (mvTri M))) * (2 / 10 ^ 28) * cnorm (den TMvec M).
Proof. exact exp_Mvec_aexp. Qed.
Print Assumptions C19_what_is_computed.
Example C19_example : sync_lim <= cnorm (den TBiv (spinBiv (mkSpin (Sca 2) c_e12))) /\
  (Vec 0 1 0 : Vector R) <> zero TVec.
Proof.
  split; [cbn [spinBiv]; rewrite norm_e12; pose proof sync_lim_val; lra|].
  intros H; injection H; lra.
Qed.

(** C20.  [branch_error] is 2^-25.  The second argument is the plane to use
    next to the negative real axis, [e23] by default. *)
Theorem C20_log : forall (S : Spinor R) (plane : BiVector R),
  let M := cnorm (den TSpin S) in
  deps < M -> tiny < cnorm (den TBiv plane) ->
  exists L r, logG2 (exact TSpin S) (exact TBiv plane) = exact TSpin L /\
    exp_Spin (exact TSpin L) = exact TSpin r /\
    sca_0 (spinSca L) = ln M /\ cnorm (den TBiv (spinBiv L)) <= PI /\
    (Rabs (sca_0 (spinSca S)) <= (1 - deps) * M -> r = S) /\
    cnorm (csub (den TSpin r) (den TSpin S)) <= branch_error * M.
Proof. exact logG2_exp. Qed.
Print Assumptions C20_log.
Theorem C20_below_threshold : forall (S : Spinor R) (plane : BiVector xreal),
  cnorm (den TSpin S) <= deps -> logG2 (exact TSpin S) plane = null TSpin.
Proof. exact logG2_small. Qed.
Print Assumptions C20_below_threshold.
Theorem C20_no_plane : forall (S : Spinor R) (plane : BiVector R),
  let M := cnorm (den TSpin S) in
  deps < M -> sca_0 (spinSca S) < - (1 - deps) * M -> cnorm (den TBiv plane) <= tiny ->
  isValid TSpin (logG2 (exact TSpin S) (exact TBiv plane)) = false.
Proof. exact logG2_no_plane. Qed.
Print Assumptions C20_no_plane.
Lemma norm_e23 : cnorm (den TBiv c_e23) = 1.
Proof. unfold cnorm; replace (cnorm2 _) with 1 by dring; apply sqrt_1. Qed.
Lemma norm_34 : cnorm (den TSpin (mkSpin (Sca 3) (Biv 0 4 0))) = 5.
Proof. unfold cnorm; replace (cnorm2 _) with (5 * 5) by dring; apply sqrt_square; lra. Qed.
Example C20_example : let S := mkSpin (Sca 3) (Biv 0 4 0) in
  deps < cnorm (den TSpin S) /\ tiny < cnorm (den TBiv c_e23) /\
  Rabs (sca_0 (spinSca S)) <= (1 - deps) * cnorm (den TSpin S).
Proof.
  cbv zeta; rewrite norm_34, norm_e23; pose proof deps_val; pose proof tiny_lt_1.
  change (sca_0 _) with 3; rewrite Rabs_pos_eq by lra; lra.
Qed.

(** C21 *)
Theorem C21_sqrt : forall (S : Spinor R) (plane : BiVector R),
  let M := cnorm (den TSpin S) in
  4 * deps <= M -> tiny < cnorm (den TBiv plane) ->
  exists q, sqrtG2 (exact TSpin S) (exact TBiv plane) = exact TSpin q /\
    0 <= sca_0 (spinSca q) /\ magSq TSpin q = M /\
    (Rabs (sca_0 (spinSca S)) <= (1 - deps) * M -> mul TSpin TSpin q q = S) /\
    cnorm (csub (den _ (mul TSpin TSpin q q)) (den TSpin S)) <= branch_error * M.
Proof. exact sqrtG2_square. Qed.
Print Assumptions C21_sqrt.
Theorem C21_small : forall (S : Spinor R) (plane : BiVector xreal),
  cnorm (den TSpin S) < 4 * deps -> sqrtG2 (exact TSpin S) plane = exact TSpin (zero TSpin).
Proof. exact sqrtG2_small. Qed.
Print Assumptions C21_small.
Theorem C21_invalid : forall (S plane : _), isValid TSpin S = false ->
  sqrtG2 (F := xreal) S plane = null TSpin /\ logG2 (F := xreal) S plane = null TSpin.
Proof. exact sqrtG2_invalid. Qed.
Print Assumptions C21_invalid.
Example C21_example : let S := mkSpin (Sca 3) (Biv 0 4 0) in
  4 * deps <= cnorm (den TSpin S) /\ tiny < cnorm (den TBiv c_e23).
Proof. cbv zeta; rewrite norm_34, norm_e23; pose proof deps_val; pose proof tiny_lt_1; lra. Qed.

(** C22 *)
Theorem C22_sandwich : forall s v, rotate s v = imspVec (sandwich s v) /\
  ceq (den TImsp (sandwich s v)) (den TVec (rotate s v)) /\
  (magSq TSpin s = 1 ->
     (forall u, dot (rotate s u) (rotate s v) = dot u v) /\
     magnitude TVec (exact TVec (rotate s v)) = magnitude TVec (exact TVec v) /\
     forall u w, det3 (rotate s u) (rotate s v) (rotate s w) = det3 u v w).
Proof. exact rotate_norm. Qed.
Print Assumptions C22_sandwich.
Theorem C22_composition : forall s r v, rotate s (rotate r v) = rotate (mul TSpin TSpin s r) v.
Proof. exact rotate_compose. Qed.
Print Assumptions C22_composition.
(** Every vector is [c * axis + w] with [w] in the plane of [B].  The
    component along the axis stays; [w] is turned by the angle [|B|] towards
    [- w B/|B|], the vector of the same length at right angles to it. *)
Theorem C22_rotation_angle : forall (B : BiVector R), 2 * tiny < cnorm (den TBiv B) ->
  exists r, exp_Biv (exact TBiv (scale TBiv (1 / 2) B)) = exact TSpin r /\
    let m := cnorm (den TBiv B) in
    forall c (w : Vector R), dot (axis B) w = 0 ->
      ceq (den TVec (rotate r (add_Vec_Vec (scale TVec c (axis B)) w)))
          (cadd (den TVec (scale TVec c (axis B)))
             (csub (cscale (cos m) (den TVec w))
                (cscale (sin m / m) (gp (den TVec w) (den TBiv B))))).
Proof. exact rotate_exp_full. Qed.
Print Assumptions C22_rotation_angle.
Theorem C22_decomposition : forall (B : BiVector R) (v : Vector R), 0 < cnorm (den TBiv B) ->
  exists c w, v = add_Vec_Vec (scale TVec c (axis B)) w /\ dot (axis B) w = 0 /\
    exists p, ceq (gp (den TVec w) (den TBiv B)) (den TVec p) /\ dot p w = 0 /\
      dot p p = magSq TBiv B * dot w w /\ dot (axis B) p = 0.
Proof. exact rotate_decompose. Qed.
Print Assumptions C22_decomposition.
Example C22_example : magSq TSpin (mkSpin (Sca (3 / 5)) (Biv 0 (4 / 5) 0)) = 1 /\
  2 * tiny < cnorm (den TBiv c_e12) /\ dot (axis c_e12) (Vec 3 4 0) = 0.
Proof.
  repeat split.
  - cbv -[Rplus Rminus Rmult Ropp Rdiv Rinv R R0 R1 IZR]; field.
  - rewrite norm_e12; pose proof tiny_small; lra.
  - dring.
Qed.

(** C23 *)
Theorem C23_cardinal_sine : forall x : R, 0 <= x -> exists y,
  sync (Some x : xreal) = Some y /\ Rabs (y - sinc x) <= 2 / 10 ^ 28.
Proof. exact sync_accurate. Qed.
Print Assumptions C23_cardinal_sine.
(** For negative angles it is not: the polynomial is used however large the
    angle is. *)
Theorem C23_negative_angles : forall x : R, x <= -7 -> exists y,
  sync (Some x : xreal) = Some y /\ x ^ 4 / 240 <= y - sinc x.
Proof. exact sync_negative. Qed.
Print Assumptions C23_negative_angles.
Example C23_example : sinc PI = 0 /\ (-10) ^ 4 / 240 > 41.
Proof.
  split; [|lra]. unfold sinc; destruct (Req_EM_T PI 0); [pose proof PI_RGT_0; lra|]. rewrite sin_PI; field; exact n.
Qed.

(** C27, with Coquelicot's complex numbers. *)
Theorem C27_bijection : (forall z, toC (cplx_from z) = z) /\ forall c, cplx_from (toC c) = c.
Proof. exact toC_bij. Qed.
Print Assumptions C27_bijection.
Theorem C27_operations : forall x y : ComPlex R,
  toC (add TCplx TCplx x y) = Cplus (toC x) (toC y) /\
  toC (sub TCplx TCplx x y) = Cminus (toC x) (toC y) /\
  toC (mul TCplx TCplx x y) = Cmult (toC x) (toC y) /\
  toC (reverse TCplx x) = Cconj (toC x) /\ toC (oddverse TCplx x) = Cconj (toC x) /\
  magnitude TCplx (exact TCplx x) = Some (Cmod (toC x)).
Proof. exact toC_ops. Qed.
Print Assumptions C27_operations.
Theorem C27_inverse : forall x : ComPlex R, dmin < magSq TCplx x ->
  exists w, inverse_Cplx (exact TCplx x) = exact TCplx w /\ toC w = Cinv (toC x).
Proof. exact toC_inv. Qed.
Print Assumptions C27_inverse.
(** Conversions, for components of any kind (in particular IEEE doubles). *)
Theorem C27_conversions : forall F : Type,
  (forall z : F * F, cplx_to_std (cplx_from z) = z) /\
  (forall c : ComPlex F, cplx_from (cplx_to_std c) = c).
Proof. exact cplx_conv. Qed.
Print Assumptions C27_conversions.
Example C27_example : dmin < magSq TCplx (mkCplx (Sca 3) (Tri 4)).
Proof. replace (magSq _ _) with 25 by dring; pose proof dmin_small; lra. Qed.
