(** * Properties of the arithmetic operators in exact arithmetic.

    Only statements; proofs are in the files [Alg*.v].  [den t x] is the
    multivector a stored value stands for and [gp] the product of Cl(3,0)
    (SpecCl.v).  Numbers are real numbers here. *)

Require Import Reals List Lra.
Require Import Verif.Num Verif.Types Verif.Priv Verif.OpsUni Verif.OpsAdd
  Verif.OpsSub Verif.OpsMul Verif.Const Verif.Func Verif.SpecCl Verif.RealInst
  Verif.AlgTac Verif.AlgMul Verif.AlgFacts Verif.AlgSpec Verif.AlgThm.
Local Open Scope R_scope.

(** The yardstick: [gp] is the product of Cl(3,0), and the only one. *)
Theorem spec_product_is_clifford : is_clifford_product gp.
Proof. exact gp_is_clifford. Qed.
Print Assumptions spec_product_is_clifford.
Theorem spec_product_unique : forall P, is_clifford_product P -> forall a b, ceq (P a b) (gp a b).
Proof. exact clifford_unique. Qed.
Print Assumptions spec_product_unique.

(** Distinct values of a type stand for distinct multivectors, so [ceq] of
    denotations is equality of stored components. *)
Theorem spec_den_injective : forall t (x y : val R t), ceq (den t x) (den t y) -> x = y.
Proof. exact den_inj. Qed.
Print Assumptions spec_den_injective.

(** C01 *)
Theorem C01_product : forall a b (x : val R a) (y : val R b),
  ceq (den (mulTy a b) (mul a b x y)) (gp (den a x) (den b y)).
Proof. exact mul_den. Qed.
Print Assumptions C01_product.
Example C01_example : (* (1,2,3) * (4,5,6) = 32 + (-3,6,-3) *)
  mul TVec TVec (Vec 1 2 3) (Vec 4 5 6) = mkSpin (Sca 32) (Biv (-3) 6 (-3)).
Proof. apply (den_inj TSpin); intro k; dblade k; dring. Qed.

(** C02 *)
Theorem C02_sum : forall a b (x : val R a) (y : val R b),
  if_exists (fun c z => ceq (den c z) (cadd (den a x) (den b y))) (addTy a b) (add a b x y).
Proof. exact add_den. Qed.
Print Assumptions C02_sum.
(** Which sums exist: those of two G3 types for which some G3 type stores
    exactly the grades of both, and that is the type returned. *)
Theorem C02_sum_exists : forall a b c,
  addTy a b = Some c <->
  (a <> TDub /\ b <> TDub /\ c <> TDub /\
   forall n, has_grade c n = orb (has_grade a n) (has_grade b n)).
Proof. exact add_table. Qed.
Print Assumptions C02_sum_exists.
Example C02_example : addTy TVec TTri = Some TImsp /\
  add TVec TTri (Vec 1 2 3) (Tri 4) = mkImsp (Vec 1 2 3) (Tri 4).
Proof. split; reflexivity. Qed.

(** C03, unary minus. *)
Theorem C03_negation : forall t (x : val R t), ceq (den t (neg t x)) (copp (den t x)).
Proof. exact neg_den. Qed.
Print Assumptions C03_negation.
(** C03, full statement; false of the code. *)
Theorem C03_difference_refuted :
  ~ (forall a b (x : val R a) (y : val R b),
       if_exists (fun c z => ceq (den c z) (csub (den a x) (den b y))) (subTy a b) (sub a b x y)).
Proof. exact sub_refuted. Qed.
Print Assumptions C03_difference_refuted.
(** The overloads at fault are exactly BiVector-Scalar, BiVector-Vector,
    TriVector-Scalar, TriVector-Vector, Spinor-Scalar, Spinor-BiVector: each
    returns the opposite of the difference. *)
Theorem C03_wrong_sign : forall a b (x : val R a) (y : val R b),
  (a, b) = (TBiv, TSca) \/ (a, b) = (TBiv, TVec) \/ (a, b) = (TTri, TSca) \/
  (a, b) = (TTri, TVec) \/ (a, b) = (TSpin, TSca) \/ (a, b) = (TSpin, TBiv) ->
  if_exists (fun c z => ceq (den c z) (csub (den b y) (den a x))) (subTy a b) (sub a b x y).
Proof. exact sub_wrong_sign_pairs. Qed.
Print Assumptions C03_wrong_sign.
Example C03_example : (* Spinor{3,0} - Scalar{1} is Spinor{-2,0} *)
  sub TSpin TSca (mkSpin (Sca 3) (Biv 0 0 0)) (Sca 1) = mkSpin (Sca (1 - 3)) (Biv (-0) (-0) (-0)).
Proof. reflexivity. Qed.
(** All other overloads are the difference; missing: the six pairs above. *)
Theorem C03_difference_partial : forall a b (x : val R a) (y : val R b),
  ~ ((a, b) = (TBiv, TSca) \/ (a, b) = (TBiv, TVec) \/ (a, b) = (TTri, TSca) \/
     (a, b) = (TTri, TVec) \/ (a, b) = (TSpin, TSca) \/ (a, b) = (TSpin, TBiv)) ->
  if_exists (fun c z => ceq (den c z) (csub (den a x) (den b y)) /\
      if_exists (fun e s => ceq (den e s) (den a x)) (addTy c b) (add c b z y))
    (subTy a b) (sub a b x y).
Proof. exact sub_ok_pairs. Qed.
Print Assumptions C03_difference_partial.
Theorem C03_difference_exists : forall a b, subTy a b = addTy a b.
Proof. exact sub_table. Qed.
Print Assumptions C03_difference_exists.
Example C03_partial_example : subTy TMvec TBiv = Some TMvec /\
  sub TSca TSpin (Sca 1) (mkSpin (Sca 3) (Biv 1 2 3)) = mkSpin (Sca (1 - 3)) (Biv (-1) (-2) (-3)).
Proof. split; reflexivity. Qed.

(** C04 *)
Theorem C04_associative : forall a b c (x : val R a) (y : val R b) (z : val R c),
  ceq (den _ (mul (mulTy a b) c (mul a b x y) z)) (den _ (mul a (mulTy b c) x (mul b c y z))).
Proof. exact mul_assoc. Qed.
Print Assumptions C04_associative.
Theorem C04_distributive_left : forall a b c (x : val R a) (y : val R b) (z : val R c),
  if_exists (fun d s =>
      if_exists (fun e r => ceq (den _ (mul a d x s)) (den e r))
        (addTy (mulTy a b) (mulTy a c)) (add _ _ (mul a b x y) (mul a c x z)))
    (addTy b c) (add b c y z).
Proof. exact mul_add_distr_l. Qed.
Print Assumptions C04_distributive_left.
Theorem C04_distributive_right : forall a b c (x : val R a) (y : val R b) (z : val R c),
  if_exists (fun d s =>
      if_exists (fun e r => ceq (den _ (mul d a s x)) (den e r))
        (addTy (mulTy b a) (mulTy c a)) (add _ _ (mul b a y x) (mul c a z x)))
    (addTy b c) (add b c y z).
Proof. exact mul_add_distr_r. Qed.
Print Assumptions C04_distributive_right.
Theorem C04_distributive_sums_exist : forall a b c, addTy b c <> None ->
  addTy (mulTy a b) (mulTy a c) <> None /\ addTy (mulTy b a) (mulTy c a) <> None.
Proof. exact distr_exists. Qed.
Print Assumptions C04_distributive_sums_exist.
Theorem C04_unit : forall t (x : val R t),
  ceq (den _ (mul TDub t 1 x)) (den t x) /\ ceq (den _ (mul t TDub x 1)) (den t x) /\
  ceq (den _ (mul TSca t c_e0 x)) (den t x) /\ ceq (den _ (mul t TSca x c_e0)) (den t x).
Proof. exact mul_one. Qed.
Print Assumptions C04_unit.
Theorem C04_scalars_move : forall a b (r : R) (x : val R a) (y : val R b),
  let rx := mul TDub a r x in let ry := mul TDub b r y in
  ceq (den _ (mul _ b rx y)) (den _ (mul TDub _ r (mul a b x y))) /\
  ceq (den _ (mul a _ x ry)) (den _ (mul TDub _ r (mul a b x y))) /\
  ceq (den _ (mul _ TDub (mul a b x y) r)) (den _ (mul TDub _ r (mul a b x y))).
Proof. exact mul_scalar_moves. Qed.
Print Assumptions C04_scalars_move.
Example C04_example : addTy TBiv TSca = Some TSpin /\ mulTy TVec TSpin = TImsp /\
  addTy (mulTy TVec TBiv) (mulTy TVec TSca) = Some TImsp.
Proof. repeat split. Qed.

(** C05 *)
Theorem C05_basis_table :
  (* vectors square to +1, bivectors and the trivector to -1 *)
  ceq (den _ (mul TVec TVec c_e1 c_e1)) (den TSca c_e0) /\
  ceq (den _ (mul TVec TVec c_e2 c_e2)) (den TSca c_e0) /\
  ceq (den _ (mul TVec TVec c_e3 c_e3)) (den TSca c_e0) /\
  ceq (den _ (mul TBiv TBiv c_e23 c_e23)) (den TSca (neg TSca c_e0)) /\
  ceq (den _ (mul TBiv TBiv c_e31 c_e31)) (den TSca (neg TSca c_e0)) /\
  ceq (den _ (mul TBiv TBiv c_e12 c_e12)) (den TSca (neg TSca c_e0)) /\
  ceq (den _ (mul TTri TTri c_e123 c_e123)) (den TSca (neg TSca c_e0)) /\
  (* products of distinct vectors, both orders *)
  ceq (den _ (mul TVec TVec c_e1 c_e2)) (den TBiv c_e12) /\
  ceq (den _ (mul TVec TVec c_e2 c_e3)) (den TBiv c_e23) /\
  ceq (den _ (mul TVec TVec c_e3 c_e1)) (den TBiv c_e31) /\
  ceq (den _ (mul TVec TVec c_e2 c_e1)) (den TBiv (neg TBiv c_e12)) /\
  ceq (den _ (mul TVec TVec c_e3 c_e2)) (den TBiv (neg TBiv c_e23)) /\
  ceq (den _ (mul TVec TVec c_e1 c_e3)) (den TBiv (neg TBiv c_e31)) /\
  (* the trivector, all cyclic orders *)
  ceq (den _ (mul TSpin TVec (mul TVec TVec c_e1 c_e2) c_e3)) (den TTri c_e123) /\
  ceq (den _ (mul TSpin TVec (mul TVec TVec c_e2 c_e3) c_e1)) (den TTri c_e123) /\
  ceq (den _ (mul TSpin TVec (mul TVec TVec c_e3 c_e1) c_e2)) (den TTri c_e123) /\
  (* the three bivectors *)
  ceq (den _ (mul TSpin TBiv (mul TBiv TBiv c_e23 c_e31) c_e12)) (den TSca c_e0) /\
  (* the scalar is the identity *)
  (forall t (x : val R t), ceq (den _ (mul TSca t c_e0 x)) (den t x)).
Proof. exact basis_table. Qed.
Print Assumptions C05_basis_table.
(** The stored components are the coefficients of the expansion
    ([lincomb], AlgThm.v, is the sum [s*e0 + x*e1 + ... + t*e123] written
    with the library's operators), and the only ones. *)
Theorem C05_expansion : forall s x y z p q r t,
  lincomb s x y z p q r t = mv_of_8 s x y z p q r t.
Proof. exact lincomb_is. Qed.
Print Assumptions C05_expansion.
Theorem C05_expansion_unique : forall m : MultiVector R,
  exists s x y z p q r t, m = lincomb s x y z p q r t /\
   forall s' x' y' z' p' q' r' t', m = lincomb s' x' y' z' p' q' r' t' ->
    s' = s /\ x' = x /\ y' = y /\ z' = z /\ p' = p /\ q' = q /\ r' = r /\ t' = t.
Proof. exact lincomb_unique. Qed.
Print Assumptions C05_expansion_unique.
Example C05_example : mul TVec TVec c_e3 c_e1 = (mkSpin (Sca 0) c_e31 : Spinor R) /\
  lincomb 1 2 3 4 5 6 7 8 <> lincomb 1 2 3 4 5 7 6 8.
Proof.
  split; [cbv -[Rplus Rminus Rmult Ropp IZR]; repeat f_equal; lra|].
  rewrite !C05_expansion; intros H; apply (f_equal (fun m => biv_1 (mvBiv m))) in H; cbv in H; lra.
Qed.

(** C06 *)
Theorem C06_central : forall z t (w : val R z) (x : val R t),
  z = TDub \/ z = TSca \/ z = TTri \/ z = TCplx ->
  ceq (den _ (mul z t w x)) (den _ (mul t z x w)).
Proof. exact mul_central_types. Qed.
Print Assumptions C06_central.
Theorem C06_converse : forall m : MultiVector R,
  (forall v : Vector R, ceq (den _ (mul TMvec TVec m v)) (den _ (mul TVec TMvec v m))) ->
  exists z : ComPlex R, ceq (den TMvec m) (den TCplx z).
Proof. exact central_converse. Qed.
Print Assumptions C06_converse.
Example C06_example : (* a multivector meeting the hypothesis of the converse *)
  forall v : Vector R,
  ceq (den _ (mul TMvec TVec (mv_of_8 2 0 0 0 0 0 0 3) v))
      (den _ (mul TVec TMvec v (mv_of_8 2 0 0 0 0 0 0 3))).
Proof. intros v k; dvals; dblade k; dring. Qed.

(** C08 *)
Theorem C08_reverse_antiautomorphism : forall a b (x : val R a) (y : val R b),
  ceq (den _ (reverse _ (mul a b x y))) (den _ (mul b a (reverse b y) (reverse a x))).
Proof. exact reverse_mul. Qed.
Print Assumptions C08_reverse_antiautomorphism.
Theorem C08_dirverse_antiautomorphism : forall a b (x : val R a) (y : val R b),
  ceq (den _ (dirverse _ (mul a b x y))) (den _ (mul b a (dirverse b y) (dirverse a x))).
Proof. exact dirverse_mul. Qed.
Print Assumptions C08_dirverse_antiautomorphism.
Theorem C08_oddverse_automorphism : forall a b (x : val R a) (y : val R b),
  ceq (den _ (oddverse _ (mul a b x y))) (den _ (mul a b (oddverse a x) (oddverse b y))).
Proof. exact oddverse_mul. Qed.
Print Assumptions C08_oddverse_automorphism.
Theorem C08_on_vectors : forall v : Vector R,
  reverse TVec v = v /\ oddverse TVec v = neg TVec v /\ dirverse TVec v = neg TVec v.
Proof. exact involutions_on_vectors. Qed.
Print Assumptions C08_on_vectors.
Theorem C08_reverse_unique : forall f, is_linear f ->
  (forall a b, ceq (f (gp a b)) (gp (f b) (f a))) ->
  (forall v : Vector R, ceq (f (den TVec v)) (den TVec v)) ->
  forall t (x : val R t), ceq (den t (reverse t x)) (f (den t x)).
Proof. exact reverse_unique. Qed.
Print Assumptions C08_reverse_unique.
Theorem C08_dirverse_unique : forall f, is_linear f ->
  (forall a b, ceq (f (gp a b)) (gp (f b) (f a))) ->
  (forall v : Vector R, ceq (f (den TVec v)) (copp (den TVec v))) ->
  forall t (x : val R t), ceq (den t (dirverse t x)) (f (den t x)).
Proof. exact dirverse_unique. Qed.
Print Assumptions C08_dirverse_unique.
Theorem C08_oddverse_unique : forall f, is_linear f ->
  (forall a b, ceq (f (gp a b)) (gp (f a) (f b))) ->
  (forall v : Vector R, ceq (f (den TVec v)) (copp (den TVec v))) ->
  forall t (x : val R t), ceq (den t (oddverse t x)) (f (den t x)).
Proof. exact oddverse_unique. Qed.
Print Assumptions C08_oddverse_unique.
Example C08_example : (* maps meeting the hypotheses exist *)
  is_linear crev /\ (forall a b, ceq (crev (gp a b)) (gp (crev b) (crev a))) /\
  (forall v : Vector R, ceq (crev (den TVec v)) (den TVec v)) /\
  is_linear cdir /\ (forall v : Vector R, ceq (cdir (den TVec v)) (copp (den TVec v))) /\
  is_linear codd /\ (forall v : Vector R, ceq (codd (den TVec v)) (copp (den TVec v))).
Proof.
  refine (conj crev_linear (conj crev_gp (conj _ (conj cdir_linear (conj _ (conj codd_linear _))))));
  intros v k; dvals; dblade k; dring.
Qed.

(** C09 *)
Theorem C09_dual_is_pseudoscalar_product : forall t (x : val R t),
  ceq (den _ (dual t x)) (den _ (mul TTri t c_e123 x)) /\
  ceq (den _ (dual t x)) (den _ (mul t TTri x c_e123)) /\
  ceq (den _ (dual t x)) (gp (cbasis bE123) (den t x)).
Proof. exact dual_is_mul3. Qed.
Print Assumptions C09_dual_is_pseudoscalar_product.
Theorem C09_dual_twice : forall t (x : val R t),
  ceq (den _ (dual _ (dual t x))) (den _ (neg t x)).
Proof. exact dual_dual. Qed.
Print Assumptions C09_dual_twice.
Theorem C09_dual_types :
  dualTy TSca = TTri /\ dualTy TVec = TBiv /\ dualTy TBiv = TVec /\ dualTy TTri = TSca /\
  forall t n, (n <= 3)%nat -> has_grade (dualTy t) n = has_grade t (3 - n).
Proof. exact dual_grades. Qed.
Print Assumptions C09_dual_types.
Example C09_example : dual TVec (Vec 1 2 3) = Biv 1 2 3 /\ dual TBiv (Biv 1 2 3) = Vec (-1) (-2) (-3).
Proof. split; reflexivity. Qed.

(** C10 *)
Theorem C10_magSq_scalar_part : forall t (x : val R t),
  magSq t x = den _ (mul t t x (reverse t x)) bS /\
  magSq t x = den _ (mul t t (reverse t x) x) bS.
Proof. exact magSq_scalar_part. Qed.
Print Assumptions C10_magSq_scalar_part.
Theorem C10_magSq_sum_of_squares : forall t (x : val R t),
  magSq t x = rsum (map (fun c => c * c) (elems t x)).
Proof. exact magSq_elems. Qed.
Print Assumptions C10_magSq_sum_of_squares.
Theorem C10_magSq_positive_definite : forall t (x : val R t),
  0 <= magSq t x /\ (magSq t x = 0 <-> x = zero t).
Proof. exact magSq_posdef. Qed.
Print Assumptions C10_magSq_positive_definite.
Example C10_example : magSq TSpin (mkSpin (Sca 1) (Biv 2 3 4)) = 30 /\ zero TVec = Vec 0 0 0.
Proof. split; [dring | reflexivity]. Qed.

(** C28 *)
Theorem C28_zero : forall t u (x : val R u),
  if_exists (fun c s => ceq (den c s) (den u x)) (addTy t u) (add t u (zero t) x) /\
  if_exists (fun c s => ceq (den c s) (den u x)) (addTy u t) (add u t x (zero t)) /\
  ceq (den _ (mul t u (zero t) x)) czero /\ ceq (den _ (mul u t x (zero t))) czero.
Proof. exact zero_laws. Qed.
Print Assumptions C28_zero.
(** [one<T>()] is the identity for every type with a scalar part. *)
Theorem C28_one : forall t u (x : val R u), has_grade t 0 = true ->
  ceq (den _ (mul t u (one t) x)) (den u x) /\ ceq (den _ (mul u t x (one t))) (den u x).
Proof. exact one_mul. Qed.
Print Assumptions C28_one.
(** The template also compiles for the other types and returns something
    else there; no value of those types could be an identity. *)
Theorem C28_one_refuted : forall t, has_grade t 0 = false ->
  exists x : MultiVector R, ~ ceq (den _ (mul t TMvec (one t) x)) (den TMvec x).
Proof. exact one_not_identity. Qed.
Print Assumptions C28_one_refuted.
Theorem C28_no_identity_possible : forall t, has_grade t 0 = false ->
  ~ exists o : val R t, forall x : MultiVector R,
     ceq (den _ (mul t TMvec o x)) (den TMvec x).
Proof. exact no_identity. Qed.
Print Assumptions C28_no_identity_possible.
Example C28_example : has_grade TCplx 0 = true /\ has_grade TDplx 0 = false /\
  one TCplx = mkCplx (Sca 1) (Tri 0) /\ one TDplx = mkDplx (Vec 1 0 0) (Biv 0 0 0).
Proof. repeat split. Qed.
