(** * C90: results do not depend on the choice of axes. *)

Require Import Reals ZArith List Lra Lia.
Require Import Verif.Num Verif.Types Verif.OpsUni Verif.OpsAdd Verif.OpsSub Verif.OpsMul Verif.Const Verif.Validity Verif.Compare Verif.Func Verif.SpecCl
  Verif.RealInst Verif.SpecFunc Verif.SpecProg Verif.SpecAxes Verif.AxesFacts Verif.AxesThm Verif.AxesEx.
Local Open Scope R_scope.

(** C90: every value has exactly one description in the turned frame. *)
Theorem C90_one_description : forall s, magSq TSpin s = 1 -> forall t (v : val R t), exists v', seen s t v v' /\ forall w, seen s t v w -> w = v'.
Proof. exact seen_exists. Qed.
Print Assumptions C90_one_description.
(** Expressions of any size: computed from the descriptions in the turned frame,
    the result is the description of the result. *)
Theorem C90_expressions : forall s, magSq TSpin s = 1 -> forall p p' : prog R, alike (seen s) p p' -> alike_result (seen s) (eval p) (eval p').
Proof. exact seen_eval. Qed.
Print Assumptions C90_expressions.
(** Magnitudes and amplitudes are the same number in both frames. *)
Theorem C90_sizes : forall s, magSq TSpin s = 1 -> forall t (v v' : val R t), seen s t v v' ->
  magnitude t (exact t v') = magnitude t (exact t v) /\
  (forall f, (ampSq t : option (val xreal t -> _)) = Some f -> exists z, f (exact t v) = exact TCplx z /\ f (exact t v') = exact TCplx z) /\
  (forall f, (amplitude t : option (val xreal t -> _)) = Some f -> f (exact t v') = f (exact t v)).
Proof.
  exact (fun s Hs t v v' H => conj (magnitude_seen s Hs t v v' H)
    (conj (fun f E => ampSq_seen s Hs t f v v' E H) (fun f E => amplitude_seen s Hs t f v v' E H))).
Qed.
Print Assumptions C90_sizes.
(** Directions and inverses. *)
Theorem C90_directions : forall s, magSq TSpin s = 1 -> forall t (v v' : val R t), seen s t v v' -> seen_result s t (direction t (exact t v)) (direction t (exact t v')).
Proof. exact direction_seen. Qed.
Print Assumptions C90_directions.
Theorem C90_inverses : forall s, magSq TSpin s = 1 ->
  (forall t inv (v v' : val R t), blade_inverse t = Some inv -> seen s t v v' -> seen_result s t (inv (exact t v)) (inv (exact t v'))) /\
  (forall z z' : ComPlex R, seen s TCplx z z' -> seen_result s TCplx (inverse_Cplx (exact TCplx z)) (inverse_Cplx (exact TCplx z'))) /\
  (forall m m' : MultiVector R, seen s TMvec m m' -> seen_result s TMvec (inverse_Mvec (exact TMvec m)) (inverse_Mvec (exact TMvec m'))).
Proof. exact (fun s Hs => conj (blade_inverse_seen s Hs) (conj (inverse_Cplx_seen s Hs) (inverse_Mvec_seen s Hs))). Qed.
Print Assumptions C90_inverses.
(** Exponentials, also where exp(MultiVector) is wrong (C19): it is wrong by the
    same multivector in every frame. *)
Theorem C90_exponentials : forall s, magSq TSpin s = 1 ->
  (forall b b', seen s TBiv b b' -> exists r r', exp_Biv (exact TBiv b) = exact TSpin r /\ exp_Biv (exact TBiv b') = exact TSpin r' /\ seen s TSpin r r') /\
  (forall v v', seen s TSpin v v' -> exists r r', exp_Spin (exact TSpin v) = exact TSpin r /\ exp_Spin (exact TSpin v') = exact TSpin r' /\ seen s TSpin r r') /\
  (forall m m', seen s TMvec m m' -> exists r r', exp_Mvec (exact TMvec m) = exact TMvec r /\ exp_Mvec (exact TMvec m') = exact TMvec r' /\ seen s TMvec r r').
Proof. exact (fun s Hs => conj (exp_Biv_seen s Hs) (conj (exp_Spin_seen s Hs) (exp_Mvec_seen s Hs))). Qed.
Print Assumptions C90_exponentials.
(** Logarithm and square root, the plane for the branch turned as well. *)
Theorem C90_log_root : forall s, magSq TSpin s = 1 -> forall V V' ref ref', seen s TSpin V V' -> seen s TBiv ref ref' ->
  seen_result s TSpin (logG2 (exact TSpin V) (exact TBiv ref)) (logG2 (exact TSpin V') (exact TBiv ref')) /\
  seen_result s TSpin (sqrtG2 (exact TSpin V) (exact TBiv ref)) (sqrtG2 (exact TSpin V') (exact TBiv ref')).
Proof. exact (fun s Hs V V' ref ref' H K => conj (logG2_seen s Hs V V' ref ref' H K) (sqrtG2_seen s Hs V V' ref ref' H K)). Qed.
Print Assumptions C90_log_root.
(** The comparison, when the parts of the reference are not tiny. *)
Theorem C90_nearlyEquals : forall s, magSq TSpin s = 1 -> forall t (g g' r r' : val R t) tol, seen s t g g' -> seen s t r r' -> long_parts t r ->
  nearlyEquals t (exact t g') (exact t r') tol = nearlyEquals t (exact t g) (exact t r) tol.
Proof. exact near_seen. Qed.
Print Assumptions C90_nearlyEquals.
(** With the default plane the logarithm depends on the frame. *)
Theorem C90_default_plane_refuted : exists (s V V' : Spinor R), magSq TSpin s = 1 /\ seen s TSpin V V' /\
  ~ seen_result s TSpin (logG2 (exact TSpin V) (exact TBiv c_e23)) (logG2 (exact TSpin V') (exact TBiv c_e23)).
Proof. exact default_plane. Qed.
Print Assumptions C90_default_plane_refuted.
(** With a tiny reference the comparison depends on the frame. *)
Theorem C90_near_zero_refuted : forall tol, 0 < tol -> exists (s : Spinor R) (g g' r r' : Vector R), magSq TSpin s = 1 /\ seen s TVec g g' /\ seen s TVec r r' /\
  nearlyEquals TVec (exact TVec g) (exact TVec r) (Some tol) = true /\ nearlyEquals TVec (exact TVec g') (exact TVec r') (Some tol) = false.
Proof. exact near_zero. Qed.
Print Assumptions C90_near_zero_refuted.
(** A turn by 3/5 + 4/5 e12 meets the hypotheses: e1 becomes (-7/25, -24/25, 0),
    and an expression over it. *)
Example C90_example : magSq TSpin turn35 = 1 /\ seen turn35 TVec c_e1 (Vec (-7 / 25) (-24 / 25) 0) /\ (c_e1 : Vector R) <> Vec (-7 / 25) (-24 / 25) 0 /\
  long_parts TVec (c_e1 : Vector R) /\
  alike (seen turn35) (PMul (PLeaf TVec (c_e1 : Vector R)) (PUni URev (PLeaf TVec (c_e1 : Vector R))))
    (PMul (PLeaf TVec (Vec (-7 / 25) (-24 / 25) 0)) (PUni URev (PLeaf TVec (Vec (-7 / 25) (-24 / 25) 0)))).
Proof. exact frame_example. Qed.
