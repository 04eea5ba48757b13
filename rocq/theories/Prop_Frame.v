(** * C89: the README's example, into the frame of a body. *)

Require Import Reals ZArith List Lra Lia.
From Flocq Require Import Core BinarySingleNaN.
Require Import Verif.Num Verif.Types Verif.OpsUni Verif.OpsAdd Verif.OpsSub Verif.OpsMul Verif.Const Verif.Func Verif.SpecCl Verif.SpecFunc Verif.SpecGeom
  Verif.RealInst Verif.SpecExp Verif.B64 Verif.SpecRound Verif.SpecValid Verif.SpecAcc Verif.ExpAcc Verif.SpecLoop Verif.SpecFrame Verif.FrameThm Verif.FrameReal Verif.FrameEx.
Import ListNotations.
Local Open Scope R_scope.

(** C89: with a unit spinor, the expression of the example is a vector, keeps
    distances and orientation, and is undone by the reverse formula. *)
Theorem C89_rigid : forall (s : Spinor R) (l : Vector R), magSq TSpin s = 1 -> forall x y z w : Vector R,
  let place p := imspVec (into_frame s l p) in
  imspTri (into_frame s l x) = Tri 0 /\
  distance (place x) (place y) = distance x y /\
  det3 (sub TVec TVec (place x) (place w)) (sub TVec TVec (place y) (place w)) (sub TVec TVec (place z) (place w)) =
    det3 (sub TVec TVec x w) (sub TVec TVec y w) (sub TVec TVec z w) /\
  out_of_frame s l (place x) = x.
Proof. exact rigid. Qed.
Print Assumptions C89_rigid.
(** The moment of a force about the body's location, turned, is the moment of
    the turned force at the transformed position; it has no scalar part. *)
Theorem C89_moment : forall (s : Spinor R) (l : Vector R), magSq TSpin s = 1 -> forall x f : Vector R,
  let M := spinBiv (mul TVec TVec (sub TVec TVec x l) f) in
  turned s TBiv M = mkSpin (Sca 0) (spinBiv (mul TVec TVec (imspVec (into_frame s l x)) (imspVec (turned s TVec f)))).
Proof. exact moment. Qed.
Print Assumptions C89_moment.
(** The attitude in exact arithmetic: a unit spinor, the product of the
    exponentials of half the angles. *)
Theorem C89_attitude : forall roll elev azim : BiVector R,
  nontiny (scale TBiv (/ 2) roll) -> nontiny (scale TBiv (/ 2) elev) -> nontiny (scale TBiv (/ 2) azim) ->
  exists (s : Spinor R) Er Ee Ea, attitude_of (exact TBiv roll) (exact TBiv elev) (exact TBiv azim) = exact TSpin s /\ magSq TSpin s = 1 /\
    is_cexp (cscale (/ 2) (den TBiv roll)) Er /\ is_cexp (cscale (/ 2) (den TBiv elev)) Ee /\ is_cexp (cscale (/ 2) (den TBiv azim)) Ea /\
    ceq (den TSpin s) (gp (gp Er Ee) Ea).
Proof. exact attitude_exact. Qed.
Print Assumptions C89_attitude.
(** The one angle of an attitude, in exact arithmetic: exp(.5*angle) gives the
    attitude back, and the angle is at most a full turn. *)
Theorem C89_angle : forall s : Spinor R, magSq TSpin s = 1 -> Rabs (sca_0 (spinSca s)) <= 1 - deps ->
  exists a : BiVector R, angle3D (exact TSpin s) = exact TBiv a /\ half_angle_rotor (exact TBiv a) = exact TSpin s /\ cnorm (den TBiv a) <= 2 * PI.
Proof. exact angle_exact. Qed.
Print Assumptions C89_angle.
(** On doubles: attitude, positions, forces and moments of the example. *)
Theorem C89_readme : forall (L : Libm f64) eps, trig_within eps L -> eps <= / 32 ->
  forall (roll elev azim : BiVector f64) Er Ee Ea, frame_angle roll -> frame_angle elev -> frame_angle azim ->
  is_cexp (cscale (/ 2) (exactly TBiv roll)) Er -> is_cexp (cscale (/ 2) (exactly TBiv elev)) Ee -> is_cexp (cscale (/ 2) (exactly TBiv azim)) Ea ->
  let s := attitude_of roll elev azim in
  let E := gp (gp Er Ee) Ea in
  let d := frame_error eps roll + frame_error eps elev + frame_error eps azim in
  (all_finite TSpin s /\ cnorm E = 1 /\ cnorm (csub (exactly TSpin s) E) <= 3 / 2 * d) /\
  (forall loc pos : Vector f64, within 1012 TVec loc -> within 1012 TVec pos ->
    let W := csub (exactly TVec pos) (exactly TVec loc) in
    all_finite TImsp (into_frame s loc pos) /\
    cnorm (csub (exactly TImsp (into_frame s loc pos)) (gp (gp E W) (crev E))) <= (122 * unit_roundoff + 4 * d) * cnorm W + 68 * underflow_unit) /\
  (forall t (v : val f64 t), within 1013 t v ->
    all_finite _ (turned s t v) /\
    cnorm (csub (exactly _ (turned s t v)) (gp (gp E (exactly t v)) (crev E))) <=
      (120 * unit_roundoff + 4 * d) * cnorm (exactly t v) + 68 * underflow_unit).
Proof. exact readme_accurate. Qed.
Print Assumptions C89_readme.
(** Any number of angles; into the frame and out again. *)
Theorem C89_round_trip : forall (L : Libm f64) eps, trig_within eps L -> eps <= / 32 -> forall (x : BiVector f64 * clf) l,
  Forall (fun y => frame_angle (fst y) /\ half_exp y) (x :: l) ->
  let d := total (fun y => frame_error eps (fst y)) (x :: l) in d <= / 3 ->
  let s := computed_attitude (fst x) (map fst l) in
  forall loc pos : Vector f64, within 1000 TVec loc -> within 1000 TVec pos ->
  let W := csub (exactly TVec pos) (exactly TVec loc) in
  let r := out_of_frame s loc (imspVec (into_frame s loc pos)) in
  all_finite TVec r /\
  cnorm (csub (exactly TVec r) (exactly TVec pos)) <=
    (450 * unit_roundoff + 14 * d) * cnorm W + unit_roundoff * cnorm (exactly TVec pos) + 250 * underflow_unit.
Proof. exact round_accurate. Qed.
Print Assumptions C89_round_trip.
Theorem C89_sequence : forall (L : Libm f64) eps, trig_within eps L -> eps <= / 32 -> forall (x : BiVector f64 * clf) l,
  Forall (fun y => frame_angle (fst y) /\ half_exp y) (x :: l) ->
  let d := total (fun y => frame_error eps (fst y)) (x :: l) in d <= / 3 ->
  let s := computed_attitude (fst x) (map fst l) in
  let E := fold_left gp (map snd l) (snd x) in
  all_finite TSpin s /\ cnorm E = 1 /\ cnorm (csub (exactly TSpin s) E) <= 3 / 2 * d.
Proof. exact attitude_accurate. Qed.
Print Assumptions C89_sequence.
(** The one angle of the attitude on doubles: the true exponential of half of
    it is near the product of the true exponentials. *)
Theorem C89_angle_computed : forall (L : Libm f64) eps, trig_within eps L -> eps <= / 32 -> forall (x : BiVector f64 * clf) l,
  Forall (fun y => frame_angle (fst y) /\ half_exp y) (x :: l) ->
  let d := total (fun y => frame_error eps (fst y)) (x :: l) in d <= / 3 ->
  let s := computed_attitude (fst x) (map fst l) in
  let E := fold_left gp (map snd l) (snd x) in
  forall G, log_within eps L -> atan2_within eps L -> eps <= / 8192 ->
  valid_number (sca_0 (spinSca s)) -> valid_number (biv_0 (spinBiv s)) ->
  is_cexp (cscale (/ 2) (exactly TBiv (angle3D s))) G ->
  all_finite TBiv (angle3D s) /\
  cnorm (csub G E) <= 12 * eps + 3 * d + bpow radix2 (-21) /\
  (bpow radix2 (-22) <= cnorm (exactly TBiv (spinBiv s)) -> cnorm (csub G E) <= 12 * eps + 3 * d + 256 * unit_roundoff).
Proof. exact angle3D_accurate. Qed.
Print Assumptions C89_angle_computed.

Example C89_example_real : let s := mkSpin (Sca (3 / 5)) (Biv 0 (4 / 5) 0) : Spinor R in
  magSq TSpin s = 1 /\ Rabs (sca_0 (spinSca s)) <= 1 - deps /\ nontiny (scale TBiv (/ 2) (Biv 0 1 0 : BiVector R)) /\
  imspVec (into_frame s (Vec 100 200 300) (Vec 10 20 30)) <> Vec 10 20 30.
Proof.
  intros s. split; [unfold s; cbv -[Rplus Rminus Rmult Ropp Rdiv Rinv R R0 R1 IZR]; field|].
  assert (D : deps <= / 1024) by (unfold deps; change (/ 1024) with (bpow radix2 (-10)); apply bpow_le; lia).
  split; [cbn; rewrite Rabs_pos_eq; lra|]. split.
  - right. replace (cnorm _) with (/ 2).
    + unfold tiny. change (/ 2) with (bpow radix2 (-1)). apply bpow_lt. lia.
    + refine (eq_trans (eq_sym (sqrt_square (/ 2) _)) _); [lra|]. unfold cnorm. f_equal. cbv -[Rplus Rminus Rmult Ropp Rdiv Rinv R R0 R1 IZR]. field.
  - intros K. apply (f_equal vec_1) in K. revert K. unfold s. cbv -[Rplus Rminus Rmult Ropp Rdiv Rinv R R0 R1 IZR]. intros K. field_simplify in K. lra.
Qed.
(** A library, three angles of doubles and a location meeting the hypotheses,
    with the values the angle needs to be valid. *)
Example C89_example : trig_within (bpow radix2 (-50)) rounded_lib /\ log_within (bpow radix2 (-50)) rounded_lib /\ atan2_within (bpow radix2 (-50)) rounded_lib /\
  bpow radix2 (-50) <= / 8192 /\ bpow radix2 (-50) <= / 32 /\
  (exists Er Ee Ea, let x := (roll_case, Er) in let l := [(elev_case, Ee); (azim_case, Ea)] in
    Forall (fun y => frame_angle (fst y) /\ half_exp y) (x :: l) /\
    total (fun y => frame_error (bpow radix2 (-50)) (fst y)) (x :: l) <= / 3) /\
  within 1000 TVec (Vec (f64_lit 100 0) (f64_lit 200 0) (f64_lit 300 0)).
Proof. exact frame_case. Qed.
Example C89_example_valid : let s := @attitude_of f64 _ rounded_lib roll_case elev_case azim_case in
  valid_number (sca_0 (spinSca s)) /\ valid_number (biv_0 (spinBiv s)) /\ bpow radix2 (-22) <= cnorm (exactly TBiv (spinBiv s)).
Proof. exact case_valid. Qed.
