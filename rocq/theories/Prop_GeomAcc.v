(** * Reflections and projections on doubles. *)

Require Import Reals ZArith.
From Flocq Require Import Core BinarySingleNaN.
Require Import Verif.Num Verif.Types Verif.OpsUni Verif.OpsMul Verif.Func Verif.SpecCl Verif.SpecFunc Verif.SpecGeom Verif.RealInst
  Verif.B64 Verif.SpecRound Verif.SpecAcc Verif.SpecGeomAcc Verif.GeomAcc Verif.GeomParts.
Local Open Scope R_scope.

(** C102. For vectors of magnitude between 2^-200 and 2^200, the double
    results of the reflection [-(n * v * inverse(n))] and of the two parts of
    [v] along and across a vector [n] or a plane [B] are finite and within
    [72 u |v|] of the mirror image and of the parts that geometry defines. *)
Theorem C102_reflection : forall n v : Vector f64, sized TVec n -> sized TVec v ->
  let rn := mapv (fun v : f64 => B2R v) TVec n in let rv := mapv (fun v : f64 => B2R v) TVec v in
  let r := neg TImsp (mul TSpin TVec (mul TVec TVec n v) (inverse_Vec n)) in
  all_finite TImsp r /\ forall w, mirrored rn rv w -> cnorm (csub (exactly TImsp r) (den TVec w)) <= 72 * unit_roundoff * cnorm (exactly TVec v).
Proof. exact reflection_accurate. Qed.
Print Assumptions C102_reflection.

Theorem C102_along_vector : forall n v : Vector f64, sized TVec n -> sized TVec v ->
  let rn := mapv (fun v : f64 => B2R v) TVec n in let rv := mapv (fun v : f64 => B2R v) TVec v in
  let p := mul TSca TVec (spinSca (mul TVec TVec v n)) (inverse_Vec n) in
  let r := mul TBiv TVec (spinBiv (mul TVec TVec v n)) (inverse_Vec n) in
  all_finite TVec p /\ all_finite TImsp r /\ forall p0 r0, split_along rn rv p0 r0 ->
    cnorm (csub (exactly TVec p) (den TVec p0)) <= 72 * unit_roundoff * cnorm (exactly TVec v) /\
    cnorm (csub (exactly TImsp r) (den TVec r0)) <= 72 * unit_roundoff * cnorm (exactly TVec v).
Proof. exact projection_accurate. Qed.
Print Assumptions C102_along_vector.

Theorem C102_on_plane : forall (B : BiVector f64) (v : Vector f64), sized TBiv B -> sized TVec v ->
  let rB := mapv (fun v : f64 => B2R v) TBiv B in let rv := mapv (fun v : f64 => B2R v) TVec v in
  let p := mul TVec TBiv (imspVec (mul TVec TBiv v B)) (inverse_Biv B) in
  let r := mul TTri TBiv (imspTri (mul TVec TBiv v B)) (inverse_Biv B) in
  all_finite TImsp p /\ all_finite TVec r /\ forall r0 p0, split_along (axis rB) rv r0 p0 ->
    cnorm (csub (exactly TImsp p) (den TVec p0)) <= 72 * unit_roundoff * cnorm (exactly TVec v) /\
    cnorm (csub (exactly TVec r) (den TVec r0)) <= 72 * unit_roundoff * cnorm (exactly TVec v).
Proof. exact projection_plane_accurate. Qed.
Print Assumptions C102_on_plane.

(** The exact values of the computed parts: the part across [n] is orthogonal
    to [n] up to [72 u |v||n|], the part along [n] is parallel to it up to the
    same bound, and they add up to [v] within [144 u |v|]. *)
Theorem C102_orthogonal : forall n v : Vector f64, sized TVec n -> sized TVec v ->
  let rn := mapv (fun v : f64 => B2R v) TVec n in
  let p := mapv (fun v : f64 => B2R v) TVec (mul TSca TVec (spinSca (mul TVec TVec v n)) (inverse_Vec n)) in
  let r := mapv (fun v : f64 => B2R v) TVec (imspVec (mul TBiv TVec (spinBiv (mul TVec TVec v n)) (inverse_Vec n))) in
  Rabs (dot r rn) <= 72 * unit_roundoff * (cnorm (exactly TVec v) * cnorm (exactly TVec n)) /\
  cnorm (den TVec (cross p rn)) <= 72 * unit_roundoff * (cnorm (exactly TVec v) * cnorm (exactly TVec n)) /\
  cnorm (csub (cadd (den TVec p) (den TVec r)) (exactly TVec v)) <= 144 * unit_roundoff * cnorm (exactly TVec v).
Proof. exact parts_orthogonal. Qed.
Print Assumptions C102_orthogonal.

Theorem C102_orthogonal_plane : forall (B : BiVector f64) (v : Vector f64), sized TBiv B -> sized TVec v ->
  let n := axis (mapv (fun v : f64 => B2R v) TBiv B) in
  let p := mapv (fun v : f64 => B2R v) TVec (imspVec (mul TVec TBiv (imspVec (mul TVec TBiv v B)) (inverse_Biv B))) in
  let r := mapv (fun v : f64 => B2R v) TVec (mul TTri TBiv (imspTri (mul TVec TBiv v B)) (inverse_Biv B)) in
  Rabs (dot p n) <= 72 * unit_roundoff * (cnorm (exactly TVec v) * cnorm (exactly TBiv B)) /\
  cnorm (den TVec (cross r n)) <= 72 * unit_roundoff * (cnorm (exactly TVec v) * cnorm (exactly TBiv B)) /\
  cnorm (csub (cadd (den TVec p) (den TVec r)) (exactly TVec v)) <= 144 * unit_roundoff * cnorm (exactly TVec v).
Proof. exact parts_orthogonal_plane. Qed.
Print Assumptions C102_orthogonal_plane.

(** Projecting the computed projection again moves it by at most [145 u |v|]. *)
Theorem C102_projected_twice : forall n v : Vector f64, sized TVec n -> sized TVec v ->
  let proj := fun x : Vector f64 => mul TSca TVec (spinSca (mul TVec TVec x n)) (inverse_Vec n) : Vector f64 in
  sized TVec (proj v) ->
  cnorm (csub (exactly TVec (proj (proj v))) (exactly TVec (proj v))) <= 145 * unit_roundoff * cnorm (exactly TVec v).
Proof. exact projected_twice. Qed.
Print Assumptions C102_projected_twice.

(** The normal [3 e1 + 4 e3] and the plane it is normal to, with [25 e1]. *)
Example C102_example : let z := f64_lit 0 0 in let n := Vec (f64_lit 3 0) z (f64_lit 4 0) : Vector f64 in let B := Biv (f64_lit 3 0) z (f64_lit 4 0) : BiVector f64 in
  let v := Vec (f64_lit 25 0) z z : Vector f64 in
  let rn := mapv (fun v : f64 => B2R v) TVec n in let rv := mapv (fun v : f64 => B2R v) TVec v in
  sized TVec n /\ sized TBiv B /\ sized TVec v /\ axis (mapv (fun v : f64 => B2R v) TBiv B) = rn /\
  mirrored rn rv (Vec 7 0 (-24)) /\ split_along rn rv (Vec 9 0 12) (Vec 16 0 (-12)).
Proof. exact example_geom. Qed.
Example C102_example_again : let z := f64_lit 0 0 in let n := Vec (f64_lit 3 0) z (f64_lit 4 0) : Vector f64 in let v := Vec (f64_lit 25 0) z z : Vector f64 in
  sized TVec n /\ sized TVec v /\ sized TVec (mul TSca TVec (spinSca (mul TVec TVec v n)) (inverse_Vec n)).
Proof. exact example_again. Qed.
