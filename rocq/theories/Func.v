(** * Model of include/g3func.hpp : magnitudes, amplitudes, inverses,
      exponentials, logarithm and square root. *)

Require Import ZArith Bool List.
Require Import Verif.Num Verif.Types Verif.Priv Verif.Const Verif.Validity
  Verif.OpsUni Verif.OpsAdd Verif.OpsSub Verif.OpsMul.
Import ListNotations.

Section MagSq.
Context {F : Type} `{Ring0 F}.
Local Open Scope num_scope.

(** [sq] g3func.hpp:106-114 and [cube] g3func.hpp:121-129, at the types closed
    under multiplication. *)
Definition sq_Dub (x : F) : F := x * x.
(** g3func.hpp:106-114 *)
Definition sq_Sca (x : Scalar F) : Scalar F := mul_Sca_Sca x x.
(** g3func.hpp:106-114 *)
Definition sq_Spin (x : Spinor F) : Spinor F := mul_Spin_Spin x x.
(** g3func.hpp:106-114 *)
Definition sq_Cplx (x : ComPlex F) : ComPlex F := mul_Cplx_Cplx x x.
(** g3func.hpp:106-114 *)
Definition sq_Mvec (x : MultiVector F) : MultiVector F := mul_Mvec_Mvec x x.
(** g3func.hpp:121-129 *)
Definition cube_Dub (x : F) : F := x * x * x.
(** g3func.hpp:121-129 *)
Definition cube_Sca (x : Scalar F) : Scalar F := mul_Sca_Sca (mul_Sca_Sca x x) x.
(** g3func.hpp:121-129 *)
Definition cube_Spin (x : Spinor F) : Spinor F := mul_Spin_Spin (mul_Spin_Spin x x) x.
(** g3func.hpp:121-129 *)
Definition cube_Cplx (x : ComPlex F) : ComPlex F := mul_Cplx_Cplx (mul_Cplx_Cplx x x) x.
(** g3func.hpp:121-129 *)
Definition cube_Mvec (x : MultiVector F) : MultiVector F :=
  mul_Mvec_Mvec (mul_Mvec_Mvec x x) x.

(** ** magSq *)
(** g3func.hpp:137-144 *)
Definition magSq_Dub (dub : F) : F := sq_Dub dub.
(** g3func.hpp:148-159, the blade template at its four instances. *)
Definition magSq_Sca (b : Scalar F) : F := prodComm1 (scaData b) (scaData b).
(** g3func.hpp:148-159 *)
Definition magSq_Vec (b : Vector F) : F := prodComm3 (vecData b) (vecData b).
(** g3func.hpp:148-159 *)
Definition magSq_Biv (b : BiVector F) : F := prodComm3 (bivData b) (bivData b).
(** g3func.hpp:148-159 *)
Definition magSq_Tri (b : TriVector F) : F := prodComm1 (triData b) (triData b).
(** g3func.hpp:162-171 *)
Definition magSq_Spin (spin : Spinor F) : F :=
  let scaSq := sq_Dub (sca_0 (spinSca spin)) in
  let bivSq := magSq_Biv (spinBiv spin) in
  scaSq + bivSq.
(** g3func.hpp:174-183 *)
Definition magSq_Imsp (imsp : ImSpin F) : F :=
  let vecSq := magSq_Vec (imspVec imsp) in
  let triSq := sq_Dub (tri_0 (imspTri imsp)) in
  vecSq + triSq.
(** g3func.hpp:186-195 *)
Definition magSq_Cplx (cplx : ComPlex F) : F :=
  let sca := cplxSca cplx in
  let tri := cplxTri cplx in
  magSq_Sca sca + magSq_Tri tri.
(** g3func.hpp:198-207 *)
Definition magSq_Dplx (dplx : DirPlex F) : F :=
  let vec := dplxVec dplx in
  let biv := dplxBiv dplx in
  magSq_Vec vec + magSq_Biv biv.
(** g3func.hpp:210-221 *)
Definition magSq_Mvec (mv : MultiVector F) : F :=
  let scaSq := sq_Dub (sca_0 (mvSca mv)) in
  let vecSq := magSq_Vec (mvVec mv) in
  let bivSq := magSq_Biv (mvBiv mv) in
  let triSq := sq_Dub (tri_0 (mvTri mv)) in
  scaSq + vecSq + bivSq + triSq.

(** The overload set, g3func.hpp:137-221. *)
Definition magSq (t : ty) : val F t -> F :=
  match t with
  | TDub => magSq_Dub
  | TSca => magSq_Sca
  | TVec => magSq_Vec
  | TBiv => magSq_Biv
  | TTri => magSq_Tri
  | TSpin => magSq_Spin
  | TImsp => magSq_Imsp
  | TCplx => magSq_Cplx
  | TDplx => magSq_Dplx
  | TMvec => magSq_Mvec
  end.

(** [double * Type], g3opsMul_double.hpp:70-257, as an operation within [Type]. *)
Definition scale (t : ty) : F -> val F t -> val F t :=
  match t return F -> val F t -> val F t with
  | TDub => nmul
  | TSca => mul_Dub_Sca
  | TVec => mul_Dub_Vec
  | TBiv => mul_Dub_Biv
  | TTri => mul_Dub_Tri
  | TSpin => mul_Dub_Spin
  | TImsp => mul_Dub_Imsp
  | TCplx => mul_Dub_Cplx
  | TDplx => mul_Dub_Dplx
  | TMvec => mul_Dub_Mvec
  end.

End MagSq.

Section Magnitude.
Context {F : Type} `{Arith F}.
Local Open Scope num_scope.

(** g3func.hpp:224-232 *)
Definition magnitude (t : ty) (element : val F t) : F := nsqrt (magSq t element).

(** g3func.hpp:235-256 *)
Definition pairMagDirFrom (t : ty) (blade : val F t) : F * val F t :=
  let mag := magnitude t blade in
  let small := lim_denorm_min in
  (mag, if nltb small mag then scale t (1 / mag) blade else null t).

(** g3func.hpp:434-445 *)
Definition direction (t : ty) (blade : val F t) : val F t :=
  snd (pairMagDirFrom t blade).

(** ** ampSq *)
(** g3func.hpp:263-270 *)
Definition ampSq_Sca (sca : Scalar F) : ComPlex F := mkCplx (Sca (magSq_Sca sca)) zero_Tri.
(** g3func.hpp:273-280 *)
Definition ampSq_Vec (vec : Vector F) : ComPlex F := mkCplx (Sca (- magSq_Vec vec)) zero_Tri.
(** g3func.hpp:283-291 *)
Definition ampSq_Biv (biv : BiVector F) : ComPlex F := mkCplx (Sca (magSq_Biv biv)) zero_Tri.
(** g3func.hpp:294-302 *)
Definition ampSq_Tri (tri : TriVector F) : ComPlex F := mkCplx (Sca (- magSq_Tri tri)) zero_Tri.
(** g3func.hpp:305-317 *)
Definition ampSq_Spin (spin : Spinor F) : ComPlex F :=
  let sca := spinSca spin in
  let biv := spinBiv spin in
  let scaPart := magSq_Sca sca + magSq_Biv biv in
  mkCplx (Sca scaPart) zero_Tri.
(** g3func.hpp:320-332 *)
Definition ampSq_Imsp (imsp : ImSpin F) : ComPlex F :=
  let vec := imspVec imsp in
  let tri := imspTri imsp in
  let scaPart := - (magSq_Vec vec + magSq_Tri tri) in
  mkCplx (Sca scaPart) zero_Tri.
(** g3func.hpp:335-348 *)
Definition ampSq_Cplx (cplx : ComPlex F) : ComPlex F :=
  let dubSca := sca_0 (cplxSca cplx) in
  let dubTri := tri_0 (cplxTri cplx) in
  mkCplx (Sca (sq_Dub dubSca - sq_Dub dubTri)) (Tri (nlit 2 0 * dubSca * dubTri)).
(** g3func.hpp:351-371 *)
Definition ampSq_Dplx (dplx : DirPlex F) : ComPlex F :=
  let vec := dplxVec dplx in
  let biv := dplxBiv dplx in
  let scaPart := magSq_Vec vec - magSq_Biv biv in
  let triVecBiv := prodComm3 (vecData vec) (bivData biv) in
  let triPart := nlit 2 0 * triVecBiv in
  mkCplx (Sca (- scaPart)) (Tri (- triPart)).
(** g3func.hpp:374-413 *)
Definition ampSq_Mvec (mv : MultiVector F) : ComPlex F :=
  let sca := mvSca mv in
  let vec := mvVec mv in
  let biv := mvBiv mv in
  let tri := mvTri mv in
  let sqSca := magSq_Sca sca in
  let sqVec := magSq_Vec vec in
  let sqBiv := - magSq_Biv biv in
  let sqTri := - magSq_Tri tri in
  let scaPart := sqSca - sqVec - sqBiv + sqTri in
  let triScaTri := sca_0 sca * tri_0 tri in
  let triVecBiv := prodComm3 (vecData vec) (bivData biv) in
  let triPart := nlit 2 0 * (triScaTri - triVecBiv) in
  mkCplx (Sca scaPart) (Tri triPart).

(** The overload set; there is no [ampSq(double)] ([None]). *)
(** g3func.hpp:263-409 *)
Definition ampSq (t : ty) : option (val F t -> ComPlex F) :=
  match t with
  | TDub => None
  | TSca => Some ampSq_Sca
  | TVec => Some ampSq_Vec
  | TBiv => Some ampSq_Biv
  | TTri => Some ampSq_Tri
  | TSpin => Some ampSq_Spin
  | TImsp => Some ampSq_Imsp
  | TCplx => Some ampSq_Cplx
  | TDplx => Some ampSq_Dplx
  | TMvec => Some ampSq_Mvec
  end.

(** ** inverse of blades, g3func.hpp:452-464 *)
Definition inverse_Sca (x : Scalar F) : Scalar F :=
  let mag2 := magSq_Sca x in mul_Dub_Sca (1 / mag2) (reverse_Sca x).
(** g3func.hpp:452-464 *)
Definition inverse_Vec (x : Vector F) : Vector F :=
  let mag2 := magSq_Vec x in mul_Dub_Vec (1 / mag2) (reverse_Vec x).
(** g3func.hpp:452-464 *)
Definition inverse_Biv (x : BiVector F) : BiVector F :=
  let mag2 := magSq_Biv x in mul_Dub_Biv (1 / mag2) (reverse_Biv x).
(** g3func.hpp:452-464 *)
Definition inverse_Tri (x : TriVector F) : TriVector F :=
  let mag2 := magSq_Tri x in mul_Dub_Tri (1 / mag2) (reverse_Tri x).
End Magnitude.

Section WithLibm.
Context {F : Type} `{Arith F} `{Libm F}.
Local Open Scope num_scope.

(** g3func.hpp:416-427 *)
Definition amplitude_of (cSq : ComPlex F) : ComPlex F :=
  let zSq := (sca_0 (cplxSca cSq), tri_0 (cplxTri cSq)) in
  cplx_from (mcsqrt zSq).
(** g3func.hpp:416-427 *)
Definition amplitude (t : ty) : option (val F t -> ComPlex F) :=
  option_map (fun f item => amplitude_of (f item)) (ampSq t).

(** [std::conj] *)
(** called in g3func.hpp:483-484 *)
Definition std_conj (z : F * F) : F * F := (fst z, - snd z).

(** g3func.hpp:467-493 *)
Definition inverse_Cplx (cplx : ComPlex F) : ComPlex F :=
  let dubSca := sca_0 (cplxSca cplx) in
  let dubTri := tri_0 (cplxTri cplx) in
  let zFwd := (dubSca, dubTri) in
  let zConj := std_conj zFwd in
  let zAmpSq := mcmul zFwd (std_conj zFwd) in
  let tolSq := lim_min in
  if nltb tolSq (mcabs zAmpSq) then
    let zInvAmpSq := mcdiv (1, 0) zAmpSq in
    let zInv := mcmul zConj zInvAmpSq in
    mkCplx (Sca (fst zInv)) (Tri (snd zInv))
  else null_Cplx.

(** g3func.hpp:497-513 *)
Definition inverse_Mvec (mv : MultiVector F) : MultiVector F :=
  let amp2 := ampSq_Mvec mv in
  let invAmp := inverse_Cplx amp2 in
  let mvDv := dirverse_Mvec mv in
  add_Mvec_Mvec (mul_Sca_Mvec (cplxSca invAmp) mvDv) (mul_Tri_Mvec (cplxTri invAmp) mvDv).

(** ** Exponentials *)
(** g3func.hpp:535-556 *)
Definition exp_Biv (spinAngle : BiVector F) : Spinor F :=
  if isValid_Biv spinAngle then
    let magdir := pairMagDirFrom TBiv spinAngle in
    let mag := fst magdir in
    let dir := snd magdir in
    if isValid_Biv dir then
      mkSpin (Sca (mcos mag)) (mul_Dub_Biv (msin mag) dir)
    else mkSpin (Sca 1) zero_Biv
  else null_Spin.

(** g3func.hpp:559-566 *)
Definition exp_Spin (someItem : Spinor F) : Spinor F :=
  mul_Dub_Spin (mexp (sca_0 (spinSca someItem))) (exp_Biv (spinBiv someItem)).

(** [priv::sync], g3func.hpp:572-595.  The literal 1.e-4 is
    7378697629483821 * 2^-66. *)
Definition sync (angle : F) : F :=
  if nltb angle (nlit 7378697629483821 (-66)) then
    sq_Dub (sq_Dub angle) / nlit 120 0 - sq_Dub angle / nlit 6 0 + 1
  else msin angle / angle.

(** Lines written to [std::cout]: the label and the number printed. *)
(** g3func.hpp:647-673 *)
Inductive label : Set :=
| Lapos | Laneg | Lcospos | Lcosneg | Lsyncpos | Lsyncneg
| Lhea0 | Lepa123 | Lena123 | Lsum.
(** g3func.hpp:647-673 *)
Definition trace := list (label * F).

(** g3func.hpp:612-702.  The result carries the text sent to [std::cout]
    (lines 647-648, 659-663, 670-673), in order.  The subscripts
    [someItem[i]] with constant [i] are written as the components they
    select (g3type.hpp:812-836). *)
Definition exp_Mvec_io (someItem : MultiVector F) : trace * MultiVector F :=
  if isValid_Mvec someItem then
    let a0 := sca_0 (mvSca someItem) in
    let a1 := vec_0 (mvVec someItem) in
    let a2 := vec_1 (mvVec someItem) in
    let a3 := vec_2 (mvVec someItem) in
    let a12 := biv_2 (mvBiv someItem) in
    let a13 := - biv_1 (mvBiv someItem) in
    let a23 := biv_0 (mvBiv someItem) in
    let a123 := tri_0 (mvTri someItem) in
    let a3m12 := a3 - a12 in
    let a3p12 := a3 + a12 in
    let a2m13 := a2 - a13 in
    let a2p13 := a2 + a13 in
    let a1m23 := a1 - a23 in
    let a1p23 := a1 + a23 in
    let apos := nsqrt (sq_Dub a3m12 + sq_Dub a2p13 + sq_Dub a1m23) in
    let aneg := nsqrt (sq_Dub a3p12 + sq_Dub a2m13 + sq_Dub a1p23) in
    let cospos := mcos apos in
    let cosneg := mcos aneg in
    let syncpos := sync apos in
    let syncneg := sync aneg in
    let hea0 := nlit 1 (-1) * mexp a0 in
    let epa123 := mexp a123 in
    let ena123 := mexp (- a123) in
    let b0 := epa123 * cospos + ena123 * cosneg in
    let b1 := epa123 * a1m23 * syncpos + ena123 * a1p23 * syncneg in
    let b2 := epa123 * a2p13 * syncpos + ena123 * a2m13 * syncneg in
    let b3 := epa123 * a3m12 * syncpos + ena123 * a3p12 * syncneg in
    let b12 := (- epa123) * a3m12 * syncpos + ena123 * a3p12 * syncneg in
    let b13 := epa123 * a2p13 * syncpos - ena123 * a2m13 * syncneg in
    let b23 := (- epa123) * a1m23 * syncpos + ena123 * a1p23 * syncneg in
    let b123 := epa123 * cospos - ena123 * cosneg in
    let result := mv_of_8 b0 b1 b2 b3 b23 (- b13) b12 b123 in
    ([ (Lapos, apos); (Laneg, aneg); (Lcospos, cospos); (Lcosneg, cosneg);
       (Lsyncpos, syncpos); (Lsyncneg, syncneg); (Lhea0, hea0);
       (Lepa123, epa123); (Lena123, ena123); (Lsum, epa123 + ena123) ],
     mul_Dub_Mvec hea0 result)
  else ([], null_Mvec).
(** The value returned by g3func.hpp:612-702, without the output. *)
Definition exp_Mvec (someItem : MultiVector F) : MultiVector F :=
  snd (exp_Mvec_io someItem).

(** ** Logarithm and square root of spinors *)
(** g3func.hpp:712-768; the second argument defaults to [e23]. *)
Definition logG2 (genSpin : Spinor F) (bivDirForImaginary : BiVector F) : Spinor F :=
  if isValid_Spin genSpin then
    let spinMag := magnitude TSpin genSpin in
    if nltb lim_epsilon spinMag then
      let logSpinMag := mlog spinMag in
      let invMag := 1 / spinMag in
      let spinDir := mul_Dub_Spin invMag genSpin in
      let dirCosValue := sca_0 (spinSca spinDir) in
      let almostOne := 1 - lim_epsilon in
      if nltb almostOne dirCosValue then
        mkSpin (Sca logSpinMag) zero_Biv
      else if nltb dirCosValue (- almostOne) then
        let bivDir := direction TBiv bivDirForImaginary in
        mkSpin (Sca logSpinMag) (mul_Dub_Biv c_turnHalf bivDir)
      else
        let bivMagDir := pairMagDirFrom TBiv (spinBiv spinDir) in
        let dirSinMag := fst bivMagDir in
        let bivDir := snd bivMagDir in
        let angleSize := matan2 dirSinMag dirCosValue in
        mkSpin (Sca logSpinMag) (mul_Dub_Biv angleSize bivDir)
    else null_Spin
  else null_Spin.

(** g3func.hpp:771-795; the second argument defaults to [e23]. *)
Definition sqrtG2 (genSpin : Spinor F) (bivDirForImaginary : BiVector F) : Spinor F :=
  if isValid_Spin genSpin then
    let spinMag := magnitude TSpin genSpin in
    let tol := nlit 4 0 * lim_epsilon in
    if nltb spinMag tol then zero_Spin
    else
      let gangle := logG2 genSpin bivDirForImaginary in
      exp_Spin (mul_Dub_Spin (nlit 1 (-1)) gangle)
  else null_Spin.
End WithLibm.
