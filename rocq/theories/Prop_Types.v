(** * Properties of storage: sign changes, subscripts, constructors.

    Only statements; proofs are in TypeFacts.v.  The number type is arbitrary,
    so the claims hold for the very bits stored, NaN payloads included. *)

Require Import ZArith NArith List Bool.
From Flocq Require Import BinarySingleNaN.
Require Import Verif.Num Verif.Types Verif.Priv Verif.OpsUni Verif.OpsAdd Verif.SpecTypes
  Verif.TypeFacts Verif.B64.
Import ListNotations.

(** C07.  The only fact used about numbers is that changing the sign twice
    gives back the number; on the 64 bits of a [double] negation flips bit 63. *)
Theorem C07_twice : forall (F : Type) (RF : Ring0 F), (forall a : F, nopp (nopp a) = a) ->
  forall t (x : val F t), t <> TDub ->
  neg t (neg t x) = x /\ reverse t (reverse t x) = x /\
  oddverse t (oddverse t x) = x /\ dirverse t (dirverse t x) = x.
Proof. exact @twice_all. Qed.
Print Assumptions C07_twice.
Theorem C07_commute : forall (F : Type) (RF : Ring0 F), (forall a : F, nopp (nopp a) = a) ->
  forall t (x : val F t), t <> TDub ->
  neg t (reverse t x) = reverse t (neg t x) /\
  neg t (oddverse t x) = oddverse t (neg t x) /\
  neg t (dirverse t x) = dirverse t (neg t x) /\
  reverse t (oddverse t x) = oddverse t (reverse t x) /\
  reverse t (dirverse t x) = dirverse t (reverse t x) /\
  oddverse t (dirverse t x) = dirverse t (oddverse t x).
Proof. exact @commute_all. Qed.
Print Assumptions C07_commute.
Theorem C07_compose : forall (F : Type) (RF : Ring0 F), (forall a : F, nopp (nopp a) = a) ->
  forall t (x : val F t), t <> TDub ->
  reverse t (oddverse t x) = dirverse t x /\
  oddverse t (dirverse t x) = reverse t x /\
  dirverse t (reverse t x) = oddverse t x.
Proof. exact @compose_all. Qed.
Print Assumptions C07_compose.
(** The same for binary64 numbers, signed zeros, infinities and NaN included. *)
Theorem C07_binary64 : forall t (x : val f64 t), t <> TDub ->
  (neg t (neg t x) = x /\ reverse t (reverse t x) = x /\
   oddverse t (oddverse t x) = x /\ dirverse t (dirverse t x) = x) /\
  (reverse t (oddverse t x) = dirverse t x /\
   oddverse t (dirverse t x) = reverse t x /\
   dirverse t (reverse t x) = oddverse t x).
Proof.
  exact (fun t x H => conj (twice_all (@Bopp_involutive 53 1024) t x H)
                           (compose_all (@Bopp_involutive 53 1024) t x H)).
Qed.
Print Assumptions C07_binary64.
Example C07_example :
  reverse TSpin (mkSpin (Sca (B754_nan : f64)) (Biv (B754_zero true : f64) (B754_infinity false) (f64_lit 3 0)))
  = mkSpin (Sca B754_nan) (Biv (B754_zero false) (B754_infinity true) (Bopp (f64_lit 3 0))).
Proof. reflexivity. Qed.

(** C24.  [None] would be a read outside the storage. *)
Theorem C24_never_out_of_bounds : forall (F : Type) (nan : F) t (x : val F t) i,
  t <> TDub -> is_size i -> subscript nan t x i <> None.
Proof. exact @sub_total. Qed.
Print Assumptions C24_never_out_of_bounds.
Theorem C24_in_range : forall (F : Type) (nan : F) t (x : val F t) i,
  t <> TDub -> is_size i -> (N.to_nat i < length (elems t x))%nat ->
  subscript nan t x i = nth_error (elems t x) (N.to_nat i).
Proof. exact @sub_in_range. Qed.
Print Assumptions C24_in_range.
(** Full statement for indices out of range; false of MultiVector. *)
Theorem C24_out_of_range_refuted :
  ~ (forall (F : Type) (nan : F) t (x : val F t) i,
       t <> TDub -> is_size i -> (length (elems t x) <= N.to_nat i)%nat ->
       subscript nan t x i = Some nan).
Proof.
  exact (fun H => Bool.diff_false_true (f_equal (fun o => match o with Some b => b | None => true end)
    (H bool true TMvec (mkMvec (Sca true) (Vec true true true) (Biv true true true) (Tri false)) 8%N
      ltac:(discriminate) eq_refl (le_n 8)))).
Qed.
Print Assumptions C24_out_of_range_refuted.
(** What it does instead: every such index reads the trivector component. *)
Theorem C24_multivector_out_of_range : forall (F : Type) (x : MultiVector F) i, (8 <= i)%N ->
  sub_Mvec x i = Some (tri_0 (mvTri x)).
Proof. exact @sub_mvec_out. Qed.
Print Assumptions C24_multivector_out_of_range.
(** The other eight types: missing is only MultiVector. *)
Theorem C24_out_of_range_partial : forall (F : Type) (nan : F) t (x : val F t) i,
  t <> TDub -> t <> TMvec -> is_size i -> (length (elems t x) <= N.to_nat i)%nat ->
  subscript nan t x i = Some nan.
Proof. exact @sub_out_of_range. Qed.
Print Assumptions C24_out_of_range_partial.
Example C24_example : (* component 3 of a Spinor is e12; index 2^64-1 gives NaN *)
  subscript 0%Z TSpin (mkSpin (Sca 1%Z) (Biv 2 3 4)%Z) 3 = Some 4%Z /\
  subscript 0%Z TSpin (mkSpin (Sca 1%Z) (Biv 2 3 4)%Z) 18446744073709551615 = Some 0%Z.
Proof. split; reflexivity. Qed.

(** C25.  Every index above 7 designates the trivector component. *)
Theorem C25_write_one_component : forall (F : Type) (m : MultiVector F) i (v : F), is_size i ->
  exists m', assign_Mvec m i v = Some m' /\
    elems TMvec m' = replace (Nat.min (N.to_nat i) 7) v (elems TMvec m).
Proof. exact @assign_spec. Qed.
Print Assumptions C25_write_one_component.
Theorem C25_read_after_write : forall (F : Type) (m : MultiVector F) i (v : F), is_size i ->
  exists m', assign_Mvec m i v = Some m' /\
    sub_Mvec m' i = Some v /\
    (forall j, is_size j -> Nat.min (N.to_nat j) 7 <> Nat.min (N.to_nat i) 7 ->
       sub_Mvec m' j = sub_Mvec m j).
Proof. exact @assign_frame. Qed.
Print Assumptions C25_read_after_write.
Example C25_example :
  assign_Mvec (mv_of_8 1 2 3 4 5 6 7 8)%Z 5 9%Z = Some (mv_of_8 1 2 3 4 5 9 7 8)%Z.
Proof. reflexivity. Qed.

(** C26 *)
Theorem C26_constructors : forall (F : Type) (RF : Ring0 F) t (x : val F t),
  elems TMvec (to_mv t x) = embedding nzero t x.
Proof. exact @to_mv_embedding. Qed.
Print Assumptions C26_constructors.
Theorem C26_rebuild : forall (F : Type) (RF : Ring0 F) (m : MultiVector F),
  add TSpin TImsp (mkSpin (mvSca m) (mvBiv m)) (mkImsp (mvVec m) (mvTri m)) = m /\
  add TImsp TSpin (mkImsp (mvVec m) (mvTri m)) (mkSpin (mvSca m) (mvBiv m)) = m /\
  add TCplx TDplx (mkCplx (mvSca m) (mvTri m)) (mkDplx (mvVec m) (mvBiv m)) = m /\
  add TDplx TCplx (mkDplx (mvVec m) (mvBiv m)) (mkCplx (mvSca m) (mvTri m)) = m /\
  mv_of_Cplx_Dplx (mkCplx (mvSca m) (mvTri m)) (mkDplx (mvVec m) (mvBiv m)) = m.
Proof. exact @rebuild_sums. Qed.
Print Assumptions C26_rebuild.
(** The eight-argument constructor: [i]-th argument, [i]-th component, and the
    way back. *)
Theorem C26_eight_numbers : forall (F : Type) (RF : Ring0 F) (s x y z p q r t : F),
  (forall i, (i < 8)%N -> sub_Mvec (mv_of_8 s x y z p q r t) i = nth_error [s; x; y; z; p; q; r; t] (N.to_nat i)) /\
  (forall m : MultiVector F, elems TMvec m = [s; x; y; z; p; q; r; t] -> m = mv_of_8 s x y z p q r t).
Proof. exact @eight_numbers. Qed.
Print Assumptions C26_eight_numbers.
Example C26_example : (* the signed zero and the NaN survive *)
  elems TMvec (to_mv TCplx (mkCplx (Sca (B754_zero true : f64)) (Tri (B754_nan : f64))))
  = [B754_zero true; nzero; nzero; nzero; nzero; nzero; nzero; B754_nan].
Proof. reflexivity. Qed.
