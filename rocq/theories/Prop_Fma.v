(** * Other rounding modes and fused multiply-add.

    Only statements; proofs are in FmaFacts.v. *)

Require Import Reals ZArith List Bool Lra.
From Flocq Require Import Core BinarySingleNaN.
Require Import Verif.Num Verif.Types Verif.Priv Verif.OpsUni Verif.OpsMul Verif.Const Verif.Func Verif.SpecCl
  Verif.SpecFunc Verif.B64 Verif.SpecRound Verif.SpecFma Verif.FmaFacts.
Local Open Scope R_scope.

(** C68: the product of finite operands without overflow, whichever products
    are fused with sums, and whichever of the two nearest modes each operation
    rounds in; twice the error for arbitrary modes. *)
Theorem C68_product : forall a b (x : val f64 a) (y : val f64 b) r, all_finite a x -> all_finite b y ->
  let X := exactly a x in let Y := exactly b y in
  (forall k, gp_abs X Y k <= bpow radix2 1021) ->
  outcome nearest_mode (mulTy a b) (@mul expr Ring0_expr a b (given a x) (given b y)) r ->
  all_finite (mulTy a b) r /\
  forall k, Rabs (exactly (mulTy a b) r k - gp X Y k) <= 9 * unit_roundoff * gp_abs X Y k + 9 * underflow_unit.
Proof. exact product_nearest. Qed.
Print Assumptions C68_product.
Theorem C68_product_any : forall a b (x : val f64 a) (y : val f64 b) r, all_finite a x -> all_finite b y ->
  let X := exactly a x in let Y := exactly b y in
  (forall k, gp_abs X Y k <= bpow radix2 1021) ->
  outcome any_mode (mulTy a b) (@mul expr Ring0_expr a b (given a x) (given b y)) r ->
  all_finite (mulTy a b) r /\
  forall k, Rabs (exactly (mulTy a b) r k - gp X Y k)
    <= 9 * (2 * unit_roundoff) * gp_abs X Y k + 9 * (2 * underflow_unit).
Proof. exact (product_any any_mode). Qed.
Print Assumptions C68_product_any.

(** Squared magnitude. *)
Theorem C68_magSq : forall t (x : val f64 t) v, all_finite t x ->
  let N := cnorm2 (exactly t x) in N <= bpow radix2 1021 ->
  (runs nearest_mode (@magSq expr Ring0_expr t (given t x)) v ->
    is_finite v = true /\ Rabs (B2R v - N) <= 9 * unit_roundoff * N + 9 * underflow_unit) /\
  (runs any_mode (@magSq expr Ring0_expr t (given t x)) v ->
    is_finite v = true /\ Rabs (B2R v - N) <= 9 * (2 * unit_roundoff) * N + 9 * (2 * underflow_unit)).
Proof. intros t x v F N H. exact (conj (magSq_nearest t x v F H) (magSq_any any_mode t x v F H)). Qed.
Print Assumptions C68_magSq.

(** Rotation s * v * reverse(s), the first product stored before the second. *)
Theorem C68_rotation : forall (s : Spinor f64) (v : Vector f64) p q, all_finite TSpin s -> all_finite TVec v ->
  let S := exactly TSpin s in let V := exactly TVec v in
  cnorm S * cnorm V <= bpow radix2 500 -> cnorm S <= bpow radix2 500 ->
  outcome nearest_mode TImsp (@mul expr Ring0_expr TSpin TVec (given TSpin s) (given TVec v)) p ->
  outcome nearest_mode TImsp (@mul expr Ring0_expr TImsp TSpin (given TImsp p) (given TSpin (reverse TSpin s))) q ->
  all_finite TImsp q /\
  cnorm (csub (exactly TImsp q) (gp (gp S V) (crev S)))
    <= 53 * unit_roundoff * (cnorm2 S * cnorm V) + 27 * underflow_unit * (1 + cnorm S).
Proof. exact rotation_nearest. Qed.
Print Assumptions C68_rotation.
Theorem C68_rotation_any : forall (s : Spinor f64) (v : Vector f64) p q, all_finite TSpin s -> all_finite TVec v ->
  let S := exactly TSpin s in let V := exactly TVec v in
  cnorm S * cnorm V <= bpow radix2 500 -> cnorm S <= bpow radix2 500 ->
  outcome any_mode TImsp (@mul expr Ring0_expr TSpin TVec (given TSpin s) (given TVec v)) p ->
  outcome any_mode TImsp (@mul expr Ring0_expr TImsp TSpin (given TImsp p) (given TSpin (reverse TSpin s))) q ->
  all_finite TImsp q /\
  cnorm (csub (exactly TImsp q) (gp (gp S V) (crev S)))
    <= 53 * (2 * unit_roundoff) * (cnorm2 S * cnorm V) + 27 * (2 * underflow_unit) * (1 + cnorm S).
Proof. exact (rotation_any any_mode). Qed.
Print Assumptions C68_rotation_any.

(** On small integers no choice matters. *)
Theorem C68_integers : forall a b (x : val f64 a) (y : val f64 b) r, small_integers a x -> small_integers b y ->
  outcome any_mode (mulTy a b) (@mul expr Ring0_expr a b (given a x) (given b y)) r ->
  all_finite (mulTy a b) r /\ ceq (exactly (mulTy a b) r) (gp (exactly a x) (exactly b y)).
Proof. exact (product_ints any_mode). Qed.
Print Assumptions C68_integers.
Theorem C68_integers_magSq : forall t (x : val f64 t) v, small_integers t x ->
  runs any_mode (@magSq expr Ring0_expr t (given t x)) v -> is_finite v = true /\ B2R v = cnorm2 (exactly t x).
Proof. exact (magSq_ints any_mode). Qed.
Print Assumptions C68_integers_magSq.

(** The results of the model are the ones without fused operations in the
    default mode. *)
Theorem C68_model :
  (forall a b (x : val f64 a) (y : val f64 b),
    outcome default_mode (mulTy a b) (@mul expr Ring0_expr a b (given a x) (given b y)) (mul a b x y)) /\
  (forall t (x : val f64 t), runs default_mode (@magSq expr Ring0_expr t (given t x)) (magSq t x)).
Proof. exact (conj mul_is_run magSq_is_run). Qed.
Print Assumptions C68_model.

(** Fusing is visible: without, the product of a vector with itself has no
    bivector part; with, it may have one. *)
Theorem C68_contraction :
  (forall v : Vector f64, let r := mul TVec TVec v v in all_finite TSpin r ->
    exactly TSpin r bE12 = 0 /\ exactly TSpin r bE13 = 0 /\ exactly TSpin r bE23 = 0) /\
  exists (v : Vector f64) (r : Spinor f64),
    outcome default_mode TSpin (@mul expr Ring0_expr TVec TVec (given TVec v) (given TVec v)) r /\
    all_finite TSpin r /\ exactly TSpin r bE12 <> 0.
Proof. exact (conj self_product contraction). Qed.
Print Assumptions C68_contraction.

Example C68_example :
  let v := Vec (f64_lit 1 (-1)) (f64_lit 3 0) (f64_lit 0 0) in
  all_finite TVec v /\ cnorm2 (exactly TVec v) <= bpow radix2 1021 /\
  (forall k, gp_abs (exactly TVec v) (exactly TVec v) k <= bpow radix2 1021).
Proof.
  cbv zeta.
  assert (E : cnorm2 (exactly TVec (Vec (f64_lit 1 (-1)) (f64_lit 3 0) (f64_lit 0 0))) <= bpow radix2 1021).
  { apply Rle_trans with (bpow radix2 4); [|apply bpow_le; discriminate].
    unfold cnorm2, exactly. cbv -[Rle Rplus Rmult Ropp Rinv IZR]. lra. }
  split; [|split; [exact E|]].
  - repeat apply Forall_cons; try apply Forall_nil; vm_compute; reflexivity.
  - intros k. eapply Rle_trans; [apply NormFacts.gp_abs_norm|]. rewrite FuncFacts.cnorm_sq. exact E.
Qed.
