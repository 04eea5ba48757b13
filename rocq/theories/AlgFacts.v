(** * Lemmas about the operators in exact real arithmetic (proofs only). *)

Require Import Reals Lra Bool List.
Require Import Verif.Num Verif.Types Verif.Priv Verif.OpsUni Verif.OpsAdd
  Verif.OpsSub Verif.OpsMul Verif.Const Verif.Func Verif.SpecCl Verif.RealInst Verif.AlgTac Verif.AlgMul.
Import ListNotations.
Local Open Scope R_scope.

(** ** Facts about the specification itself. *)
Lemma ceq_refl a : ceq a a. Proof. intros k; reflexivity. Qed.
Lemma ceq_sym a b : ceq a b -> ceq b a. Proof. intros H k; symmetry; apply H. Qed.
Lemma ceq_trans a b c : ceq a b -> ceq b c -> ceq a c.
Proof. intros H H' k; rewrite (H k); apply H'. Qed.

Lemma gp_ceq a a' b b' : ceq a a' -> ceq b b' -> ceq (gp a b) (gp a' b').
Proof.
  intros Ha Hb k; unfold gp; f_equal; apply map_ext; intros i.
  rewrite (Ha i), (Hb (bxor i k)); reflexivity.
Qed.

Ltac gring := dring.

Lemma gp_assoc a b c : ceq (gp (gp a b) c) (gp a (gp b c)).
Proof. intros k; dblade k; gring. Qed.
Lemma gp_one_l a : ceq (gp cone a) a.
Proof. intros k; dblade k; gring. Qed.
Lemma gp_one_r a : ceq (gp a cone) a.
Proof. intros k; dblade k; gring. Qed.
Lemma gp_add_l a b c : ceq (gp (cadd a b) c) (cadd (gp a c) (gp b c)).
Proof. intros k; dblade k; gring. Qed.
Lemma gp_add_r a b c : ceq (gp c (cadd a b)) (cadd (gp c a) (gp c b)).
Proof. intros k; dblade k; gring. Qed.
Lemma gp_sub_l a b c : ceq (gp (csub a b) c) (csub (gp a c) (gp b c)).
Proof. intros k; dblade k; gring. Qed.
Lemma gp_sub_r a b c : ceq (gp c (csub a b)) (csub (gp c a) (gp c b)).
Proof. intros k; dblade k; gring. Qed.
Lemma gp_scale_l r a b : ceq (gp (cscale r a) b) (cscale r (gp a b)).
Proof. intros k; dblade k; gring. Qed.
Lemma gp_scale_r r a b : ceq (gp a (cscale r b)) (cscale r (gp a b)).
Proof. intros k; dblade k; gring. Qed.
Lemma crev_gp a b : ceq (crev (gp a b)) (gp (crev b) (crev a)).
Proof. intros k; dblade k; gring. Qed.
Lemma codd_gp a b : ceq (codd (gp a b)) (gp (codd a) (codd b)).
Proof. intros k; dblade k; gring. Qed.
Lemma cdir_gp a b : ceq (cdir (gp a b)) (gp (cdir b) (cdir a)).
Proof. intros k; dblade k; gring. Qed.


(** ** Sums and differences. *)
Lemma add_den : forall a b (x : val R a) (y : val R b),
  if_exists (fun c z => ceq (den c z) (cadd (den a x) (den b y))) (addTy a b) (add a b x y).
Proof.
  intros a b x y; destruct a, b; try exact I; dvals; intro k; dblade k; dring.
Qed.

(** The overloads whose operands end up exchanged. *)
Definition backward_sub (a b : ty) : bool :=
  match a, b with
  | TBiv, TSca | TBiv, TVec | TTri, TSca | TTri, TVec | TSpin, TSca | TSpin, TBiv => true
  | _, _ => false
  end.

Lemma sub_den : forall a b (x : val R a) (y : val R b),
  if_exists (fun c z => ceq (den c z)
    (if backward_sub a b then csub (den b y) (den a x) else csub (den a x) (den b y)))
    (subTy a b) (sub a b x y).
Proof.
  intros a b x y; destruct a, b; try exact I; dvals; intro k; dblade k; dring.
Qed.

(** ** Involutions and duals. *)
Lemma neg_den : forall t (x : val R t), ceq (den t (neg t x)) (copp (den t x)).
Proof. intros t x k; destruct t; dvals; dblade k; dring. Qed.
Lemma reverse_den : forall t (x : val R t), ceq (den t (reverse t x)) (crev (den t x)).
Proof. intros t x k; destruct t; dvals; dblade k; dring. Qed.
Lemma oddverse_den : forall t (x : val R t), ceq (den t (oddverse t x)) (codd (den t x)).
Proof. intros t x k; destruct t; dvals; dblade k; dring. Qed.
Lemma dirverse_den : forall t (x : val R t), ceq (den t (dirverse t x)) (cdir (den t x)).
Proof. intros t x k; destruct t; dvals; dblade k; dring. Qed.
Lemma dual_den : forall t (x : val R t),
  ceq (den (dualTy t) (dual t x)) (gp (cbasis bE123) (den t x)).
Proof. intros t x k; destruct t; dvals; dblade k; dring. Qed.
Lemma pseudo_central a : ceq (gp (cbasis bE123) a) (gp a (cbasis bE123)).
Proof. intros k; dblade k; dring. Qed.

(** ** Stored values and multivectors correspond one to one. *)
Lemma den_inj : forall t (x y : val R t), ceq (den t x) (den t y) -> x = y.
Proof.
  intros t x y Hxy.
  pose proof (Hxy bS) as h0; pose proof (Hxy bE1) as h1; pose proof (Hxy bE2) as h2;
  pose proof (Hxy bE3) as h3; pose proof (Hxy bE12) as h4; pose proof (Hxy bE13) as h5;
  pose proof (Hxy bE23) as h6; pose proof (Hxy bE123) as h7; clear Hxy.
  destruct t; dvals; cbv -[Rplus Rminus Rmult Ropp R R0 R1 IZR] in h0, h1, h2, h3, h4, h5, h6, h7;
  try (apply Ropp_eq_compat in h5; rewrite ?Ropp_involutive in h5);
  subst; reflexivity.
Qed.

Definition quot8 (a : clf) : MultiVector R :=
  mv_of_8 (a bS) (a bE1) (a bE2) (a bE3) (a bE23) (- a bE13) (a bE12) (a bE123).
Lemma den_surj a : ceq (den TMvec (quot8 a)) a.
Proof. intros k; dblade k; dring. Qed.
Lemma to_mv_den : forall t (x : val R t), ceq (den TMvec (to_mv t x)) (den t x).
Proof. intros t x k; destruct t; dvals; dblade k; dring. Qed.

(** ** Magnitudes. *)
Lemma magSq_den : forall t (x : val R t), magSq t x = cnorm2 (den t x).
Proof. intros t x; destruct t; dvals; dring. Qed.
Lemma cnorm2_rev_r a : gp a (crev a) bS = cnorm2 a.
Proof. dring. Qed.
Lemma cnorm2_rev_l a : gp (crev a) a bS = cnorm2 a.
Proof. dring. Qed.
Lemma cnorm2_nonneg a : 0 <= cnorm2 a.
Proof.
  unfold cnorm2, rsum, all_blades; cbn [map fold_right].
  repeat (apply Rplus_le_le_0_compat; [apply Rle_0_sqr|]). lra.
Qed.
Lemma cnorm2_zero a : cnorm2 a = 0 -> ceq a czero.
Proof.
  unfold cnorm2, rsum, all_blades; cbn [map fold_right]; intros Hs.
  pose proof (Rle_0_sqr (a bS)); pose proof (Rle_0_sqr (a bE1)); pose proof (Rle_0_sqr (a bE2));
  pose proof (Rle_0_sqr (a bE3)); pose proof (Rle_0_sqr (a bE12)); pose proof (Rle_0_sqr (a bE13));
  pose proof (Rle_0_sqr (a bE23)); pose proof (Rle_0_sqr (a bE123)); unfold Rsqr in *.
  intros k; unfold czero; apply Rsqr_0_uniq; unfold Rsqr; dblade k;
  fold bS bE1 bE2 bE3 bE12 bE13 bE23 bE123; lra.
Qed.
Lemma magSq_elems : forall t (x : val R t),
  magSq t x = rsum (map (fun c => c * c) (elems t x)).
Proof. intros t x; destruct t; dvals; dring. Qed.
