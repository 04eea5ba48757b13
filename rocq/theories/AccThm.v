(** * Accuracy on binary64: where inverses overflow, and the theorems collected. *)

Require Import Reals ZArith List Bool Lra Lia.
From Flocq Require Import Core BinarySingleNaN.
Require Import Verif.Num Verif.Types Verif.Priv Verif.OpsUni Verif.OpsAdd Verif.OpsSub
  Verif.OpsMul Verif.Const Verif.Func Verif.SpecCl Verif.RealInst Verif.AlgTac Verif.AlgMul Verif.AlgFacts Verif.SpecFunc
  Verif.FuncFacts Verif.Rel Verif.B64 Verif.B64Facts Verif.SpecRound Verif.ArrErr Verif.IntFacts Verif.ErrFacts
  Verif.SpecAcc Verif.BoundFacts Verif.AccFacts Verif.NormFacts.
Import ListNotations.
Local Open Scope R_scope.

(** ** Squares that vanish or overflow *)
Lemma vexp : Valid_exp fexp64.
Proof. apply (fexp_correct 53 1024). reflexivity. Qed.
Lemma rnd_tiny : forall r, 0 <= r <= bpow radix2 (-1076) -> rnd64 r = 0.
Proof.
  intros r [H1 H2]. apply Rle_antisym; [|apply rnd_pos; exact H1].
  apply Rle_trans with (rnd64 (bpow radix2 (-1076))).
  - apply round_le; [exact vexp|apply valid_rnd_N|exact H2].
  - right. unfold rnd64. apply round_N_small with (-1075)%Z; [|reflexivity].
    rewrite Rabs_pos_eq by apply bpow_ge_0. split; [right; reflexivity|apply bpow_lt; lia].
Qed.
Lemma rnd_huge : forall r, bpow radix2 1024 <= r -> bpow radix2 1024 <= rnd64 r.
Proof.
  intros r H. rewrite <- (round_generic radix2 fexp64 (round_mode mode_NE) (bpow radix2 1024)) by (apply fmt_bpow; lia).
  apply round_le; [exact vexp|apply valid_rnd_N|exact H].
Qed.
Lemma square_tiny : forall v : f64, fin v = true -> Rabs (b2r v) <= bpow radix2 (-538) ->
  Bmult mode_NE v v = B754_zero false.
Proof.
  intros v F H. assert (Q : 0 <= b2r v * b2r v <= bpow radix2 (-1076)).
  { split; [apply Rle_0_sqr|]. rewrite <- (Rabs_pos_eq (b2r v * b2r v)) by apply Rle_0_sqr. rewrite Rabs_mult.
    apply (sq_upper (Rabs (b2r v)) (-538)); auto using Rabs_pos. }
  destruct (bmult_ok v v F F) as [Fm Em]. { rewrite rnd_tiny by exact Q. rewrite Rabs_R0. apply bpow_gt_0. }
  rewrite rnd_tiny in Em by exact Q. pose proof (notneg_square v) as N. apply notneg_sign in N.
  pose proof (Bmult_correct 53 1024 _ _ mode_NE v v) as C. rewrite Rlt_bool_true in C.
  2:{ change (Rabs (rnd64 (b2r v * b2r v)) < bpow radix2 1024). rewrite rnd_tiny by exact Q. rewrite Rabs_R0. apply bpow_gt_0. }
  destruct C as (_ & _ & C).
  destruct (Bmult mode_NE v v) as [s|s| |s m e B]; try discriminate Fm.
  - specialize (C eq_refl). cbn in C. rewrite xorb_nilpotent in C. subst s. reflexivity.
  - exfalso. subst s. assert (P : 0 < b2r (B754_finite false m e B : f64)) by (cbn [B2R]; apply F2R_gt_0; cbn; lia).
    rewrite Em in P. lra.
Qed.
Lemma square_huge : forall v : f64, fin v = true -> bpow radix2 512 <= Rabs (b2r v) ->
  Bmult mode_NE v v = B754_infinity false.
Proof.
  intros v F H.
  assert (Q : bpow radix2 1024 <= b2r v * b2r v).
  { rewrite <- (Rabs_pos_eq (b2r v * b2r v)) by apply Rle_0_sqr. rewrite Rabs_mult. apply (sq_lower (Rabs (b2r v)) 512); exact H. }
  pose proof (Bmult_correct 53 1024 _ _ mode_NE v v) as C. rewrite Rlt_bool_false in C.
  - rewrite xorb_nilpotent in C. change (binary_overflow 53 1024 mode_NE false) with (SpecFloat.S754_infinity false) in C.
    destruct (Bmult mode_NE v v) as [s|s| |s m e B]; try discriminate C. cbn in C. congruence.
  - apply Rle_trans with (rnd64 (b2r v * b2r v)); [apply rnd_huge; exact Q|apply Rle_abs].
Qed.
(** ** The squared magnitude *)
Definition sqzero (v : f64) : Prop := Bmult mode_NE v v = B754_zero false.
Definition sqinf (v : f64) : Prop := Bmult mode_NE v v = B754_infinity false.
Lemma magSq_tiny : forall t (x : val f64 t), all_finite t x ->
  Forall (fun v => Rabs (B2R v) <= bpow radix2 (-538)) (elems t x) -> magSq t x = B754_zero false.
Proof.
  intros t x F H. assert (K : Forall sqzero (elems t x)).
  { unfold all_finite in F. revert F H. generalize (elems t x). induction l as [|v l IH]; intros F H; constructor;
      inversion F; inversion H; subst; [apply square_tiny; auto | auto]. }
  clear F H. destruct t; dvs; cbv -[sqzero f64] in K;
    repeat match goal with H : Forall _ (_ :: _) |- _ => inversion H; clear H; subst end;
    cbv -[Bplus Bmult nzero nadd nmul Ring0_B f64 sqzero]; unfold sqzero in *; cbn [nadd nmul nzero Ring0_B];
    repeat match goal with H : Bmult _ _ _ = _ |- _ => rewrite H; clear H end; reflexivity.
Qed.
Definition inf : f64 := B754_infinity false.
Definition summand (w : f64) : Prop := notneg w /\ is_nan w = false.
Lemma summand_inf_l : forall w, summand w -> Bplus mode_NE inf w = inf.
Proof. intros w [N E]. apply notneg_sign in N. destruct w as [s|s| |s m e B]; try discriminate E; try reflexivity. subst s; reflexivity. Qed.
Lemma summand_inf_r : forall w, summand w -> Bplus mode_NE w inf = inf.
Proof. intros w [N E]. apply notneg_sign in N. destruct w as [s|s| |s m e B]; try discriminate E; try reflexivity. subst s; reflexivity. Qed.
Definition sqsum (v : f64) : Prop := summand (Bmult mode_NE v v).
Lemma summand_square : forall v : f64, fin v = true -> summand (Bmult mode_NE v v).
Proof.
  intros v F. split; [apply notneg_square|]. pose proof (Bmult_correct 53 1024 _ _ mode_NE v v) as C. destruct (Rlt_bool _ _).
  - destruct C as (_ & C & _). rewrite F in C. destruct (Bmult mode_NE v v); try discriminate C; reflexivity.
  - destruct (Bmult mode_NE v v); try reflexivity. discriminate C.
Qed.
Lemma summand_plus : forall v w, summand v -> summand w -> summand (Bplus mode_NE v w).
Proof.
  intros v w Hv Hw. split; [apply notneg_plus; [apply Hv|apply Hw]|].
  destruct (fin v) eqn:Fv; [destruct (fin w) eqn:Fw|].
  - pose proof (Bplus_correct 53 1024 _ _ mode_NE v w Fv Fw) as C. destruct (Rlt_bool _ _).
    + destruct C as (_ & C & _). destruct (Bplus mode_NE v w); try discriminate C; reflexivity.
    + destruct C as [C _]. destruct (Bplus mode_NE v w); try reflexivity. discriminate C.
  - destruct Hw as [N E]. apply notneg_sign in N. destruct w as [s|s| |s m e B]; try discriminate E; try discriminate Fw.
    subst s. change (is_nan (Bplus mode_NE v inf) = false). rewrite summand_inf_r by exact Hv. reflexivity.
  - destruct Hv as [N E]. apply notneg_sign in N. destruct v as [s|s| |s m e B]; try discriminate E; try discriminate Fv.
    subst s. change (is_nan (Bplus mode_NE inf w) = false). rewrite summand_inf_l by exact Hw. reflexivity.
Qed.
Lemma summand_zero : summand (B754_zero false).
Proof. split; reflexivity. Qed.
Ltac summands := first [exact summand_zero | assumption | apply summand_plus; summands].
Lemma magSq_huge : forall t (x : val f64 t), all_finite t x ->
  Exists (fun v => bpow radix2 512 <= Rabs (B2R v)) (elems t x) -> magSq t x = inf.
Proof.
  intros t x F H.
  assert (K : Forall sqsum (elems t x)).
  { unfold all_finite in F. eapply Forall_impl; [|exact F]. intros v Hv. apply summand_square, Hv. }
  assert (E : Exists sqinf (elems t x)).
  { unfold all_finite in F. revert F H. generalize (elems t x). induction l as [|v l IH]; intros F H; inversion H; inversion F; subst;
      [left; apply square_huge; auto | right; apply IH; auto]. }
  clear F H. destruct t; dvs; cbv -[sqsum sqinf f64] in K, E;
    cbv -[Bplus Bmult nzero nadd nmul Ring0_B f64 inf sqsum sqinf]; cbn [nadd nmul nzero Ring0_B];
    repeat match goal with H : Forall _ (_ :: _) |- _ => inversion H; clear H; subst end;
    repeat match goal with H : Exists _ (_ :: _) |- _ => inversion H; clear H; subst | H : Exists _ [] |- _ => inversion H end;
    unfold sqsum, sqinf in *; fold inf in *; match goal with H : Bmult _ _ _ = inf |- _ => rewrite H in *; clear H end;
    repeat (first [rewrite summand_inf_l by summands | rewrite summand_inf_r by summands]); reflexivity.
Qed.

(** ** Inverse *)
Lemma div_zero : Bdiv mode_NE (none_ : f64) (B754_zero false) = inf.
Proof. reflexivity. Qed.
Lemma div_inf : Bdiv mode_NE (none_ : f64) inf = B754_zero false.
Proof. reflexivity. Qed.
Lemma inf_times : forall v : f64, fin (Bmult mode_NE inf v) = false.
Proof. intros [s|s| |s m e B]; reflexivity. Qed.
Lemma zero_times : forall v : f64, fin v = true -> fin (Bmult mode_NE (B754_zero false) v) = true /\ b2r (Bmult mode_NE (B754_zero false) v) = 0.
Proof. intros [s|s| |s m e B] F; try discriminate F; split; reflexivity. Qed.
Lemma zero_elems : forall t (x : val f64 t), Forall (fun v => b2r v = 0) (elems t x) -> ceq (exactly t x) czero.
Proof.
  intros t x H k. pose proof (elems_comp t x) as _. unfold exactly, czero.
  destruct t; dvs; cbv -[B2R R0 IZR f64] in H; repeat match goal with H : Forall _ (_ :: _) |- _ => inversion H; clear H; subst end;
    dblade k; cbv -[B2R Ropp R0 IZR]; repeat match goal with H : b2r _ = 0 |- _ => rewrite H; clear H end; ring.
Qed.
Lemma scale_breaks : forall t, inverse_breaks t (fun x => scale t (ndiv 1%num (magSq t x)) (reverse t x)).
Proof.
  intros t x F. split; intros H; cbv beta.
  - rewrite (magSq_tiny t x F H). change (ndiv 1%num (B754_zero false)) with inf. rewrite elems_scale. 
    apply Forall_forall. intros v Hv. apply in_map_iff in Hv. destruct Hv as (w & <- & _). apply inf_times.
  - rewrite (magSq_huge t x F H). change (ndiv 1%num inf) with (B754_zero false : f64).
    pose proof (reverse_finite t x F) as G.
    assert (A : Forall (fun v => fin v = true /\ b2r v = 0) (elems t (scale t (B754_zero false) (reverse t x)))).
    { rewrite elems_scale. apply Forall_forall. intros v Hv. apply in_map_iff in Hv. destruct Hv as (w & <- & Hw).
      apply zero_times. unfold all_finite in G. rewrite Forall_forall in G. apply G, Hw. }
    split; [|apply zero_elems]; [unfold all_finite|]; (eapply Forall_impl; [|exact A]); intros v Hv; apply Hv.
Qed.
Lemma scale_inverts : forall t, unmixed t = true -> inverts t (fun x => scale t (ndiv 1%num (magSq t x)) (reverse t x)).
Proof.
  intros t U x F H X. destruct (inverse_scale t x F H) as [A B]. destruct (inverse_product t x U F H) as (_ & _ & C & D).
  split; [exact A|]. split; [exact B|]. split; [exact C|exact D].
Qed.
Lemma blades_invert : inverts TSca inverse_Sca /\ inverts TVec inverse_Vec /\ inverts TBiv inverse_Biv /\ inverts TTri inverse_Tri.
Proof. split; [|split; [|split]]; apply scale_inverts; reflexivity. Qed.
Lemma blades_break : inverse_breaks TSca inverse_Sca /\ inverse_breaks TVec inverse_Vec /\
  inverse_breaks TBiv inverse_Biv /\ inverse_breaks TTri inverse_Tri.
Proof. split; [|split; [|split]]; apply scale_breaks. Qed.

(** ** Concrete values *)
Lemma lit_small : forall n : Z, (Z.abs n <= 2 ^ 24)%Z -> fin (f64_lit n 0) = true /\ b2r (f64_lit n 0) = IZR n.
Proof.
  intros n Hn.
  assert (E : F2R (Float radix2 n 0) = IZR n) by (unfold F2R; cbn; ring).
  destruct (lit_exact n 0) as [A B]; rewrite ?E; [apply int_format; lia|apply int_lt; lia|].
  split; [exact A|]. rewrite B. exact E.
Qed.
Lemma example_within : within 3 TVec (Vec (f64_lit 3 0) (f64_lit (-4) 0) (f64_lit 8 0)).
Proof.
  assert (A : forall n, (Z.abs n <= 8)%Z -> is_finite (f64_lit n 0) = true /\ Rabs (B2R (f64_lit n 0)) <= bpow radix2 3).
  { intros n Hn. destruct (lit_small n) as [P Q]; [lia|]. split; [exact P|].
    change (B2R (f64_lit n 0)) with (b2r (f64_lit n 0)). rewrite Q, <- abs_IZR. change (bpow radix2 3) with 8. apply IZR_le, Hn. }
  unfold within. repeat first [apply Forall_nil | apply Forall_cons]; apply A; lia.
Qed.
Lemma example_norm : all_finite TVec (Vec (f64_lit 3 0) (f64_lit 0 0) (f64_lit 4 0)) /\
  cnorm (exactly TVec (Vec (f64_lit 3 0) (f64_lit 0 0) (f64_lit 4 0))) = 5.
Proof.
  split; [unfold all_finite; repeat constructor; vm_compute; reflexivity|].
  unfold cnorm. rewrite <- (sqrt_square 5) by lra. f_equal.
  destruct (lit_small 3 ltac:(lia)) as [_ A]. destruct (lit_small 0 ltac:(lia)) as [_ B]. destruct (lit_small 4 ltac:(lia)) as [_ C].
  unfold exactly. cbv -[b2r f64_lit Rplus Rmult R0 IZR Ropp]. rewrite A, B, C. ring.
Qed.
Lemma range_5 : bpow radix2 (-480) <= 5 <= bpow radix2 480.
Proof.
  split; [apply Rle_trans with (bpow radix2 0) | apply Rle_trans with (bpow radix2 3)]; try (apply bpow_le; lia).
  - change (bpow radix2 0) with 1. lra.
  - change (bpow radix2 3) with 8. lra.
Qed.
