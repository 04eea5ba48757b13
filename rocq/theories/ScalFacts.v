(** * Scalars as spinors: proofs. *)

Require Import Reals ZArith List Bool Lra Lia.
From Flocq Require Import Core BinarySingleNaN Relative.
Require Import Verif.Num Verif.Types Verif.Priv Verif.OpsUni Verif.OpsAdd Verif.OpsSub Verif.OpsMul Verif.Const Verif.Validity
  Verif.Func Verif.SpecCl Verif.AlgTac Verif.SpecFunc Verif.B64 Verif.B64Facts Verif.SpecRound Verif.SpecValid Verif.ArrErr Verif.ErrFacts
  Verif.BoundFacts Verif.AccFacts Verif.AccThm Verif.SpecExtent Verif.ExtentFacts Verif.LogAcc Verif.RootAcc Verif.ValidFacts Verif.SpecScal.
Import ListNotations.
Local Open Scope R_scope.

Lemma same_f64 : forall x y : f64, fin x = true -> fin y = true -> b2r x = b2r y -> b2r x <> 0 -> x = y.
Proof. intros x y Fx Fy E N. apply B2R_inj; [| |exact E]; [destruct x|destruct y]; try discriminate; try reflexivity; cbn in *; congruence. Qed.
Lemma abs_sign : forall x : f64, fin x = true -> 0 < b2r x -> Babs x = x.
Proof.
  intros x F P. apply same_f64; [rewrite is_finite_Babs; exact F|exact F|rewrite B2R_Babs; apply Rabs_pos_eq; lra|].
  rewrite B2R_Babs. rewrite Rabs_pos_eq; lra.
Qed.
Lemma abs_opp : forall x : f64, fin x = true -> b2r x < 0 -> Babs x = Bopp x.
Proof.
  intros x F P. apply same_f64; rewrite ?is_finite_Babs, ?is_finite_Bopp, ?B2R_Babs, ?B2R_Bopp; try exact F.
  - apply Rabs_left, P.
  - rewrite Rabs_left; lra.
Qed.

Lemma rnd_near : forall x, bpow radix2 (-1022) <= x -> (1 - u53) * x <= rnd64 x <= (1 + u53) * x.
Proof.
  intros x H. assert (P : 0 < x) by (eapply Rlt_le_trans; [apply bpow_gt_0|exact H]).
  pose proof (relative_error_N_FLT radix2 (-1074) 53 ltac:(reflexivity) (fun x => negb (Z.even x)) x) as E.
  rewrite Rabs_pos_eq in E by lra. change (FLT_exp (-1074) 53) with fexp64 in E.
  assert (U : / 2 * bpow radix2 (- (53) + 1) = u53) by (rewrite u53_val; cbn; lra). rewrite U in E.
  specialize (E H). apply Rabs_le_inv in E. lra.
Qed.
Lemma below_one : generic_format radix2 fexp64 (1 - u53).
Proof.
  destruct (lit_of 9007199254740991 (-53) ltac:(lia) ltac:(lia)) as [_ E]. replace (1 - u53) with (b2r (f64_lit 9007199254740991 (-53))).
  - apply generic_format_B2R.
  - rewrite E. fold u53. rewrite u53_val. lra.
Qed.
(** The reciprocal of a number times the number. *)
Lemma unit_quotient : forall x : f64, fin x = true -> bpow radix2 (-510) <= Rabs (b2r x) <= bpow radix2 511 ->
  let c := Bmult mode_NE (Bdiv mode_NE (none_ : f64) (Babs x)) x in
  fin c = true /\ (0 < b2r x -> 1 - u53 <= b2r c) /\ (b2r x < 0 -> b2r c <= - (1 - u53)).
Proof.
  intros x F [H1 H2] c. destruct one_ok as [F1 E1]. set (a := Rabs (b2r x)) in *. pose proof (bpow_gt_0 radix2 (-510)) as P0. assert (Pa : 0 < a) by lra.
  assert (I : bpow radix2 (-511) <= / a <= bpow radix2 510).
  { change (-511)%Z with (- (511))%Z. rewrite bpow_opp. change 510%Z with (- (-510))%Z. rewrite bpow_opp. split; apply Rinv_le; lra. }
  destruct (rnd_near (/ a)) as [D1 D2]; [eapply Rle_trans; [apply bpow_le|apply I]; lia|].
  assert (Q : b2r (none_ : f64) / b2r (Babs x) = / a) by (rewrite E1, B2R_Babs; unfold a, Rdiv; apply Rmult_1_l).
  destruct (bdiv_ok (none_ : f64) (Babs x) F1) as [Fi Ei].
  { rewrite B2R_Babs. fold a. lra. }
  { rewrite Q. apply (rnd_lt _ 510); [lia|]. rewrite Rabs_pos_eq; [apply I|left; apply Rinv_0_lt_compat, Pa]. }
  rewrite Q in Ei. set (i := Bdiv mode_NE (none_ : f64) (Babs x)) in *. pose proof u53_pos as Pu. assert (U1 : u53 < / 2) by (rewrite u53_val; lra).
  assert (B : 1 - u53 <= b2r i * a <= 1 + u53).
  { rewrite Ei. split; [replace (1 - u53) with ((1 - u53) * / a * a)|replace (1 + u53) with ((1 + u53) * / a * a)]; try (field; lra); apply Rmult_le_compat_r; lra. }
  assert (Bx : Rabs (b2r i * b2r x) <= 2).
  { rewrite Rabs_mult. fold a. rewrite Rabs_pos_eq; [lra|]. rewrite Ei. apply Rle_trans with ((1 - u53) * / a); [|exact D1]. apply Rmult_le_pos; [lra|]. left; apply Rinv_0_lt_compat, Pa. }
  destruct (bmult_ok i x Fi F) as [Fc Ec].
  { apply (rnd_lt _ 1); [lia|exact Bx]. }
  fold c in Fc, Ec. split; [exact Fc|]. rewrite Ec. split; intros h.
  - assert (X : a = b2r x) by (apply Rabs_pos_eq; lra). rewrite <- X. apply round_ge_generic; [apply fexp_correct; reflexivity|apply valid_rnd_N|exact below_one|apply B].
  - assert (X : a = - b2r x) by (apply Rabs_left, h). replace (b2r i * b2r x) with (- (b2r i * a)) by (rewrite X; ring). rewrite rnd_opp. apply Ropp_le_contravar.
    apply round_ge_generic; [apply fexp_correct; reflexivity|apply valid_rnd_N|exact below_one|apply B].
Qed.
Section Axis.
Context {L : Libm f64} (s : Spinor f64) (x : f64) (A : on_axis TSpin s 0 x) (F : fin x = true).

Lemma axis_first : sca_0 (spinSca s) = x /\ fin (biv_0 (spinBiv s)) = true /\ b2r (biv_0 (spinBiv s)) = 0.
Proof.
  destruct A as [A0 Z]. destruct s as [[[s0]] [[b0 b1 b2]]]. cbn in A0. unfold arr1_list in A0. cbn in A0. injection A0 as E.
  split; [exact E|]. exact (Z 1%nat b0 ltac:(discriminate) eq_refl).
Qed.
Lemma axis_valid : valid_number x -> isValid_Spin s = true.
Proof.
  intros [Fx Hx]. destruct axis_first as (E & Fb & Zb). unfold isValid_Spin. apply andb_true_intro. split.
  - change (isValid_Dub (sca_0 (spinSca s)) = true). rewrite E. apply isValid_number. split; assumption.
  - change (isValid_Dub (biv_0 (spinBiv s)) = true). apply isValid_number. split; [exact Fb|left; exact Zb].
Qed.
Lemma axis_mag : bpow radix2 (-510) <= Rabs (b2r x) <= bpow radix2 511 -> magnitude TSpin s = Babs x.
Proof.
  intros H. destruct (magnitude_axis TSpin s 0 x A F H) as [Fm Em]. pose proof (bpow_gt_0 radix2 (-510)).
  apply same_f64; [exact Fm|rewrite is_finite_Babs; exact F|rewrite Em, B2R_Babs; reflexivity|rewrite Em; lra].
Qed.
Lemma axis_mag_le : forall e, (-1000 <= 2 * e)%Z -> (e <= 500)%Z -> Rabs (b2r x) <= bpow radix2 e ->
  fin (magnitude TSpin s) = true /\ 0 <= b2r (magnitude TSpin s) <= bpow radix2 e.
Proof.
  intros e He He' H.
  assert (Q : 0 <= b2r x * b2r x <= bpow radix2 (2 * e)).
  { split; [apply Rle_0_sqr|]. rewrite <- (Rabs_pos_eq (b2r x * b2r x)) by apply Rle_0_sqr. rewrite Rabs_mult.
    replace (2 * e)%Z with (e + e)%Z by ring. rewrite bpow_plus. apply Rmult_le_compat; try apply Rabs_pos; assumption. }
  assert (Rq : 0 <= rnd64 (b2r x * b2r x) <= bpow radix2 (2 * e)).
  { split.
    - rewrite <- (round_0 radix2 fexp64 ZnearestE). apply round_le; [apply fexp_correct; reflexivity|apply valid_rnd_N|apply Q].
    - apply round_le_generic; [apply fexp_correct; reflexivity|apply valid_rnd_N|apply fmt_bpow; lia|apply Q]. }
  assert (J : sqjust (rnd64 (b2r x * b2r x)) x).
  { split; [apply summand_square, F|]. apply bmult_ok; [exact F|exact F|]. rewrite Rabs_pos_eq by apply Rq.
    eapply Rle_lt_trans; [apply Rq|]. apply bpow_lt; lia. }
  destruct (magSq_axis TSpin s 0 x _ A J) as (Sm & Fm & Em). destruct (bsqrt_ok (magSq TSpin s) Fm (proj1 Sm)) as [G E].
  change (magnitude TSpin s) with (Bsqrt mode_NE (magSq TSpin s)). split; [exact G|]. rewrite E, Em.
  assert (Sq : sqrt (rnd64 (b2r x * b2r x)) <= bpow radix2 e).
  { rewrite <- (sqrt_square (bpow radix2 e)) by apply bpow_ge_0. apply sqrt_le_1_alt. rewrite <- bpow_plus. replace (e + e)%Z with (2 * e)%Z by ring. apply Rq. }
  split.
  - rewrite <- (round_0 radix2 fexp64 ZnearestE). apply round_le; [apply fexp_correct; reflexivity|apply valid_rnd_N|apply sqrt_pos].
  - apply round_le_generic; [apply fexp_correct; reflexivity|apply valid_rnd_N|apply fmt_bpow; lia|exact Sq].
Qed.

Lemma axis_range : bpow radix2 (-52) < Rabs (b2r x) <= bpow radix2 511 -> bpow radix2 (-510) <= Rabs (b2r x) <= bpow radix2 511.
Proof. intros [H1 H2]. split; [|exact H2]. apply Rle_trans with (bpow radix2 (-52)); [apply bpow_le; lia|lra]. Qed.
Lemma axis_valid' : bpow radix2 (-52) < Rabs (b2r x) -> isValid_Spin s = true.
Proof. intros H. apply axis_valid. split; [exact F|]. right. apply Rle_trans with (bpow radix2 (-52)); [apply bpow_le; lia|lra]. Qed.
Lemma axis_above : bpow radix2 (-52) < Rabs (b2r x) <= bpow radix2 511 -> nltb (lim_epsilon : f64) (magnitude TSpin s) = true.
Proof.
  intros H. rewrite (axis_mag (axis_range H)). change (Bltb (f64_lit 1 (-52)) (Babs x) = true). destruct (lit_of 1 (-52) ltac:(lia) ltac:(lia)) as [Fe Ee].
  rewrite Bltb_correct; [|exact Fe|rewrite is_finite_Babs; exact F]. apply Rlt_bool_true. rewrite Ee, B2R_Babs, Rmult_1_l. apply H.
Qed.
Lemma axis_cos : bpow radix2 (-52) < Rabs (b2r x) <= bpow radix2 511 ->
  sca_0 (spinSca (scale TSpin (1 / magnitude TSpin s)%num s)) = Bmult mode_NE (Bdiv mode_NE (none_ : f64) (Babs x)) x.
Proof. intros H. rewrite <- (axis_mag (axis_range H)). destruct axis_first as (E & _). rewrite <- E. reflexivity. Qed.
Lemma log_positive : forall plane, bpow radix2 (-52) < b2r x <= bpow radix2 511 -> logG2 s plane = mkSpin (Sca (mlog x)) zero_Biv.
Proof.
  intros plane H. pose proof (bpow_gt_0 radix2 (-52)). assert (P : 0 < b2r x) by lra. assert (H' : bpow radix2 (-52) < Rabs (b2r x) <= bpow radix2 511) by (rewrite Rabs_pos_eq; lra).
  rewrite (log_cases f64 Arith_B L s plane (axis_valid' (proj1 H')) (axis_above H')). cbv zeta. pose proof (axis_cos H') as C.
  destruct (unit_quotient x F (axis_range H')) as (Fc & Pc & _). set (c := Bmult _ _ x) in *. match goal with |- context [if nltb ?o ?v then _ else _] => replace v with c by (symmetry; exact C) end. specialize (Pc P). destruct almost_one as [Fo Eo].
  assert (G : Bltb ((1 - lim_epsilon)%num : f64) c = true).
  { rewrite Bltb_correct by assumption. apply Rlt_bool_true. rewrite Eo. pose proof u53_pos. lra. }
  match goal with |- context [if ?b then _ else _] => replace b with true by (symmetry; exact G) end.
  rewrite (axis_mag (axis_range H')), (abs_sign x F P). reflexivity.
Qed.
Lemma log_negative : forall plane, bpow radix2 (-52) < - b2r x <= bpow radix2 511 ->
  logG2 s plane = mkSpin (Sca (mlog (Bopp x))) (scale TBiv c_turnHalf (direction TBiv plane)).
Proof.
  intros plane H. pose proof (bpow_gt_0 radix2 (-52)). assert (P : b2r x < 0) by lra. assert (H' : bpow radix2 (-52) < Rabs (b2r x) <= bpow radix2 511) by (rewrite Rabs_left; lra).
  rewrite (log_cases f64 Arith_B L s plane (axis_valid' (proj1 H')) (axis_above H')). cbv zeta. pose proof (axis_cos H') as C.
  destruct (unit_quotient x F (axis_range H')) as (Fc & _ & Pc). set (c := Bmult _ _ x) in *. match goal with |- context [if nltb ?o ?v then _ else _] => replace v with c by (symmetry; exact C) end. specialize (Pc P). destruct almost_one as [Fo Eo].
  assert (G1 : Bltb ((1 - lim_epsilon)%num : f64) c = false).
  { rewrite Bltb_correct by assumption. apply Rlt_bool_false. rewrite Eo. rewrite u53_val in *. lra. }
  assert (G2 : Bltb c (Bopp ((1 - lim_epsilon)%num : f64)) = true).
  { rewrite Bltb_correct by (rewrite ?is_finite_Bopp; assumption). apply Rlt_bool_true. rewrite B2R_Bopp, Eo. pose proof u53_pos. lra. }
  match goal with |- context [if ?b then _ else _] => replace b with false by (symmetry; exact G1) end.
  match goal with |- context [if ?b then _ else _] => replace b with true by (symmetry; exact G2) end.
  rewrite (axis_mag (axis_range H')), (abs_opp x F P). reflexivity.
Qed.
Lemma log_small : forall plane, Rabs (b2r x) <= bpow radix2 (-52) -> logG2 s plane = null_Spin.
Proof.
  intros plane H. unfold logG2. destruct (isValid_Spin s); [|reflexivity]. cbv zeta.
  destruct (axis_mag_le (-52) ltac:(lia) ltac:(lia) H) as [Fm Em]. destruct (lit_of 1 (-52) ltac:(lia) ltac:(lia)) as [Fe Ee].
  assert (G : Bltb (f64_lit 1 (-52)) (magnitude TSpin s) = false).
  { rewrite Bltb_correct by assumption. apply Rlt_bool_false. rewrite Ee, Rmult_1_l. apply Em. }
  change (nltb (lim_epsilon : f64) (magnitude TSpin s)) with (Bltb (f64_lit 1 (-52)) (magnitude TSpin s)). rewrite G. reflexivity.
Qed.
Lemma four_eps : forall m : f64, nltb m (nlit 4 0 * lim_epsilon)%num = Bltb m (f64_lit 1 (-50)).
Proof.
  intros m. assert (E : (nlit 4 0 * lim_epsilon : f64)%num = f64_lit 1 (-50)) by (apply B2SF_inj; vm_compute; reflexivity). rewrite E. reflexivity.
Qed.
Lemma sqrt_small : forall plane, valid_number x -> Rabs (b2r x) < bpow radix2 (-50) -> sqrtG2 s plane = zero_Spin.
Proof.
  intros plane V H. unfold sqrtG2. rewrite (axis_valid V). cbv zeta. destruct (lit_of 1 (-50) ltac:(lia) ltac:(lia)) as [Fe Ee].
  assert (G : Bltb (magnitude TSpin s) (f64_lit 1 (-50)) = true).
  { destruct (Rle_or_lt (bpow radix2 (-510)) (Rabs (b2r x))) as [h|h].
    - rewrite axis_mag. 2:{ split; [exact h|]. left. eapply Rlt_le_trans; [exact H|apply bpow_le; lia]. }
      rewrite Bltb_correct; [|rewrite is_finite_Babs; exact F|exact Fe]. apply Rlt_bool_true. rewrite B2R_Babs, Ee, Rmult_1_l. exact H.
    - destruct (axis_mag_le (-500) ltac:(lia) ltac:(lia)) as [Fm Em].
      { left. eapply Rlt_le_trans; [exact h|apply bpow_le; lia]. }
      rewrite Bltb_correct by assumption. apply Rlt_bool_true. rewrite Ee, Rmult_1_l. eapply Rle_lt_trans; [apply Em|]. apply bpow_lt; lia. }
  match goal with |- (if ?b then _ else _) = _ => replace b with true by (symmetry; exact (eq_trans (four_eps _) G)) end. reflexivity.
Qed.
Lemma sqrt_shape : forall plane, bpow radix2 (-50) <= Rabs (b2r x) <= bpow radix2 511 ->
  sqrtG2 s plane = exp_Spin (mul_Dub_Spin (nlit 1 (-1)) (logG2 s plane)).
Proof.
  intros plane H. assert (K : bpow radix2 (-52) < bpow radix2 (-50)) by (apply bpow_lt; lia). assert (H' : bpow radix2 (-52) < Rabs (b2r x) <= bpow radix2 511) by lra.
  unfold sqrtG2. rewrite (axis_valid' (proj1 H')). cbv zeta. pose proof (axis_mag (axis_range H')) as M. destruct (lit_of 1 (-50) ltac:(lia) ltac:(lia)) as [Fe Ee].
  assert (G : Bltb (Babs x) (f64_lit 1 (-50)) = false).
  { rewrite Bltb_correct; [|rewrite is_finite_Babs; exact F|exact Fe]. apply Rlt_bool_false. rewrite B2R_Babs, Ee, Rmult_1_l. apply H. }
  rewrite <- M in G. match goal with |- (if ?b then _ else _) = _ => replace b with false by (symmetry; exact (eq_trans (four_eps _) G)) end. reflexivity.
Qed.
End Axis.

(** ** The roots *)
Lemma half_zero : forall {L : Libm f64} (l : f64), mul_Dub_Spin (nlit 1 (-1)) (mkSpin (Sca l) zero_Biv) = mkSpin (Sca (Bmult mode_NE (f64_lit 1 (-1)) l)) zero_Biv.
Proof.
  intros L l. unfold mul_Dub_Spin. cbn [spinSca spinBiv]. reflexivity.
Qed.
Lemma times_one : forall r : f64, fin r = true -> Bmult mode_NE r none_ = r.
Proof.
  intros r F. destruct one_ok as [F1 E1].
  assert (Q : rnd64 (b2r r * b2r (none_ : f64)) = b2r r) by (rewrite E1, Rmult_1_r; apply rnd_id).
  destruct (bmult_ok r none_ F F1) as [G E]; [rewrite Q; apply abs_B2R_lt_emax|]. rewrite Q in E.
  destruct (Req_dec (b2r r) 0) as [Z|N]; [|apply same_f64; [exact G|exact F|exact E|exact (fun h => N (eq_trans (eq_sym E) h))]].
  destruct r as [b| | |b m e p]; try discriminate F; [destruct b; apply B2SF_inj; vm_compute; reflexivity|].
  exfalso. cbn in Z. apply eq_0_F2R in Z. cbn in Z. destruct b; discriminate Z.
Qed.
Lemma times_zero : forall r : f64, fin r = true -> Bsign r = false -> Bmult mode_NE r (nzero : f64) = nzero.
Proof. intros [b| | |b m e p] F S; try discriminate F; cbn in S; subst; reflexivity. Qed.
Lemma times_unit : forall r : f64, fin r = true -> Bsign r = false -> mul_Dub_Spin r (one TSpin) = mkSpin (Sca r) zero_Biv.
Proof.
  intros r F S. change (mul_Dub_Spin r (one TSpin)) with (mkSpin (Sca (Bmult mode_NE r none_)) (Biv (Bmult mode_NE r (nzero : f64)) (Bmult mode_NE r (nzero : f64)) (Bmult mode_NE r (nzero : f64)))).
  rewrite times_one, times_zero by assumption. reflexivity.
Qed.
Lemma sqrt_positive : forall {L : Libm f64} (s : Spinor f64) (x : f64) plane, on_axis TSpin s 0 x -> fin x = true ->
  bpow radix2 (-50) <= b2r x <= bpow radix2 511 ->
  let r := mexp (Bmult mode_NE (f64_lit 1 (-1)) (mlog x)) in fin r = true -> Bsign r = false ->
  sqrtG2 s plane = mkSpin (Sca r) zero_Biv.
Proof.
  intros L s x plane A F H r Fr Sr. pose proof (bpow_gt_0 radix2 (-50)). assert (K : bpow radix2 (-52) < bpow radix2 (-50)) by (apply bpow_lt; lia).
  rewrite (sqrt_shape s x A F plane) by (rewrite Rabs_pos_eq; lra). rewrite (log_positive s x A F plane) by lra. rewrite half_zero.
  unfold exp_Spin. cbn [spinSca spinBiv]. rewrite exp_zero_biv. exact (times_unit r Fr Sr).
Qed.
(** The coordinate planes. *)
Lemma biv_ext : forall a b : BiVector f64, map (@B2SF 53 1024) (elems TBiv a) = map (@B2SF 53 1024) (elems TBiv b) -> a = b.
Proof. intros [[a1 a2 a3]] [[b1 b2 b3]]. cbn. intros h. injection h; intros. repeat f_equal; apply B2SF_inj; assumption. Qed.
Lemma plane_direction : forall p, axis_plane p -> direction TBiv p = p.
Proof. intros p [E|[E|E]]; subst p; apply biv_ext; vm_compute; reflexivity. Qed.
Lemma plane_half : forall p, axis_plane p -> mul_Dub_Biv (nlit 1 (-1)) (scale TBiv c_turnHalf p) = scale TBiv c_piHalf p.
Proof. intros p [E|[E|E]]; subst p; apply biv_ext; vm_compute; reflexivity. Qed.
Lemma plane_valid : forall p, axis_plane p -> isValid_Biv (scale TBiv c_piHalf p) = true /\ isValid_Biv p = true.
Proof. intros p [E|[E|E]]; subst p; split; vm_compute; reflexivity. Qed.
Lemma plane_mag : forall p, axis_plane p -> magnitude TBiv (scale TBiv c_piHalf p) = c_piHalf.
Proof. intros p [E|[E|E]]; subst p; apply B2SF_inj; vm_compute; reflexivity. Qed.
Lemma plane_dir : forall p, axis_plane p -> direction TBiv (scale TBiv c_piHalf p) = p.
Proof. intros p [E|[E|E]]; subst p; apply biv_ext; vm_compute; reflexivity. Qed.
Lemma exp_shape : forall {L : Libm f64} (b : BiVector f64), isValid_Biv b = true -> isValid_Biv (direction TBiv b) = true ->
  exp_Biv b = mkSpin (Sca (mcos (magnitude TBiv b))) (scale TBiv (msin (magnitude TBiv b)) (direction TBiv b)).
Proof.
  intros L b V W. unfold exp_Biv. rewrite V. cbv zeta. change (snd (pairMagDirFrom TBiv b)) with (direction TBiv b). rewrite W. reflexivity.
Qed.
Lemma exp_quarter : forall {L : Libm f64} p, axis_plane p -> exp_Biv (scale TBiv c_piHalf p) = mkSpin (Sca (mcos c_piHalf)) (scale TBiv (msin c_piHalf) p).
Proof.
  intros L p P. destruct (plane_valid p P) as [V V']. pose proof (plane_dir p P) as D. pose proof (plane_mag p P) as M.
  set (b := scale TBiv c_piHalf p : BiVector f64) in *. clearbody b. rewrite exp_shape; [rewrite D, M; reflexivity|exact V|rewrite D; exact V'].
Qed.
Lemma sqrt_negative : forall {L : Libm f64} (s : Spinor f64) (x : f64) plane, on_axis TSpin s 0 x -> fin x = true -> axis_plane plane ->
  bpow radix2 (-50) <= - b2r x <= bpow radix2 511 ->
  let r := mexp (Bmult mode_NE (f64_lit 1 (-1)) (mlog (Bopp x))) in
  sqrtG2 s plane = mkSpin (Sca (Bmult mode_NE r (mcos c_piHalf))) (scale TBiv r (scale TBiv (msin c_piHalf) plane)).
Proof.
  intros L s x plane A F P H r. pose proof (bpow_gt_0 radix2 (-50)). assert (K : bpow radix2 (-52) < bpow radix2 (-50)) by (apply bpow_lt; lia).
  rewrite (sqrt_shape s x A F plane) by (rewrite Rabs_left; lra). rewrite (log_negative s x A F plane) by lra. rewrite (plane_direction plane P).
  unfold exp_Spin, mul_Dub_Spin. cbn [spinSca spinBiv]. pose proof (plane_half plane P) as E. 
  match goal with |- context [exp_Biv ?b] => replace b with (scale TBiv c_piHalf plane : BiVector f64) by (symmetry; exact E) end.
  rewrite (exp_quarter plane P). reflexivity.
Qed.
Lemma log_negative_plane : forall {L : Libm f64} (s : Spinor f64) (x : f64) plane, on_axis TSpin s 0 x -> fin x = true -> axis_plane plane ->
  bpow radix2 (-52) < - b2r x <= bpow radix2 511 -> logG2 s plane = mkSpin (Sca (mlog (Bopp x))) (scale TBiv c_turnHalf plane).
Proof. intros L s x plane A F P H. rewrite (log_negative s x A F plane H), (plane_direction plane P). reflexivity. Qed.
Lemma sqrt_lost : forall (L : Libm f64) (s : Spinor f64) (x : f64) plane, on_axis TSpin s 0 x -> valid_number x -> 0 < Rabs (b2r x) < bpow radix2 (-50) ->
  ceq (exactly TSpin (sqrtG2 s plane)) czero /\ ~ ceq (exactly TSpin s) czero.
Proof.
  intros L s x plane A V [H1 H2]. pose proof V as [F _]. rewrite (sqrt_small s x A F plane V H2). split.
  - intros k. unfold exactly, czero. dblade k; cbv -[Rplus Rmult Ropp R0 IZR]; ring.
  - intros h. specialize (h bS). destruct (axis_first s x A) as (E & _). change (b2r (sca_0 (spinSca s)) = 0) in h. rewrite E in h. rewrite h, Rabs_R0 in H1. lra.
Qed.
Lemma one_axis : on_axis TSpin (one TSpin) 0 (none_ : f64).
Proof.
  split; [reflexivity|]. intros [|[|[|[|j]]]] w Hj E; try congruence; cbn in E; try (destruct j; discriminate E); inversion E; split; reflexivity.
Qed.
Lemma minus_axis : on_axis TSpin (neg TSpin (one TSpin)) 0 (Bopp (none_ : f64)).
Proof.
  split; [reflexivity|]. intros [|[|[|[|j]]]] w Hj E; try congruence; cbn in E; try (destruct j; discriminate E); inversion E; split; reflexivity.
Qed.
Lemma one_lit : Bopp (Bopp (none_ : f64)) = none_.
Proof. apply Bopp_involutive. Qed.
Lemma half_of_zero : Bmult mode_NE (f64_lit 1 (-1)) (nzero : f64) = nzero.
Proof. reflexivity. Qed.
Lemma unit_plane : forall p, axis_plane p -> scale TBiv (none_ : f64) p = p.
Proof. intros p [E|[E|E]]; subst p; apply biv_ext; vm_compute; reflexivity. Qed.
Lemma sqrt_units : forall (L : Libm f64) (plane : BiVector f64), mlog (none_ : f64) = nzero -> mexp (nzero : f64) = none_ ->
  sqrtG2 (one TSpin) plane = one TSpin /\
  (axis_plane plane -> is_finite (mcos (c_piHalf : f64)) = true -> msin (c_piHalf : f64) = none_ -> sqrtG2 (neg TSpin (one TSpin)) plane = mkSpin (Sca (mcos c_piHalf)) plane).
Proof.
  intros L plane HL HE. destruct one_ok as [F1 E1]. pose proof (bpow_gt_0 radix2 (-50)).
  assert (B : bpow radix2 (-50) <= 1 <= bpow radix2 511) by (split; [change 1 with (bpow radix2 0); apply bpow_le; lia|change 1 with (bpow radix2 0); apply bpow_le; lia]).
  split.
  - assert (Q : mexp (Bmult mode_NE (f64_lit 1 (-1)) (mlog (none_ : f64))) = none_) by (rewrite HL, half_of_zero; exact HE).
    pose proof (sqrt_positive (one TSpin) none_ plane one_axis F1) as K. cbv zeta in K. rewrite Q in K. apply K; [rewrite E1; exact B|exact F1|reflexivity].
  - intros P Fc HS. assert (Q : mexp (Bmult mode_NE (f64_lit 1 (-1)) (mlog (Bopp (Bopp (none_ : f64))))) = none_) 
      by exact (eq_trans (f_equal (fun z => mexp (Bmult mode_NE (f64_lit 1 (-1)) (mlog z))) one_lit) (eq_trans (f_equal (fun z => mexp (Bmult mode_NE (f64_lit 1 (-1)) z)) HL) HE)).
    pose proof (sqrt_negative (neg TSpin (one TSpin)) (Bopp (none_ : f64)) plane minus_axis) as K. cbv zeta in K. rewrite Q in K.
    rewrite K; [|rewrite is_finite_Bopp; exact F1|exact P|rewrite B2R_Bopp, E1, Ropp_involutive; exact B].
    rewrite HS, bmult_comm. 
    exact (f_equal2 (@mkSpin f64) (f_equal (@Sca f64) (times_one _ Fc)) (eq_trans (f_equal (scale TBiv (none_ : f64)) (unit_plane plane P)) (unit_plane plane P))).
Qed.
Lemma log_scalar : forall (L : Libm f64) (s : Spinor f64) (x : f64) (plane : BiVector f64),
  on_axis TSpin s 0 x -> fin x = true ->
  (bpow radix2 (-52) < b2r x <= bpow radix2 511 -> logG2 s plane = mkSpin (Sca (mlog x)) zero_Biv) /\
  (bpow radix2 (-52) < - b2r x <= bpow radix2 511 -> axis_plane plane ->
     logG2 s plane = mkSpin (Sca (mlog (Bopp x))) (scale TBiv c_turnHalf plane)) /\
  (Rabs (b2r x) <= bpow radix2 (-52) -> logG2 s plane = null_Spin).
Proof.
  intros L s x plane A F. split; [|split].
  - exact (log_positive s x A F plane).
  - intros H P. exact (log_negative_plane s x plane A F P H).
  - exact (log_small s x A F plane).
Qed.
Lemma sqrt_scalar : forall (L : Libm f64) (s : Spinor f64) (x : f64) (plane : BiVector f64),
  on_axis TSpin s 0 x -> fin x = true ->
  let root y := mexp (Bmult mode_NE (f64_lit 1 (-1)) (mlog y)) in
  (bpow radix2 (-50) <= b2r x <= bpow radix2 511 -> fin (root x) = true -> Bsign (root x) = false ->
     sqrtG2 s plane = mkSpin (Sca (root x)) zero_Biv) /\
  (bpow radix2 (-50) <= - b2r x <= bpow radix2 511 -> axis_plane plane ->
     sqrtG2 s plane = mkSpin (Sca (Bmult mode_NE (root (Bopp x)) (mcos c_piHalf)))
       (scale TBiv (root (Bopp x)) (scale TBiv (msin c_piHalf) plane))).
Proof.
  intros L s x plane A F root. split.
  - exact (sqrt_positive s x plane A F).
  - intros H P. exact (sqrt_negative s x plane A F P H).
Qed.
Definition scal_case : Spinor f64 := mkSpin (Sca (f64_lit (-49) 0)) (Biv (f64_lit 0 0) (Bopp (f64_lit 0 0)) (f64_lit 0 0)).
Definition scal_small : Spinor f64 := mkSpin (Sca (f64_lit 1 (-51))) (Biv (f64_lit 0 0) (f64_lit 0 0) (f64_lit 0 0)).
Lemma scal_case_ok : on_axis TSpin scal_case 0 (f64_lit (-49) 0) /\ bpow radix2 (-50) <= - b2r (f64_lit (-49) 0) <= bpow radix2 511.
Proof.
  destruct (lit_of 0 0 ltac:(lia) ltac:(lia)) as [F0 E0]. split.
  - split; [reflexivity|]. intros [|[|[|[|j]]]] w Hj E; try congruence; cbn in E; try (destruct j; discriminate E); inversion E; split; try reflexivity; rewrite ?B2R_Bopp, ?E0; lra.
  - destruct (lit_of (-49) 0 ltac:(lia) ltac:(lia)) as [_ W]. rewrite W. change (bpow radix2 0) with 1.
    assert (bpow radix2 (-50) <= bpow radix2 0) by (apply bpow_le; lia). assert (bpow radix2 6 <= bpow radix2 511) by (apply bpow_le; lia).
    change (bpow radix2 0) with 1 in *. change (bpow radix2 6) with 64 in *. lra.
Qed.
Lemma scal_small_ok : on_axis TSpin scal_small 0 (f64_lit 1 (-51)) /\ valid_number (f64_lit 1 (-51)) /\ 0 < Rabs (b2r (f64_lit 1 (-51))) < bpow radix2 (-50).
Proof.
  destruct (lit_of 0 0 ltac:(lia) ltac:(lia)) as [F0 E0]. destruct (lit_of 1 (-51) ltac:(lia) ltac:(lia)) as [F1 E1]. rewrite Rmult_1_l in E1. split; [|split].
  - split; [reflexivity|]. intros [|[|[|[|j]]]] w Hj E; try congruence; cbn in E; try (destruct j; discriminate E); inversion E; split; try reflexivity; rewrite ?B2R_Bopp, ?E0; lra.
  - split; [exact F1|]. right. rewrite E1, Rabs_pos_eq by apply bpow_ge_0. apply bpow_le; lia.
  - rewrite E1, Rabs_pos_eq by apply bpow_ge_0. split; [apply bpow_gt_0|apply bpow_lt; lia].
Qed.
