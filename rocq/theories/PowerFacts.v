(** * Squares, cubes and the state of output streams: proofs. *)

Require Import Reals ZArith List Bool Ascii Lra Lia.
From Flocq Require Import Core BinarySingleNaN.
Require Import Verif.Num Verif.Types Verif.OpsMul Verif.Const Verif.Func Verif.Power Verif.SpecPower Verif.SpecCl Verif.AlgTac Verif.AlgMul Verif.AlgFacts
  Verif.RealInst Verif.SpecFunc Verif.FuncFacts Verif.SpecExp Verif.ExpFacts Verif.FuncThm Verif.ExpThm Verif.B64 Verif.B64Facts Verif.SpecValid Verif.SpecRound
  Verif.ErrFacts Verif.SpecAcc Verif.BoundFacts Verif.AccFacts Verif.NormFacts Verif.Compare Verif.Stream Verif.Io Verif.SpecCompare Verif.SpecText Verif.SpecIo Verif.NumText Verif.OutFacts.
Import ListNotations.
Local Open Scope R_scope.

Lemma power_exact : forall t f g, sq t = Some f -> cube t = Some g -> forall x : val R t,
  ceq (den t (f x)) (gp (den t x) (den t x)) /\ ceq (den t (g x)) (gp (gp (den t x) (den t x)) (den t x)).
Proof.
  intros t f g Hf Hg x. destruct t; cbn in Hf, Hg; inversion Hf; inversion Hg; subst; clear Hf Hg.
  - split; [apply (mul_den TDub TDub)|]. etransitivity; [apply (mul_den TDub TDub (x * x) x)|]. apply gp_ceq; [apply (mul_den TDub TDub)|reflexivity].
  - split; [apply (mul_den TSca TSca)|]. etransitivity; [apply (mul_den TSca TSca _ x)|]. apply gp_ceq; [apply (mul_den TSca TSca)|reflexivity].
  - split; [apply (mul_den TSpin TSpin)|]. etransitivity; [apply (mul_den TSpin TSpin _ x)|]. apply gp_ceq; [apply (mul_den TSpin TSpin)|reflexivity].
  - split; [apply (mul_den TCplx TCplx)|]. etransitivity; [apply (mul_den TCplx TCplx _ x)|]. apply gp_ceq; [apply (mul_den TCplx TCplx)|reflexivity].
  - split; [apply (mul_den TMvec TMvec)|]. etransitivity; [apply (mul_den TMvec TMvec _ x)|]. apply gp_ceq; [apply (mul_den TMvec TMvec)|reflexivity].
Qed.

Lemma power_closed : forall t, ((exists f : val R t -> val R t, sq t = Some f) <-> closed t) /\
  ((exists f : val R t -> val R t, cube t = Some f) <-> closed t).
Proof.
  intros t.
  assert (C : match t with TDub | TSca | TSpin | TCplx | TMvec => closed t | _ => ~ closed t end).
  { destruct t.
    - intros x y. exists (mul TDub TDub x y). apply (mul_den TDub TDub).
    - intros x y. exists (mul TSca TSca x y). apply (mul_den TSca TSca).
    - intros H. destruct (H c_e1 c_e1) as [z E]. specialize (E bS). destruct z as [[a b c]]. cbv -[Rmult Rplus Ropp R0 R1 IZR] in E. lra.
    - intros H. destruct (H c_e12 c_e12) as [z E]. specialize (E bS). destruct z as [[a b c]]. cbv -[Rmult Rplus Ropp R0 R1 IZR] in E. lra.
    - intros H. destruct (H c_e123 c_e123) as [z E]. specialize (E bS). destruct z as [[a]]. cbv -[Rmult Rplus Ropp R0 R1 IZR] in E. lra.
    - intros x y. exists (mul TSpin TSpin x y). apply (mul_den TSpin TSpin).
    - intros H. destruct (H (mkImsp c_e1 zero_Tri) (mkImsp c_e1 zero_Tri)) as [z E]. specialize (E bS).
      destruct z as [[[a b c]] [[d]]]. cbv -[Rmult Rplus Ropp R0 R1 IZR] in E. lra.
    - intros x y. exists (mul TCplx TCplx x y). apply (mul_den TCplx TCplx).
    - intros H. destruct (H (mkDplx c_e1 zero_Biv) (mkDplx c_e1 zero_Biv)) as [z E]. specialize (E bS).
      destruct z as [[[a b c]] [[d e f]]]. cbv -[Rmult Rplus Ropp R0 R1 IZR] in E. lra.
    - intros x y. exists (mul TMvec TMvec x y). apply (mul_den TMvec TMvec). }
  destruct t; cbn; split; split; try (intros _; exact C); try (intros _; eexists; reflexivity);
    try (intros [f Hf]; discriminate); intros K; exfalso; apply C, K.
Qed.

Lemma power_rotor : forall B : BiVector R, nontiny B -> nontiny (scale TBiv 2 B) -> nontiny (scale TBiv 3 B) ->
  exists r, exp_Biv (exact TBiv B) = exact TSpin r /\
    exp_Biv (exact TBiv (scale TBiv 2 B)) = exact TSpin (sq_Spin r) /\
    exp_Biv (exact TBiv (scale TBiv 3 B)) = exact TSpin (cube_Spin r).
Proof.
  intros B N1 N2 N3. assert (E1 : scale TBiv 1 B = B) by (destruct B as [[a b c]]; cbv -[Rmult R1 IZR]; rewrite !Rmult_1_l; reflexivity).
  destruct (exp_Biv_scaled B 1 1) as (r & r' & r2 & A & A' & A2 & E); rewrite ?E1; [assumption|assumption|replace (1 + 1) with 2 by ring; assumption|].
  rewrite E1 in A, A'. assert (r' = r) by (rewrite A in A'; apply (exact_inj TSpin) in A'; congruence). subst r'.
  replace (1 + 1) with 2 in A2 by ring.
  destruct (exp_Biv_scaled B 2 1) as (r2' & r1' & r3 & P2 & P1 & P3 & E3); rewrite ?E1; [assumption|assumption|replace (2 + 1) with 3 by ring; assumption|].
  rewrite E1 in P1. assert (r1' = r) by (rewrite A in P1; apply (exact_inj TSpin) in P1; congruence). subst r1'.
  assert (r2' = r2) by (rewrite A2 in P2; apply (exact_inj TSpin) in P2; congruence). subst r2'.
  replace (2 + 1) with 3 in P3 by ring.
  exists r. split; [exact A|]. split; [rewrite A2, E; reflexivity|rewrite P3, E3, E; reflexivity].
Qed.

Lemma power_error : forall t f g, sq t = Some f -> cube t = Some g -> forall x : val f64 t,
  let X := exactly t x in let N := cnorm X in
  (all_finite t (f x) -> cnorm (csub (exactly t (f x)) (gp X X)) <= 26 * u53 * N ^ 2 + 26 * eta) /\
  (all_finite t (g x) -> cnorm (csub (exactly t (g x)) (gp (gp X X) X)) <= 105 * u53 * N ^ 3 + 53 * eta * (1 + N)).
Proof.
  intros t f g Hf Hg x X N.
  assert (K : forall (m : val f64 t -> val f64 t -> val f64 t),
    (forall a b : val f64 t, all_finite t (m a b) -> all_finite t a /\ cnorm (csub (exactly t (m a b)) (gp (exactly t a) (exactly t b))) <=
       26 * u53 * (cnorm (exactly t a) * cnorm (exactly t b)) + 26 * eta) ->
    (all_finite t (m x x) -> cnorm (csub (exactly t (m x x)) (gp X X)) <= 26 * u53 * N ^ 2 + 26 * eta) /\
    (all_finite t (m (m x x) x) -> cnorm (csub (exactly t (m (m x x) x)) (gp (gp X X) X)) <= 105 * u53 * N ^ 3 + 53 * eta * (1 + N))).
  { intros m H. assert (Q : all_finite t (m x x) -> cnorm (csub (exactly t (m x x)) (gp X X)) <= 26 * u53 * N ^ 2 + 26 * eta).
    { intros G. destruct (H x x G) as [_ E]. fold X N in E. replace (N ^ 2) with (N * N) by ring. exact E. }
    split; [exact Q|]. intros G. destruct (H _ x G) as [G1 E]. specialize (Q G1). fold X N in E.
    set (P := exactly t (m x x)) in *. pose proof u53_pos as Pu. pose proof eta_pos as Pe. assert (PN : 0 <= N) by apply cnorm_nonneg.
    eapply Rle_trans; [apply (norm_sub_le _ (gp P X))|].
    assert (E2 : cnorm (csub (gp P X) (gp (gp X X) X)) <= 2 * cnorm (csub P (gp X X)) * N).
    { rewrite (cnorm_ceq _ (gp (csub P (gp X X)) X)) by (intros k; symmetry; apply gp_sub_l). apply cnorm_gp_le. }
    pose proof (norm_le_sub P (gp X X)) as T. pose proof (cnorm_gp_le X X) as T2. fold N in T2.
    assert (EN : eta * N >= 0) by (apply Rle_ge, Rmult_le_pos; lra).
    assert (UN : 0 <= u53 * N ^ 3) by (apply Rmult_le_pos; [lra|apply pow_le, PN]).
    set (D := cnorm (csub P (gp X X))) in *. assert (PD : 0 <= D) by apply cnorm_nonneg.
    assert (DN : D * N <= (26 * u53 * N ^ 2 + 26 * eta) * N) by (apply Rmult_le_compat_r; lra).
    assert (PB : cnorm P * N <= (2 * N * N + D) * N) by (apply Rmult_le_compat_r; lra).
    assert (UB : u53 * (cnorm P * N) <= u53 * (2 * N ^ 3 + (26 * u53 * N ^ 2 + 26 * eta) * N)) by (apply Rmult_le_compat_l; [lra|]; replace (2 * N ^ 3) with (2 * N * N * N) by ring; lra).
    assert (U1 : u53 * (u53 * N ^ 3) <= / 10000 * (u53 * N ^ 3)) by (apply Rmult_le_compat_r; [exact UN|rewrite u53_val; lra]).
    assert (U2 : u53 * (eta * N) <= / 10000 * (eta * N)) by (apply Rmult_le_compat_r; [lra|rewrite u53_val; lra]).
    replace ((26 * u53 * N ^ 2 + 26 * eta) * N) with (26 * (u53 * N ^ 3) + 26 * (eta * N)) in DN, UB by ring.
    replace (u53 * (2 * N ^ 3 + (26 * (u53 * N ^ 3) + 26 * (eta * N)))) with (2 * (u53 * N ^ 3) + 26 * (u53 * (u53 * N ^ 3)) + 26 * (u53 * (eta * N))) in UB by ring.
    replace (105 * u53 * N ^ 3 + 53 * eta * (1 + N)) with (105 * (u53 * N ^ 3) + 53 * eta + 53 * (eta * N)) by ring.
    replace (26 * u53 * (cnorm P * N)) with (26 * (u53 * (cnorm P * N))) in E by ring. lra. }
  destruct t; cbn in Hf, Hg; inversion Hf; inversion Hg; subst f g; clear Hf Hg.
  - apply (K (mul TDub TDub)). intros a b G. split; [apply (mul_fin_inv TDub TDub a b G)|apply (mul_norm_error TDub TDub a b G)].
  - apply (K (mul TSca TSca)). intros a b G. split; [apply (mul_fin_inv TSca TSca a b G)|apply (mul_norm_error TSca TSca a b G)].
  - apply (K (mul TSpin TSpin)). intros a b G. split; [apply (mul_fin_inv TSpin TSpin a b G)|apply (mul_norm_error TSpin TSpin a b G)].
  - apply (K (mul TCplx TCplx)). intros a b G. split; [apply (mul_fin_inv TCplx TCplx a b G)|apply (mul_norm_error TCplx TCplx a b G)].
  - apply (K (mul TMvec TMvec)). intros a b G. split; [apply (mul_fin_inv TMvec TMvec a b G)|apply (mul_norm_error TMvec TMvec a b G)].
Qed.

(** ** Streams *)
Local Open Scope Z_scope.
Lemma put_format : forall os s, same_format (put_text os s) os /\ os_width (put_text os s) = 0.
Proof. intros os s. repeat split. Qed.
Lemma put_arr_format : forall nn os l fmt, same_format (put_arr nn os l fmt) os /\ os_width (put_arr nn os l fmt) = 0.
Proof. intros. apply put_format. Qed.
Lemma same_format_trans : forall a b c, same_format a b -> same_format b c -> same_format a c.
Proof. intros a b c (A & B & C & D) (A' & B' & C' & D'). repeat split; congruence. Qed.
Lemma insert_state : forall nn t f, insert nn t = Some f -> forall x os, same_format (f x os) os /\ os_width (f x os) = 0.
Proof.
  intros nn t f H x os. destruct t; cbn in H; inversion H; subst f; clear H; repeat split.
Qed.
Lemma insert_text : forall nn t f, insert nn t = Some f -> forall x a b, same_padding a b ->
  exists s, os_out (f x a) = os_out a ++ s /\ os_out (f x b) = os_out b ++ s.
Proof.
  intros nn t f H x a b (W & F & L). eexists. rewrite !(insert_layout nn t f H). split; [reflexivity|].
  assert (P : forall s, padded b s = padded a s) by (intros s; unfold padded; rewrite W, F, L; reflexivity).
  destruct (slices t) as [|p r]; [reflexivity|]. rewrite P. reflexivity.
Qed.
(** Objects one after the other. *)
Lemma insert_twice : forall nn t u f g, insert nn t = Some f -> insert nn u = Some g -> forall x y os, os_width os <= 0 ->
  os_out (g y (f x os)) = os_out os ++ os_out (f x os_new) ++ os_out (g y os_new).
Proof.
  intros nn t u f g Hf Hg x y os W. rewrite !(insert_layout nn u g Hg), !(insert_layout nn t f Hf).
  assert (P : forall o s, os_width o <= 0 -> padded o s = s).
  { intros o s Ho. unfold padded. replace (Z.to_nat (os_width o - Z.of_nat (length s))) with 0%nat by lia. cbn [repeat].
    destruct (os_left o); [apply app_nil_r|reflexivity]. }
  destruct (insert_state nn t f Hf x os) as [_ W'].
  change (os_out os_new) with (@nil ascii). rewrite !app_nil_l, <- app_assoc.
  destruct (slices t), (slices u); rewrite ?(P _ _ W), ?(P (f x os)) by lia; rewrite ?(P os_new) by (cbn; lia); reflexivity.
Qed.
Lemma put_double : forall nn os v fmt, os_width os <= 0 -> os_left os = false -> exists k tok,
  os_out (put_Dub nn os v fmt) = os_out os ++ c_space :: repeat (os_fill os) k ++ tok /\
  shows_fixed nn (Z.to_nat (if to_int (theNumDigFrac fmt) <? 0 then 6 else to_int (theNumDigFrac fmt))) v tok /\
  os_nt (put_Dub nn os v fmt) = fixed_nt /\ os_prec (put_Dub nn os v fmt) = to_int (theNumDigFrac fmt) /\ os_width (put_Dub nn os v fmt) = 0.
Proof.
  intros nn os v fmt W Lf. unfold put_Dub, put_num, prepareFixed. 
  set (o := put_text os [c_space]). destruct (put_plain os [c_space] W) as [O _]. fold o in O.
  assert (LO : os_left o = false) by exact Lf. assert (FO : os_fill o = os_fill os) by reflexivity.
  cbn [os_out put_text set_width set_precision set_notation os_nt os_prec os_width]. unfold padded at 1.
  cbn [os_left os_fill set_width set_precision set_notation]. rewrite LO, FO, O.
  eexists _, _. split; [rewrite <- app_assoc; reflexivity|]. split; [apply shows_fixed_ok|]. repeat split.
Qed.
Lemma put_double_state : forall nn v, ~ same_format (put_Dub nn os_new v fmt_default) os_new.
Proof. intros nn v (A & _). discriminate A. Qed.
Local Open Scope R_scope.
Lemma power_example : exists f g, sq TSpin = Some f /\ cube TSpin = Some g /\
  f (mkSpin (Sca (f64_lit 1 0)) (Biv (f64_lit 2 0) (f64_lit 3 0) (f64_lit 4 0))) =
    mkSpin (Sca (f64_lit (-28) 0)) (Biv (f64_lit 4 0) (f64_lit 6 0) (f64_lit 8 0)) /\
  g (mkSpin (Sca (f64_lit 1 0)) (Biv (f64_lit 2 0) (f64_lit 3 0) (f64_lit 4 0))) =
    mkSpin (Sca (f64_lit (-86) 0)) (Biv (f64_lit (-52) 0) (f64_lit (-78) 0) (f64_lit (-104) 0)).
Proof.
  eexists _, _. split; [reflexivity|]. split; [reflexivity|].
  assert (K : forall a b c d a' b' c' d' : f64, a = a' -> b = b' -> c = c' -> d = d' -> mkSpin (Sca a) (Biv b c d) = mkSpin (Sca a') (Biv b' c' d')) by congruence.
  split; apply K; apply B2SF_inj; vm_compute; reflexivity.
Qed.
Lemma rotor_example : let B := Biv 0 0 1 in nontiny B /\ nontiny (scale TBiv 2 B) /\ nontiny (scale TBiv 3 B).
Proof.
  assert (K : forall k, 1 <= k -> nontiny (Biv 0 0 k)).
  { intros k Hk. right. replace (cnorm (den TBiv (Biv 0 0 k))) with k; [assert (tiny < 1) by (apply (bpow_lt radix2 (-1074) 0); reflexivity); lra|].
    unfold cnorm. replace (cnorm2 (den TBiv (Biv 0 0 k))) with (k * k); [symmetry; apply sqrt_square; lra|].
    cbv -[Rmult Rplus Ropp IZR]. ring. }
  assert (S : forall k, scale TBiv k (Biv 0 0 1) = Biv 0 0 k).
  { intros k. cbv -[Rmult Rplus Ropp IZR]. rewrite !Rmult_0_r, Rmult_1_r. reflexivity. }
  cbv zeta. rewrite !S. repeat split; apply K; lra.
Qed.
