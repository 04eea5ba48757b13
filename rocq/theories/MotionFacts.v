(** * Rates of change of exponentials and of rotated vectors (proofs only). *)

Require Import Reals ZArith Lra Lia List Bool.
Require Import Verif.Num Verif.Types Verif.Priv Verif.OpsUni Verif.OpsAdd Verif.OpsMul Verif.Const Verif.Func
  Verif.SpecCl Verif.SpecFunc Verif.RealInst Verif.AlgTac Verif.AlgMul Verif.AlgFacts Verif.AlgSpec Verif.AlgThm
  Verif.FuncFacts Verif.FuncThm Verif.ExpThm Verif.NearFacts Verif.NearThm Verif.NearMore Verif.SpecGeom Verif.SpecMotion.
Local Open Scope R_scope.

Lemma der_sum : forall (l : list blade) (c : blade -> R) (h : blade -> blade) (f g : R -> clf) (f' g' : clf) t,
  (forall k, derivable_pt_lim (fun u => f u k) t (f' k)) -> (forall k, derivable_pt_lim (fun u => g u k) t (g' k)) ->
  derivable_pt_lim (fun u => rsum (map (fun i => c i * f u i * g u (h i)) l)) t
    (rsum (map (fun i => c i * f' i * g t (h i)) l) + rsum (map (fun i => c i * f t i * g' (h i)) l)).
Proof.
  intros l c h f g f' g' t F G. induction l as [|a l IH]; simpl.
  - rewrite Rplus_0_r. apply derivable_pt_lim_const.
  - replace (_ + _) with ((c a * f' a * g t (h a) + c a * f t a * g' (h a)) + (rsum (map (fun i => c i * f' i * g t (h i)) l) + rsum (map (fun i => c i * f t i * g' (h i)) l))) by (unfold rsum; ring).
    apply (derivable_pt_lim_plus (fun u => c a * f u a * g u (h a)) (fun u => rsum (map (fun i => c i * f u i * g u (h i)) l))); [|exact IH].
    apply (derivable_pt_lim_mult (fun u => c a * f u a) (fun u => g u (h a))); [|apply G].
    apply (derivable_pt_lim_scal (fun u => f u a)). apply F.
Qed.
Lemma der_gp : forall f f' g g', changes_by f f' -> changes_by g g' -> changes_by (fun t => gp (f t) (g t)) (fun t => cadd (gp (f' t) (g t)) (gp (f t) (g' t))).
Proof. intros f f' g g' F G t k. apply (der_sum all_blades (fun i => bsign i (bxor i k)) (fun i => bxor i k) f g (f' t) (g' t) t (F t) (G t)). Qed.
Lemma der_ext : forall f f' g g', (forall t, ceq (f t) (g t)) -> (forall t, ceq (f' t) (g' t)) -> changes_by f f' -> changes_by g g'.
Proof.
  intros f f' g g' E E' D t k. rewrite <- (E' t k). intros eps He. destruct (D t k eps He) as [d Hd]. exists d. intros h Hh Hl. rewrite <- !(E _ k). exact (Hd h Hh Hl).
Qed.
Lemma der_const : forall a, changes_by (fun _ => a) (fun _ => czero).
Proof. intros a t k. apply derivable_pt_lim_const. Qed.
Lemma der_rev : forall f f', changes_by f f' -> changes_by (fun t => crev (f t)) (fun t => crev (f' t)).
Proof. intros f f' D t k. unfold crev. destruct (grade k) as [|[|n]]; try apply D; apply (derivable_pt_lim_opp (fun u => f u k)), D. Qed.
Lemma der_zero : forall f, changes_by f (fun _ => czero) -> forall t, ceq (f t) (f 0).
Proof.
  intros f D t k. destruct (Rtotal_order t 0) as [H|[->|H]]; [|reflexivity|].
  - destruct (MVT_cor2 (fun u => f u k) (fun _ => 0) t 0 H (fun c _ => D c k)) as (c & E & _). lra.
  - destruct (MVT_cor2 (fun u => f u k) (fun _ => 0) 0 t H (fun c _ => D c k)) as (c & E & _). lra.
Qed.
(** ** The exponential *)
Definition spin_at (B : BiVector R) (t : R) : Spinor R :=
  let w := cnorm (den TBiv B) in polar (cos (t * w)) (sin (t * w)) (scale TBiv (/ w) B).
Lemma spin_at_zero : forall B, spin_at B 0 = one TSpin.
Proof. intros B. unfold spin_at, polar. rewrite Rmult_0_l, cos_0, sin_0. apply (den_inj TSpin). intro k. dblade k; dring. Qed.
Lemma scale_norm : forall a (B : BiVector R), cnorm (den TBiv (scale TBiv a B)) = Rabs a * cnorm (den TBiv B).
Proof. intros a B. rewrite (cnorm_ceq _ _ (scale_den TBiv a B)). apply cnorm_scale. Qed.
Lemma spin_at_exp : forall B t, nontiny (scale TBiv t B) -> exp_Biv (exact TBiv (scale TBiv t B)) = exact TSpin (spin_at B t).
Proof.
  intros B t [Z|H].
  - rewrite Z, exp_Biv_zero. f_equal. assert (K : t * cnorm (den TBiv B) = 0).
    { apply (f_equal (fun x => cnorm (den TBiv x))) in Z. rewrite scale_norm in Z. replace (cnorm (den TBiv (zero TBiv))) with 0 in Z by (unfold cnorm; replace (cnorm2 _) with 0 by dring; rewrite sqrt_0; reflexivity).
      apply Rmult_integral in Z. destruct Z as [Z|Z]; [|rewrite Z; ring]. destruct (Req_dec t 0) as [->|N]; [ring|]. apply Rabs_no_R0 in N. contradiction. }
    unfold spin_at, polar. rewrite K, cos_0, sin_0. apply (den_inj TSpin). intro k. dblade k; dring.
  - rewrite exp_Biv_exact. rewrite Rltb_true by exact H. rewrite scale_norm in *. pose proof tiny_pos. pose proof (cnorm_nonneg (den TBiv B)).
    f_equal. unfold rotor, spin_at, polar. set (w := cnorm (den TBiv B)) in *.
    assert (T0 : t <> 0) by (intros ->; rewrite Rabs_R0 in H; lra). assert (W0 : w <> 0) by (intros E; rewrite E in H; lra).
    f_equal; [f_equal|].
    + unfold Rabs. destruct (Rcase_abs t); [replace (- t * w) with (- (t * w)) by ring; apply cos_neg|reflexivity].
    + assert (S : sin (Rabs t * w) / (Rabs t * w) = sin (t * w) / (t * w)).
      { unfold Rabs. destruct (Rcase_abs t); [replace (- t * w) with (- (t * w)) by ring; rewrite sin_neg; field; auto|reflexivity]. }
      apply (den_inj TBiv). rewrite !(scale_den TBiv). intro k. unfold cscale, sinc. destruct (Req_EM_T (Rabs t * w) 0) as [Y|Y]; [rewrite Y in H; lra|]. rewrite ?S.
      transitivity (sin (t * w) / (t * w) * (t * den TBiv B k)); [reflexivity|]. field. auto.
Qed.
Lemma spin_at_den : forall B t, let w := cnorm (den TBiv B) in ceq (den TSpin (spin_at B t)) (cadd (cscale (cos (t * w)) cone) (cscale (sin (t * w) / w) (den TBiv B))).
Proof. intros B t w. unfold spin_at. fold w. unfold polar. generalize (cos (t * w)) (sin (t * w)). intros c s. unfold Rdiv. generalize (/ w). intros i. destruct B as [[? ? ?]]. intro k. dblade k; dring. Qed.
Lemma biv_sq : forall B : BiVector R, ceq (gp (den TBiv B) (den TBiv B)) (cscale (- cnorm2 (den TBiv B)) cone).
Proof. intros [[? ? ?]] k. dblade k; dring. Qed.
Lemma der_lin : forall w t, derivable_pt_lim (fun u => u * w) t w.
Proof. intros w t. pose proof (derivable_pt_lim_mult id (fct_cte w) t 1 0 (derivable_pt_lim_id t) (derivable_pt_lim_const w t)) as H. replace (1 * fct_cte w t + id t * 0) with w in H by (unfold fct_cte, id; ring). exact H. Qed.
Lemma der_spin : forall B, changes_by (fun t => den TSpin (spin_at B t)) (fun t => gp (den TBiv B) (den TSpin (spin_at B t))).
Proof.
  intros B. set (w := cnorm (den TBiv B)).
  apply (der_ext (fun t => cadd (cscale (cos (t * w)) cone) (cscale (sin (t * w) / w) (den TBiv B)))
                 (fun t => cadd (cscale (- sin (t * w) * w) cone) (cscale (cos (t * w) * w / w) (den TBiv B)))).
  - intros t. symmetry. apply spin_at_den.
  - intros t. destruct (Req_dec w 0) as [Z|N].
    + assert (K : ceq (den TBiv B) czero). { assert (Q : cnorm2 (den TBiv B) = 0) by (rewrite <- cnorm_sq; fold w; rewrite Z; ring). rewrite <- magSq_den in Q. apply magSq_zero_iff in Q. rewrite Q. intro k. dblade k; dring. }
      rewrite K. rewrite Z. rewrite Rmult_0_r. intro k. unfold cadd, cscale, czero, gp, rsum. simpl. ring.
    + rewrite spin_at_den. fold w. rewrite gp_add_r, !gp_scale_r, gp_one_r, biv_sq. rewrite <- cnorm_sq. fold w. intro k. unfold cadd, cscale. field. exact N.
  - intros t k. apply (derivable_pt_lim_plus (fun u => cos (u * w) * cone k) (fun u => sin (u * w) / w * den TBiv B k)).
    + pose proof (derivable_pt_lim_comp (fun u => u * w) cos t _ _ (der_lin w t) (derivable_pt_lim_cos _)) as H.
      pose proof (derivable_pt_lim_mult (comp cos (fun u => u * w)) (fct_cte (cone k)) t _ _ H (derivable_pt_lim_const _ t)) as M. unfold cscale.
      replace (- sin (t * w) * w * cone k) with (- sin (t * w) * w * fct_cte (cone k) t + comp cos (fun u => u * w) t * 0) by (unfold fct_cte; ring). exact M.
    + pose proof (derivable_pt_lim_comp (fun u => u * w) sin t _ _ (der_lin w t) (derivable_pt_lim_sin _)) as H.
      pose proof (derivable_pt_lim_mult (comp sin (fun u => u * w)) (fct_cte (/ w)) t _ _ H (derivable_pt_lim_const _ t)) as M.
      pose proof (derivable_pt_lim_mult _ (fct_cte (den TBiv B k)) t _ _ M (derivable_pt_lim_const _ t)) as M2. unfold cscale.
      replace (cos (t * w) * w / w * den TBiv B k) with ((cos (t * w) * w * fct_cte (/ w) t + comp sin (fun u => u * w) t * 0) * fct_cte (den TBiv B k) t + mult_fct (comp sin (fun u => u * w)) (fct_cte (/ w)) t * 0) by (unfold fct_cte, Rdiv; ring). exact M2.
Qed.
Lemma spin_unit : forall B t, ceq (gp (den TSpin (spin_at B t)) (crev (den TSpin (spin_at B t)))) cone /\ ceq (gp (crev (den TSpin (spin_at B t))) (den TSpin (spin_at B t))) cone.
Proof.
  intros B t. assert (Q : cnorm2 (den TSpin (spin_at B t)) = 1).
  { rewrite (cnorm2_ceq _ _ (spin_at_den B t)). set (w := cnorm (den TBiv B)).
    transitivity (cos (t * w) * cos (t * w) + (sin (t * w) / w) * (sin (t * w) / w) * cnorm2 (den TBiv B)); [generalize (cos (t * w)) (sin (t * w) / w); intros; destruct B as [[? ? ?]]; dring|].
    rewrite <- cnorm_sq. fold w. pose proof (sin2_cos2 (t * w)) as P. unfold Rsqr in P. destruct (Req_dec w 0) as [Z|N].
    - rewrite Z, !Rmult_0_r, cos_0. ring.
    - rewrite <- P. field. exact N. }
  revert Q. generalize (spin_at B t). intros [[[a]] [[b c d]]] Q. assert (Q' : a * a + b * b + c * c + d * d = 1) by (rewrite <- Q; dring).
  split; intro k; dblade k; cbv -[Rplus Rminus Rmult Ropp R R0 R1 IZR]; lra.
Qed.
(** ** The motions *)
Lemma spin_motion : forall B, exists s : R -> Spinor R, (forall t, nontiny (scale TBiv t B) -> exp_Biv (exact TBiv (scale TBiv t B)) = exact TSpin (s t)) /\
  changes_by (fun t => den TSpin (s t)) (fun t => den _ (mul TBiv TSpin B (s t))) /\
  (forall v, changes_by (fun t => den TVec (rotate (s t) v)) (fun t => swept B (rotate (s t) v))) /\
  (forall q : R -> Spinor R, changes_by (fun t => den TSpin (q t)) (fun t => den _ (mul TBiv TSpin B (q t))) -> forall t, q t = mul TSpin TSpin (s t) (q 0)) /\
  (forall x : R -> Vector R, changes_by (fun t => den TVec (x t)) (fun t => swept B (x t)) -> forall t, x t = rotate (s t) (x 0)).
Proof.
  intros B. exists (spin_at B). pose proof (der_spin B) as D. pose proof (der_rev _ _ D) as DR.
  assert (RB : ceq (crev (den TBiv B)) (copp (den TBiv B))) by (destruct B as [[? ? ?]]; intro k; dblade k; dring).
  assert (DR' : changes_by (fun t => crev (den TSpin (spin_at B t))) (fun t => copp (gp (crev (den TSpin (spin_at B t))) (den TBiv B)))).
  { revert DR. apply der_ext; intros t; [reflexivity|]. rewrite crev_gp, RB. rewrite !copp_scale, gp_scale_r. reflexivity. }
  assert (S0 : ceq (den TSpin (spin_at B 0)) cone) by (rewrite spin_at_zero; intro k; dblade k; dring).
  assert (R0' : ceq (crev (den TSpin (spin_at B 0))) cone) by (rewrite S0; intro k; dblade k; dring).
  split; [exact (spin_at_exp B)|]. split; [|split; [|split]].
  - revert D. apply der_ext; intros t; [reflexivity|]. symmetry. apply (mul_den TBiv TSpin).
  - intros v. pose proof (der_gp _ _ _ _ (der_gp _ _ _ _ D (der_const (den TVec v))) DR') as M. revert M. apply der_ext; intros t.
    + symmetry. apply rotate_den'.
    + unfold swept. rewrite !rotate_den'. set (s := den TSpin (spin_at B t)). set (x := den TVec v). set (b := den TBiv B).
      assert (Z : ceq (gp s czero) czero) by (intro k; dblade k; dring). rewrite Z. rewrite !copp_scale, gp_scale_r. rewrite <- !gp_assoc. rewrite gp_add_l. intro k. unfold cadd, csub, cscale.
      replace (gp czero (crev s) k) with 0 by (dblade k; dring). ring.
  - intros q Q t. assert (C : changes_by (fun t => gp (crev (den TSpin (spin_at B t))) (den TSpin (q t))) (fun _ => czero)).
    { pose proof (der_gp _ _ _ _ DR' Q) as M. revert M. apply der_ext; intros u; [reflexivity|]. rewrite (mul_den TBiv TSpin), !copp_scale, gp_scale_l, gp_assoc. intro k. unfold cadd, cscale, czero. ring. }
    pose proof (der_zero _ C t) as E. cbv beta in E. rewrite R0', gp_one_l in E. apply (den_inj TSpin). rewrite (mul_den TSpin TSpin), <- E, <- gp_assoc. rewrite (proj1 (spin_unit B t)), gp_one_l. reflexivity.
  - intros x X t. assert (C : changes_by (fun t => gp (gp (crev (den TSpin (spin_at B t))) (den TVec (x t))) (den TSpin (spin_at B t))) (fun _ => czero)).
    { pose proof (der_gp _ _ _ _ (der_gp _ _ _ _ DR' X) D) as M. revert M. apply der_ext; intros u; [reflexivity|]. unfold swept.
      set (s := den TSpin (spin_at B u)). set (y := den TVec (x u)). set (b := den TBiv B). 
      assert (E1 : ceq (csub (gp b y) (gp y b)) (cadd (gp b y) (cscale (-1) (gp y b)))) by (intro k; unfold csub, cadd, cscale; ring).
      rewrite E1, !copp_scale. repeat first [rewrite gp_scale_l|rewrite gp_scale_r|rewrite gp_add_l|rewrite gp_add_r|rewrite gp_assoc]. intro k. unfold cadd, cscale, czero. ring. }
    pose proof (der_zero _ C t) as E. cbv beta in E. rewrite R0', S0, gp_one_l, gp_one_r in E. apply (den_inj TVec). rewrite rotate_den', <- E. 
    rewrite <- !gp_assoc. rewrite (proj1 (spin_unit B t)), gp_one_l, gp_assoc, (proj1 (spin_unit B t)), gp_one_r. reflexivity.
Qed.
Lemma swept_cross : forall B v, ceq (swept B v) (cscale 2 (den TVec (cross v (axis B)))).
Proof. intros [[? ? ?]] [[? ? ?]] k. dblade k; dring. Qed.
Lemma motion_example : nontiny (scale TBiv 1 c_e12) /\ ceq (swept c_e12 c_e1) (cscale (-2) (den TVec (c_e2 : Vector R))).
Proof.
  split; [right|intro k; dblade k; dring]. rewrite scale_norm, Rabs_R1, unit_e12. assert (tiny < 1) by (unfold tiny; change 1 with (Flocq.Core.Raux.bpow Flocq.Core.Zaux.radix2 0); apply Flocq.Core.Raux.bpow_lt; lia). lra.
Qed.
