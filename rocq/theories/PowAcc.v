(** * Powers of spinors on binary64, [exp(t * logG2(s))]: proofs. *)

Require Import Reals ZArith List Bool Lra Lia.
From Flocq Require Import Core Relative BinarySingleNaN.
Require Import Verif.Num Verif.Types Verif.Priv Verif.OpsUni Verif.OpsAdd Verif.OpsSub
  Verif.OpsMul Verif.Const Verif.Validity Verif.Func Verif.SpecCl Verif.RealInst Verif.AlgTac Verif.AlgMul Verif.AlgFacts Verif.SpecFunc
  Verif.FuncFacts Verif.SpecExp Verif.ExpFacts Verif.ExpThm Verif.LogThm Verif.Rel Verif.B64 Verif.B64Facts Verif.SpecValid Verif.ValidFacts
  Verif.SpecRound Verif.ArrErr Verif.IntFacts Verif.ErrFacts Verif.SpecAcc Verif.BoundFacts Verif.AccFacts Verif.NormFacts Verif.ExpAcc Verif.LogAcc Verif.RootAcc Verif.ExtentFacts Verif.SpecPow.
Import ListNotations.
Local Open Scope R_scope.

(** ** Multiples of the bivector part *)
Definition nzero_Biv : BiVector f64 := Biv (B754_zero true) (B754_zero true) (B754_zero true).
Lemma scale_zero : forall t : f64, fin t = true -> scale TBiv t zero_Biv = zero_Biv \/ scale TBiv t zero_Biv = nzero_Biv.
Proof. intros [[|]|[|]| |[|] m e B] F; try discriminate F; first [left; reflexivity|right; reflexivity]. Qed.
Lemma exp_nzero_biv : forall L : Libm f64, exp_Biv nzero_Biv = one TSpin.
Proof.
  intros L. unfold exp_Biv. cbv zeta. change (snd (pairMagDirFrom TBiv nzero_Biv)) with (direction TBiv nzero_Biv).
  assert (A : isValid_Biv nzero_Biv = true) by (vm_compute; reflexivity).
  assert (B : isValid_Biv (direction TBiv nzero_Biv) = false) by (vm_compute; reflexivity).
  rewrite A, B. reflexivity.
Qed.
Lemma nzero_exactly : ceq (exactly TBiv nzero_Biv) (exactly TBiv (zero_Biv : BiVector f64)).
Proof. intros k. unfold exactly. dblade k; cbv -[Rplus Rmult Ropp R0 IZR]; ring. Qed.

Lemma times_biv : forall (t : f64) (x : BiVector f64), fin t = true -> Rabs (b2r t) <= 1 -> all_finite TBiv x -> cnorm (exactly TBiv x) <= 4 ->
  all_finite TBiv (scale TBiv t x) /\
  cnorm (csub (exactly TBiv (scale TBiv t x)) (cscale (b2r t) (exactly TBiv x))) <= u53 * (Rabs (b2r t) * cnorm (exactly TBiv x)) + 3 * eta.
Proof.
  intros t x Ft Ht Fx Hx. apply scale_error; auto. pose proof (Rabs_pos (b2r t)). pose proof (cnorm_nonneg (exactly TBiv x)).
  apply Rle_trans with (bpow radix2 2); [change (bpow radix2 2) with 4; nra|apply bpow_le; lia].
Qed.
Lemma times_ready : forall (t : f64) (x : BiVector f64), fin t = true -> bpow radix2 (-36) <= Rabs (b2r t) <= 1 -> exp_ready x ->
  scale TBiv t x = zero_Biv \/ scale TBiv t x = nzero_Biv \/ exp_domain (scale TBiv t x).
Proof.
  intros t x Ft Ht [->|(F & H & Z)]; [destruct (scale_zero t Ft); auto|right; right].
  destruct (times_biv t x Ft ltac:(lra) F ltac:(lra)) as [G K]. pose proof eta_pos. pose proof u53_pos.
  set (y := exactly TBiv (scale TBiv t x)) in *. set (X := exactly TBiv x) in *.
  pose proof (norm_le_sub y (cscale (b2r t) X)) as A1. pose proof (norm_le_sub (cscale (b2r t) X) y) as A2.
  rewrite (cnorm_ceq (csub (cscale (b2r t) X) y) (cscale (-1) (csub y (cscale (b2r t) X)))) in A2 by (intros k; unfold csub, cscale; ring).
  rewrite !cnorm_scale, (Rabs_left (-1)) in A2 by lra. rewrite cnorm_scale in A1.
  assert (PL : bpow radix2 (-71) <= Rabs (b2r t) * cnorm X).
  { replace (-71)%Z with (-36 + -35)%Z by reflexivity. rewrite bpow_plus. apply Rmult_le_compat; try apply bpow_ge_0; lra. }
  assert (PU : Rabs (b2r t) * cnorm X <= 4).
  { replace 4 with (1 * 4) by ring. apply Rmult_le_compat; try lra; [apply Rabs_pos|apply cnorm_nonneg]. }
  set (m := Rabs (b2r t) * cnorm X) in *.
  assert (Em : eta <= u53 / 1000 * m) by (apply eta_rel; eapply Rle_trans; [apply bpow_le|exact PL]; lia).
  assert (Pm : 0 < m) by (eapply Rlt_le_trans; [apply bpow_gt_0|exact PL]).
  assert (Um : u53 * m <= / 1000 * m) by (apply Rmult_le_compat_r; [lra|rewrite u53_val; lra]).
  assert (Lo : m / 2 <= cnorm y) by lra. assert (Hi : cnorm y <= 5) by lra.
  split; [exact G|]. fold y. split.
  - split.
    + apply Rle_trans with (bpow radix2 (-72)); [apply bpow_le; lia|]. eapply Rle_trans; [|exact Lo].
      replace (-72)%Z with (-1 + -71)%Z by reflexivity. rewrite bpow_plus. change (bpow radix2 (-1)) with (/ 2). lra.
    + apply Rle_trans with (bpow radix2 3); [change (bpow radix2 3) with 8; lra|apply bpow_le; lia].
  - change (biv_0 (scale TBiv t x)) with (Bmult mode_NE t (biv_0 x)).
    assert (F0 : fin (biv_0 x) = true) by (destruct x as [[x1 x2 x3]]; inversion F; assumption).
    destruct (mult_first t (biv_0 x) (-945) ltac:(lia) Ft F0 ltac:(lra)) as [h|h].
    + rewrite <- biv_comp. eapply Rle_trans; [apply comp_le_norm|]. fold X. lra.
    + exact Z.
    + left; exact h.
    + right. replace (-945 - 37)%Z with (-982)%Z in h by reflexivity. split; [eapply Rle_trans; [apply bpow_le|exact h]; lia|].
      eapply Rle_trans; [|exact h]. replace (-982)%Z with (-985 + 3)%Z by reflexivity. rewrite bpow_plus.
      apply Rmult_le_compat; [apply bpow_ge_0|apply cnorm_nonneg|apply bpow_le; lia|change (bpow radix2 3) with 8; lra].
Qed.

(** ** Exponentials of multiples *)
Lemma sca_norm : forall l : f64, cnorm (exactly TSca (Sca l)) = Rabs (b2r l).
Proof.
  intros l. unfold cnorm. replace (cnorm2 (exactly TSca (Sca l))) with (Rsqr (b2r l)); [apply sqrt_Rsqr_abs|].
  unfold Rsqr, exactly, cnorm2. cbv -[B2R Rplus Rmult Ropp R0 IZR]. ring.
Qed.
Lemma times_sca : forall t l : f64, fin t = true -> fin l = true -> Rabs (b2r t) <= 1 -> Rabs (b2r l) <= 500 ->
  fin (Bmult mode_NE t l) = true /\ Rabs (b2r (Bmult mode_NE t l) - b2r t * b2r l) <= u53 * (Rabs (b2r t) * Rabs (b2r l)) + 3 * eta.
Proof.
  intros t l Ft Fl Ht Hl. pose proof (Rabs_pos (b2r t)). pose proof (Rabs_pos (b2r l)).
  destruct (scale_error TSca t (Sca l) Ft) as [G K].
  - unfold all_finite. repeat constructor. exact Fl.
  - rewrite sca_norm. apply Rle_trans with (bpow radix2 9); [change (bpow radix2 9) with 512; nra|apply bpow_le; lia].
  - rewrite sca_norm in K. split; [inversion G; assumption|].
    eapply Rle_trans; [|exact K]. exact (comp_le_norm (csub (exactly TSca (scale TSca t (Sca l))) (cscale (b2r t) (exactly TSca (Sca l)))) bS).
Qed.
Lemma times_lip : forall (t : R) (x y : BiVector f64) EX EY, is_cexp (exactly TBiv x) EX -> is_cexp (cscale t (exactly TBiv y)) EY ->
  cnorm (csub EX EY) <= cnorm (csub (exactly TBiv x) (cscale t (exactly TBiv y))) /\ cnorm EY = 1 /\ rev_scalar EY.
Proof.
  intros t x y EX EY HX HY. set (z := mapv (fun v : f64 => t * b2r v) TBiv y).
  assert (Z : ceq (den TBiv z) (cscale t (exactly TBiv y))).
  { intros k. unfold z, exactly, cscale. destruct y as [[b1 b2 b3]]. dblade k; cbv -[B2R Rmult Rplus Ropp R0 IZR Rinv]; ring. }
  assert (HZ : is_cexp (den TBiv z) EY) by (apply (is_cexp_ceq (cscale t (exactly TBiv y)) _ EY); [symmetry; exact Z|reflexivity|exact HY]).
  assert (Q : ceq EY (cadd (cscale (cos (cnorm (den TBiv z))) cone) (cscale (sinc (cnorm (den TBiv z))) (den TBiv z)))).
  { apply (is_cexp_unique (den TBiv z)); [exact HZ|]. apply cexp_square, biv_sq. }
  split; [|split].
  - eapply Rle_trans; [apply (cexp_lip (mapv (fun v : f64 => b2r v) TBiv x) z EX EY HX HZ)|]. right. apply cnorm_ceq.
    intros k. unfold csub. rewrite (Z k). reflexivity.
  - rewrite (cnorm_ceq _ _ Q). unfold cnorm at 1. rewrite cnorm2_rotor, <- cnorm_sq.
    set (m := cnorm (den TBiv z)). replace (sinc m * sinc m * (m * m)) with ((m * sinc m) * (m * sinc m)) by ring.
    rewrite sinc_mul. pose proof (sin2_cos2 m) as h. unfold Rsqr in h.
    replace (cos m * cos m + sin m * sin m) with 1 by lra. apply sqrt_1.
  - assert (P : ceq EY (den TSpin (mkSpin (Sca (cos (cnorm (den TBiv z)))) (mapv (fun v => sinc (cnorm (den TBiv z)) * v) TBiv z)))).
    { rewrite Q. generalize (cos (cnorm (den TBiv z))) (sinc (cnorm (den TBiv z))). intros c k. clear. destruct z as [[b1 b2 b3]].
      intros i. unfold cadd, cscale, cone. dblade i; cbv -[Rmult Rplus Ropp R0 IZR]; ring. }
    unfold rev_scalar in *. rewrite P. apply (unmixed_rev TSpin). reflexivity.
Qed.
Lemma cexp_times : forall (t : R) (l : f64) (x : BiVector f64) E Eb, is_cexp (cscale t (exactly TSpin (mkSpin (Sca l) x))) E ->
  is_cexp (cscale t (exactly TBiv x)) Eb -> ceq E (cscale (exp (t * b2r l)) Eb).
Proof.
  intros t l x E Eb HE HEb. apply (is_cexp_unique (cscale t (exactly TSpin (mkSpin (Sca l) x)))); [exact HE|].
  apply (is_cexp_ceq (cadd (cscale (t * b2r l) cone) (cscale t (exactly TBiv x))) _ (gp (cscale (exp (t * b2r l)) cone) Eb)).
  - intros k. unfold cscale at 3. rewrite (spin_split l x k). unfold cadd, cscale. ring.
  - apply gp_scalar_l.
  - apply cexp_add; [|apply cexp_scalar | exact HEb].
    rewrite gp_scalar_l, gp_scale_r, gp_one_r. reflexivity.
Qed.
Lemma exp_floor : forall x, Rabs x <= 600 -> bpow radix2 (-960) <= exp x.
Proof.
  intros x H. rewrite <- (Ropp_involutive x), exp_Ropp. change (-960)%Z with (- (960))%Z. rewrite bpow_opp.
  apply Rinv_le_contravar; [apply exp_pos|]. apply exp_bound. rewrite Rabs_Ropp. exact H.
Qed.

Section Library.
Context {L : Libm f64}.

Lemma exp_any_accurate : forall eps, trig_within eps L -> exp_within eps L -> eps <= / 16 -> forall (c : f64) (y : BiVector f64) E,
  y = zero_Biv \/ y = nzero_Biv \/ exp_domain y -> fin c = true -> Rabs (b2r c) <= 600 -> is_cexp (exactly TSpin (mkSpin (Sca c) y)) E ->
  let s := mkSpin (Sca c) y in
  all_finite TSpin (exp_Spin s) /\
  cnorm (csub (exactly TSpin (exp_Spin s)) E) <= exp (b2r c) * (4 * eps + 20 * u53 * (1 + cnorm (exactly TBiv y))) + 3 * eta.
Proof.
  intros eps T Te He c y E [->|[->|D]] Fc Hc HE s.
  - exact (exp_ready_accurate eps T Te He c zero_Biv E (or_introl eq_refl) Fc Hc HE).
  - assert (S : exp_Spin s = exp_Spin (mkSpin (Sca c) zero_Biv)).
    { unfold s, exp_Spin. cbn [spinBiv spinSca]. f_equal. }
    rewrite S. rewrite (cnorm_ceq (exactly TBiv nzero_Biv) _ nzero_exactly). apply (exp_ready_accurate eps T Te He c zero_Biv E (or_introl eq_refl) Fc Hc).
    apply (is_cexp_ceq (exactly TSpin (mkSpin (Sca c) nzero_Biv)) _ E); [|reflexivity|exact HE].
    intros k. rewrite !spin_split. unfold cadd. rewrite (nzero_exactly k). reflexivity.
  - exact (exp_Spin_accurate eps T Te He s E D Fc Hc HE).
Qed.

Lemma power_core : forall eps, trig_within eps L -> exp_within eps L -> 0 <= eps <= bpow radix2 (-40) ->
  forall (l : f64) (x : BiVector f64) (t : f64) E, exp_ready x -> cnorm (exactly TBiv x) <= 315 / 100 -> fin l = true -> Rabs (b2r l) <= 500 ->
  fin t = true -> bpow radix2 (-36) <= Rabs (b2r t) <= 1 -> is_cexp (cscale (b2r t) (exactly TSpin (mkSpin (Sca l) x))) E ->
  let p := exp_Spin (mul_Dub_Spin t (mkSpin (Sca l) x)) in
  cnorm E = exp (b2r t * b2r l) /\ rev_scalar E /\ all_finite TSpin p /\
  cnorm (csub (exactly TSpin p) E) <= cnorm E * (5 * eps + (88 + 11 / 10 * Rabs (b2r l)) * u53).
Proof.
  intros eps T Te [He0 He] l x t E R Nx Fl Hl Ft Ht HE p.
  assert (Fx : all_finite TBiv x).
  { destruct R as [->|(F & _)]; [unfold all_finite; repeat constructor|exact F]. }
  destruct (times_sca t l Ft Fl ltac:(lra) Hl) as [Fc Ec]. destruct (times_biv t x Ft ltac:(lra) Fx ltac:(lra)) as [Fy Ey].
  pose proof (times_ready t x Ft Ht R) as Ry.
  assert (S : mul_Dub_Spin t (mkSpin (Sca l) x) = mkSpin (Sca (Bmult mode_NE t l)) (scale TBiv t x)) by reflexivity.
  unfold p. rewrite S. clear S p. set (c := Bmult mode_NE t l) in *. set (y := scale TBiv t x) in *.
  pose proof u53_pos as Pu. pose proof eta_small as Es. pose proof eta_pos as Pe. pose proof (Rabs_pos (b2r t)) as Pt. pose proof (Rabs_pos (b2r l)) as Pl.
  pose proof (cnorm_nonneg (exactly TBiv x)) as PX. pose proof (cnorm_nonneg (exactly TBiv y)) as PY.
  set (a := Rabs (b2r t)) in *. set (LL := Rabs (b2r l)) in *.
  assert (AL : a * LL <= LL) by nra. assert (AX : a * cnorm (exactly TBiv x) <= 315 / 100) by nra.
  assert (APL : 0 <= a * LL) by nra. assert (APX : 0 <= a * cnorm (exactly TBiv x)) by nra.
  assert (UL : u53 * (a * LL) <= u53 * LL) by (apply Rmult_le_compat_l; lra).
  assert (UX : u53 * (a * cnorm (exactly TBiv x)) <= u53 * (315 / 100)) by (apply Rmult_le_compat_l; lra).
  assert (UL5 : u53 * LL <= u53 * 500) by (apply Rmult_le_compat_l; lra).
  assert (Tl : Rabs (b2r t * b2r l) <= 500) by (rewrite Rabs_mult; fold a LL; lra).
  assert (Lc : Rabs (b2r c) <= 600).
  { replace (b2r c) with ((b2r c - b2r t * b2r l) + b2r t * b2r l) by ring. eapply Rle_trans; [apply Rabs_triang|].
    rewrite u53_val in *. lra. }
  set (w := exp (b2r t * b2r l)). assert (Pw : 0 < w) by apply exp_pos.
  assert (Ew : eta <= u53 / 1000 * w).
  { apply eta_rel. eapply Rle_trans; [|apply exp_floor; lra]. apply bpow_le; lia. }
  set (D := u53 * LL + 3 * eta) in *.
  assert (Dc : Rabs (b2r c - b2r t * b2r l) <= D) by (unfold D; lra).
  assert (HD : D <= / 1000000) by (unfold D; rewrite u53_val in *; lra).
  assert (Xc : exp (b2r c) = w * exp (b2r c - b2r t * b2r l)) by (unfold w; rewrite <- exp_plus; f_equal; ring).
  pose proof (exp_near _ _ Dc ltac:(lra)) as Nc.
  assert (Uc : exp (b2r c) <= w * (1 + / 500000)).
  { rewrite Xc. apply Rmult_le_compat_l; [lra|]. apply Rabs_le_inv in Nc. lra. }
  destruct (cexp_exists (exactly TSpin (mkSpin (Sca c) y))) as [E' HE'].
  destruct (exp_any_accurate eps T Te ltac:(change (bpow radix2 (-40)) with (/ 1099511627776) in He; lra) c y E' Ry Fc Lc HE') as [G K]. cbv zeta in G, K.
  destruct (cexp_exists (exactly TBiv y)) as [Eb' HEb']. pose proof (cexp_spin c y E' Eb' HE' HEb') as QE'. pose proof (cexp_biv_norm y Eb' HEb') as NEb'.
  destruct (cexp_exists (cscale (b2r t) (exactly TBiv x))) as [Fb HFb].
  destruct (times_lip (b2r t) y x Eb' Fb HEb' HFb) as (Lip & NFb & RFb).
  pose proof (cexp_times (b2r t) l x E Fb HE HFb) as QE. fold w in QE.
  assert (NE : cnorm E = w) by (rewrite (cnorm_ceq _ _ QE), cnorm_scale, NFb, Rabs_pos_eq; lra).
  split; [exact NE|]. split.
  { pose proof (rev_scalar_scale w Fb RFb) as Z. unfold rev_scalar in *. rewrite QE. exact Z. }
  split; [exact G|]. rewrite NE.
  assert (Ny : cnorm (exactly TBiv y) <= 316 / 100).
  { pose proof (norm_le_sub (exactly TBiv y) (cscale (b2r t) (exactly TBiv x))) as Z. rewrite cnorm_scale in Z. fold a in Z. rewrite u53_val in *. lra. }
  assert (K1 : exp (b2r c) * (4 * eps + 20 * u53 * (1 + cnorm (exactly TBiv y))) <= w * (1 + / 500000) * (4 * eps + 20 * u53 * (416 / 100))).
  { apply Rmult_le_compat; [left; apply exp_pos| |exact Uc|].
    - assert (0 <= 20 * u53 * (1 + cnorm (exactly TBiv y))) by (apply Rmult_le_pos; lra). lra.
    - assert (20 * u53 * (1 + cnorm (exactly TBiv y)) <= 20 * u53 * (416 / 100)) by (apply Rmult_le_compat_l; lra). lra. }
  assert (K2 : cnorm (csub E' E) <= w * (16 / 15 * D + (u53 * (315 / 100) + 3 * eta))).
  { rewrite (cnorm_ceq _ (cadd (cscale (exp (b2r c) - w) Eb') (cscale w (csub Eb' Fb)))).
    2:{ intros k. unfold csub at 1. rewrite (QE' k), (QE k). unfold cadd, csub, cscale. ring. }
    eapply Rle_trans; [apply cnorm_triangle|]. rewrite !cnorm_scale, NEb', (Rabs_pos_eq w) by lra.
    assert (Z1 : Rabs (exp (b2r c) - w) <= w * (16 / 15 * D)).
    { rewrite Xc. replace (w * exp (b2r c - b2r t * b2r l) - w) with (w * (exp (b2r c - b2r t * b2r l) - 1)) by ring.
      rewrite Rabs_mult, (Rabs_pos_eq w) by lra. apply Rmult_le_compat_l; lra. }
    assert (Z2 : w * cnorm (csub Eb' Fb) <= w * (u53 * (315 / 100) + 3 * eta)) by (apply Rmult_le_compat_l; lra). lra. }
  eapply Rle_trans; [apply (norm_sub_le _ E')|].
  assert (0 <= w * eps) by (apply Rmult_le_pos; lra). assert (WU : 0 < w * u53) by (apply Rmult_lt_0_compat; assumption).
  assert (WE : w * eta <= w * (u53 / 1000000)) by (apply Rmult_le_compat_l; lra).
  assert (WL : 0 <= w * (u53 * LL)) by (apply Rmult_le_pos; [lra|apply Rmult_le_pos; lra]).
  unfold D in K2. eapply Rle_trans; [apply Rplus_le_compat; [eapply Rle_trans; [exact K|apply Rplus_le_compat_r; exact K1]|exact K2]|].
  clear - H WU WE WL Ew. generalize dependent eta. intros eta' Ew WE. generalize dependent LL. intros LL WL. generalize dependent u53. intros u WU Ew WE WL.
  replace (w * (5 * eps + (88 + 11 / 10 * LL) * u)) with (5 * (w * eps) + 88 * (w * u) + 11 / 10 * (w * (u * LL))) by ring.
  replace (w * (1 + / 500000) * (4 * eps + 20 * u * (416 / 100)) + 3 * eta' + w * (16 / 15 * (u * LL + 3 * eta') + (u * (315 / 100) + 3 * eta')))
    with ((1 + / 500000) * 4 * (w * eps) + (1 + / 500000) * (20 * (416 / 100)) * (w * u) + 3 * eta' + 16 / 15 * (w * (u * LL)) + 315 / 100 * (w * u) + (16 / 15 * 3 + 3) * (w * eta')) by field.
  lra.
Qed.
End Library.

(** ** Families of powers *)
Lemma times_add : forall (X : clf) a b A B C, is_cexp (cscale a X) A -> is_cexp (cscale b X) B -> is_cexp (cscale (a + b) X) C -> ceq C (gp A B).
Proof.
  intros X a b A B C HA HB HC. apply (is_cexp_unique (cscale (a + b) X)); [exact HC|].
  apply (is_cexp_ceq (cadd (cscale a X) (cscale b X)) _ (gp A B)).
  - intros k. unfold cadd, cscale. ring.
  - reflexivity.
  - apply cexp_add; [|exact HA|exact HB]. intros k. rewrite !(gp_scale_l _ _ _ k). unfold cscale at 1 3. rewrite !(gp_scale_r _ _ _ k). unfold cscale. ring.
Qed.
Lemma product_error : forall (p q : Spinor f64) A B r, rev_scalar A -> rev_scalar B -> 0 <= r <= / 1000 ->
  cnorm (csub (exactly TSpin p) A) <= cnorm A * r -> cnorm (csub (exactly TSpin q) B) <= cnorm B * r ->
  cnorm (csub (gp (exactly TSpin p) (exactly TSpin q)) (gp A B)) <= cnorm A * cnorm B * (r * (2001 / 1000)).
Proof.
  intros p q A B r RA RB Hr HA HB. set (P := exactly TSpin p) in *. set (Q := exactly TSpin q) in *.
  rewrite (cnorm_ceq _ (cadd (gp (csub P A) Q) (gp A (csub Q B)))).
  2:{ intros k. unfold cadd, csub at 1. rewrite (gp_sub_l P A Q k), (gp_sub_r Q B A k). unfold csub. ring. }
  eapply Rle_trans; [apply cnorm_triangle|]. rewrite (norm_gp_l A) by exact RA.
  rewrite (norm_gp_r _ Q) by (apply (exactly_rev_scalar TSpin); reflexivity).
  pose proof (norm_le_sub Q B) as NQ. pose proof (cnorm_nonneg A) as PA. pose proof (cnorm_nonneg B) as PB.
  assert (Q1 : cnorm Q <= cnorm B * (1 + r)) by lra.
  assert (H1 : cnorm (csub P A) * cnorm Q <= (cnorm A * r) * (cnorm B * (1 + r))) by (apply Rmult_le_compat; try apply cnorm_nonneg; assumption).
  assert (H2 : cnorm A * cnorm (csub Q B) <= cnorm A * (cnorm B * r)) by (apply Rmult_le_compat_l; assumption).
  set (m := cnorm A * cnorm B) in *. assert (Pm : 0 <= m) by (apply Rmult_le_pos; assumption).
  assert (Pmr : 0 <= m * r) by (apply Rmult_le_pos; lra). assert (m * r * r <= m * r * / 1000) by (apply Rmult_le_compat_l; lra).
  replace (cnorm A * r * (cnorm B * (1 + r))) with (m * r + m * r * r) in H1 by (unfold m; ring).
  replace (cnorm A * (cnorm B * r)) with (m * r) in H2 by (unfold m; ring). lra.
Qed.

Section Powers.
Context {L : Libm f64}.

Lemma power_all : forall eps, trig_within eps L -> exp_within eps L -> log_within eps L -> atan2_within eps L ->
  eps <= bpow radix2 (-40) -> forall s plane, root_domain s plane ->
  let S := exactly TSpin s in let N := cnorm S in let err := eps * (4 + 2 * Rabs (ln N)) in
  let X := mapv (fun v : f64 => b2r v) TSpin (logG2 s plane) in let l := sca_0 (spinSca X) in
  0 <= eps /\ Rabs (ln N) <= 480 /\ Rabs (l - ln N) <= eps * (2 + Rabs (ln N)) + 9 * u53 /\
  cnorm (den TBiv (spinBiv X)) <= PI + eps + 64 * u53 /\
  (forall E, is_cexp (den TSpin X) E -> cnorm (csub E S) <= N * (err + bpow radix2 (-22)) /\
    (bpow radix2 (-23) * N <= cnorm (exactly TBiv (spinBiv s)) -> cnorm (csub E S) <= N * (err + 128 * u53))) /\
  (forall t E, exponent t -> is_cexp (cscale (b2r t) (den TSpin X)) E ->
    cnorm E = exp (b2r t * l) /\ rev_scalar E /\ all_finite TSpin (powered s plane t) /\
    cnorm (csub (exactly TSpin (powered s plane t)) E) <= cnorm E * (5 * eps + (90 + 2 * Rabs (ln N)) * u53)).
Proof.
  intros eps T Te TL TA He s plane D S N err X l.
  assert (He0 : 0 <= eps).
  { destruct (cos_within _ _ T (none_ : f64)) as [_ Q]; [apply one_ok|]. eapply Rle_trans; [apply Rabs_pos|exact Q]. }
  assert (He' : eps <= / 8192) by (eapply Rle_trans; [exact He|]; change (bpow radix2 (-40)) with (/ 1099511627776); lra).
  pose proof (log_ready eps TA (conj He0 He) s plane D) as R. destruct D as (D & _ & Fp & Hp & _).
  destruct (cexp_exists (exactly TSpin (logG2 s plane))) as [E1 HE1].
  destruct (log_accurate eps TL TA He' s plane E1 D Fp Hp HE1) as (Fl & Sl & Bl & _). fold S N in Sl.
  change unit_roundoff with u53 in *.
  assert (Hl : l = b2r (sca_0 (spinSca (logG2 s plane)))) by (unfold l, X; destruct (logG2 s plane) as [[[c]] [[x y z]]]; reflexivity).
  assert (Hb : den TBiv (spinBiv X) = exactly TBiv (spinBiv (logG2 s plane))) by (unfold X; destruct (logG2 s plane) as [[[c]] [[x y z]]]; reflexivity).
  assert (HX : den TSpin X = exactly TSpin (logG2 s plane)) by reflexivity.
  rewrite Hl, Hb, HX. clear Hl Hb HX l X.
  pose proof (log_spin s plane D) as SH. assert (D' := D). destruct D as (F & H & _). fold S N in H.
  pose proof (ln_range N H) as RL.
  split; [exact He0|]. split; [lra|]. split; [exact Sl|]. split; [exact Bl|]. split.
  - intros E HE. destruct (log_accurate eps TL TA He' s plane E D' Fp Hp HE) as (_ & _ & _ & A). exact A.
  - intros t E [Ft Ht] HE. unfold powered. set (x := spinBiv (logG2 s plane)) in *.
    rewrite SH in *. clear SH. set (l := mlog (magnitude TSpin s)) in *. cbn [spinSca] in *. change (sca_0 (Sca l)) with l in *.
    destruct (log_scalar eps N (b2r l) (conj He0 He) H Sl) as (Ll & _).
    destruct (spin_parts_finite _ Fl) as [Fl' _]. change (fin l = true) in Fl'.
    pose proof u53_pos as Pu. pose proof PI_upper.
    assert (Bx : cnorm (exactly TBiv x) <= 315 / 100) by (change (bpow radix2 (-40)) with (/ 1099511627776) in He; rewrite u53_val in *; lra).
    destruct (power_core eps T Te (conj He0 He) l x t E R Bx Fl' Ll Ft Ht HE) as (K1 & K2 & K3 & K4). cbv zeta in K3, K4.
    split; [exact K1|]. split; [exact K2|]. split; [exact K3|]. eapply Rle_trans; [exact K4|].
    apply Rmult_le_compat_l; [apply cnorm_nonneg|]. apply Rplus_le_compat_l, Rmult_le_compat_r; [lra|].
    assert (Rabs (b2r l) <= Rabs (ln N) + / 1000000).
    { replace (b2r l) with ((b2r l - ln N) + ln N) by ring. eapply Rle_trans; [apply Rabs_triang|].
      assert (eps * (2 + Rabs (ln N)) <= / 1099511627776 * 482) by (apply Rmult_le_compat; pose proof (Rabs_pos (ln N)); change (bpow radix2 (-40)) with (/ 1099511627776) in He; lra).
      rewrite u53_val in Sl. lra. }
    pose proof (Rabs_pos (ln N)). lra.
Qed.

Lemma powers : forall eps, trig_within eps L -> exp_within eps L -> log_within eps L -> atan2_within eps L ->
  eps <= bpow radix2 (-40) -> forall s plane, root_domain s plane ->
  let S := exactly TSpin s in let N := cnorm S in let err := eps * (4 + 2 * Rabs (ln N)) in
  exists X : Spinor R,
    Rabs (sca_0 (spinSca X) - ln N) <= eps * (2 + Rabs (ln N)) + 9 * unit_roundoff /\
    cnorm (den TBiv (spinBiv X)) <= PI + eps + 64 * unit_roundoff /\
    (forall E, is_cexp (den TSpin X) E -> cnorm (csub E S) <= N * (err + bpow radix2 (-22)) /\
      (bpow radix2 (-23) * N <= cnorm (exactly TBiv (spinBiv s)) -> cnorm (csub E S) <= N * (err + 128 * unit_roundoff))) /\
    (forall t E, exponent t -> is_cexp (cscale (B2R t) (den TSpin X)) E -> all_finite TSpin (powered s plane t) /\
      cnorm (csub (exactly TSpin (powered s plane t)) E) <= cnorm E * (5 * eps + (90 + 2 * Rabs (ln N)) * unit_roundoff)).
Proof.
  intros eps T Te TL TA He s plane D S N err. destruct (power_all eps T Te TL TA He s plane D) as (_ & _ & A & B & C & K).
  exists (mapv (fun v : f64 => b2r v) TSpin (logG2 s plane)). split; [exact A|]. split; [exact B|]. split; [exact C|].
  intros t E Ht HE. destruct (K t E Ht HE) as (_ & _ & K1 & K2). split; assumption.
Qed.

(** The exact family scales by powers of the norm. *)
Lemma scale_near : forall eps N l t, 0 <= eps <= bpow radix2 (-40) -> Rabs (ln N) <= 480 -> Rabs t <= 1 ->
  Rabs (l - ln N) <= eps * (2 + Rabs (ln N)) + 9 * u53 ->
  Rabs (exp (t * l) - Rpower N t) <= Rpower N t * (16 / 15 * (eps * (2 + Rabs (ln N)) + 9 * u53)) /\ exp (t * l) <= Rpower N t * (1 + / 1000000).
Proof.
  intros eps N l t [He0 He] HN Ht Hl. pose proof (Rabs_pos (ln N)) as P. pose proof (Rabs_pos t) as Pt. pose proof (Rabs_pos (l - ln N)).
  set (D := eps * (2 + Rabs (ln N)) + 9 * u53) in *.
  assert (HD : D <= / 2000000).
  { assert (eps * (2 + Rabs (ln N)) <= / 1099511627776 * 482) by (apply Rmult_le_compat; change (bpow radix2 (-40)) with (/ 1099511627776) in He; lra).
    unfold D. rewrite u53_val. lra. }
  assert (Z : Rabs (t * (l - ln N)) <= D) by (rewrite Rabs_mult; nra).
  pose proof (exp_near _ _ Z ltac:(lra)) as K. assert (PW : 0 < Rpower N t) by apply exp_pos.
  assert (X : exp (t * l) = Rpower N t * exp (t * (l - ln N))) by (unfold Rpower; rewrite <- exp_plus; f_equal; ring).
  rewrite X. split.
  - replace (Rpower N t * exp (t * (l - ln N)) - Rpower N t) with (Rpower N t * (exp (t * (l - ln N)) - 1)) by ring.
    rewrite Rabs_mult, (Rabs_pos_eq (Rpower N t)) by lra. apply Rmult_le_compat_l; lra.
  - apply Rmult_le_compat_l; [lra|]. apply Rabs_le_inv in K. lra.
Qed.
Lemma rate_small : forall eps LN, 0 <= eps <= bpow radix2 (-40) -> 0 <= LN <= 480 -> 0 <= 5 * eps + (90 + 2 * LN) * u53 <= / 1000000.
Proof.
  intros eps LN [h1 h2] [h3 h4]. change (bpow radix2 (-40)) with (/ 1099511627776) in h2. rewrite u53_val. lra.
Qed.

Lemma power_norm : forall eps, trig_within eps L -> exp_within eps L -> log_within eps L -> atan2_within eps L ->
  eps <= bpow radix2 (-40) -> forall s plane t, root_domain s plane -> exponent t ->
  let N := cnorm (exactly TSpin s) in
  Rabs (cnorm (exactly TSpin (powered s plane t)) - Rpower N (B2R t)) <=
    Rpower N (B2R t) * (eps * (8 + 2 * Rabs (ln N)) + (110 + 3 * Rabs (ln N)) * unit_roundoff).
Proof.
  intros eps T Te TL TA He s plane t D Ht N. change unit_roundoff with u53.
  destruct (power_all eps T Te TL TA He s plane D) as (He0 & LN & A & _ & _ & K). fold N in LN, A, K.
  set (X := mapv (fun v : f64 => b2r v) TSpin (logG2 s plane)) in *. set (l := sca_0 (spinSca X)) in *.
  destruct (cexp_exists (cscale (b2r t) (den TSpin X))) as [E HE]. destruct (K t E Ht HE) as (NE & _ & _ & Q).
  destruct (scale_near eps N l (b2r t) (conj He0 He) LN (proj2 (proj2 Ht)) A) as [S1 S2].
  pose proof (Rabs_pos (ln N)) as PL. set (ll := Rabs (ln N)) in *. pose proof (rate_small eps ll (conj He0 He) (conj PL LN)) as RS.
  assert (W : Rabs (cnorm (exactly TSpin (powered s plane t)) - cnorm E) <= cnorm (csub (exactly TSpin (powered s plane t)) E)).
  { set (P := exactly TSpin (powered s plane t)). pose proof (norm_le_sub P E) as h1. pose proof (norm_le_sub E P) as h2.
    rewrite (cnorm_ceq (csub E P) (cscale (-1) (csub P E))) in h2 by (intros k; unfold csub, cscale; ring).
    rewrite cnorm_scale, (Rabs_left (-1)) in h2 by lra. apply Rabs_le. lra. }
  rewrite NE in *. set (w := Rpower N (b2r t)) in *. assert (Pw : 0 < w) by apply exp_pos.
  match goal with |- Rabs (?a - _) <= _ => replace (a - w) with ((a - exp (b2r t * l)) + (exp (b2r t * l) - w)) by ring end.
  eapply Rle_trans; [apply Rabs_triang|].
  assert (Z1 : exp (b2r t * l) * (5 * eps + (90 + 2 * ll) * u53) <= w * (1 + / 1000000) * (5 * eps + (90 + 2 * ll) * u53)) by (apply Rmult_le_compat_r; lra).
  eapply Rle_trans; [apply Rplus_le_compat; [eapply Rle_trans; [exact W|eapply Rle_trans; [exact Q|exact Z1]]|exact S1]|].
  pose proof u53_pos as Pu. rewrite Rmult_assoc, <- Rmult_plus_distr_l. apply Rmult_le_compat_l; [lra|].
  assert (0 <= eps * ll) by (apply Rmult_le_pos; lra). assert (0 <= u53 * ll) by (apply Rmult_le_pos; lra). lra.
Qed.

Lemma power_add : forall eps, trig_within eps L -> exp_within eps L -> log_within eps L -> atan2_within eps L ->
  eps <= bpow radix2 (-40) -> forall s plane a b c, root_domain s plane -> exponent a -> exponent b -> exponent c -> B2R c = B2R a + B2R b ->
  let N := cnorm (exactly TSpin s) in
  cnorm (csub (gp (exactly TSpin (powered s plane a)) (exactly TSpin (powered s plane b))) (exactly TSpin (powered s plane c))) <=
    Rpower N (B2R c) * (16 * eps + (280 + 7 * Rabs (ln N)) * unit_roundoff).
Proof.
  intros eps T Te TL TA He s plane a b c D Ha Hb Hc Sum N. change unit_roundoff with u53.
  destruct (power_all eps T Te TL TA He s plane D) as (He0 & LN & A & _ & _ & K). fold N in LN, A, K.
  set (X := mapv (fun v : f64 => b2r v) TSpin (logG2 s plane)) in *. set (l := sca_0 (spinSca X)) in *.
  destruct (cexp_exists (cscale (b2r a) (den TSpin X))) as [Ea HEa]. destruct (K a Ea Ha HEa) as (NEa & Ra & _ & Qa).
  destruct (cexp_exists (cscale (b2r b) (den TSpin X))) as [Eb HEb]. destruct (K b Eb Hb HEb) as (NEb & Rb & _ & Qb).
  destruct (cexp_exists (cscale (b2r c) (den TSpin X))) as [Ec HEc]. destruct (K c Ec Hc HEc) as (NEc & _ & _ & Qc).
  destruct (scale_near eps N l (b2r c) (conj He0 He) LN (proj2 (proj2 Hc)) A) as [_ S2].
  assert (G : ceq Ec (gp Ea Eb)) by (apply (times_add (den TSpin X) (b2r a) (b2r b)); try assumption; rewrite <- Sum; exact HEc).
  pose proof (Rabs_pos (ln N)) as PL. set (ll := Rabs (ln N)) in *. pose proof (rate_small eps ll (conj He0 He) (conj PL LN)) as RS.
  set (r := 5 * eps + (90 + 2 * ll) * u53) in *.
  pose proof (product_error (powered s plane a) (powered s plane b) Ea Eb r Ra Rb ltac:(lra) Qa Qb) as PE.
  assert (NM : cnorm Ea * cnorm Eb = cnorm Ec) by (rewrite (cnorm_ceq _ _ G), norm_gp_l by exact Ra; reflexivity). rewrite NM in PE.
  rewrite (cnorm_ceq _ (csub (gp (exactly TSpin (powered s plane a)) (exactly TSpin (powered s plane b))) Ec)) in PE by (intros k; unfold csub; rewrite (G k); reflexivity).
  assert (QC : cnorm (csub Ec (exactly TSpin (powered s plane c))) <= cnorm Ec * r).
  { rewrite (cnorm_ceq _ (cscale (-1) (csub (exactly TSpin (powered s plane c)) Ec))) by (intros k; unfold csub, cscale; ring).
    rewrite cnorm_scale, (Rabs_left (-1)) by lra. lra. }
  eapply Rle_trans; [apply (norm_sub_le _ Ec)|]. rewrite NEc in *. set (w := Rpower N (b2r c)) in *. assert (Pw : 0 < w) by apply exp_pos.
  assert (Z : exp (b2r c * l) * (r * (3001 / 1000)) <= w * (1 + / 1000000) * (r * (3001 / 1000))) by (apply Rmult_le_compat_r; lra).
  eapply Rle_trans; [apply Rplus_le_compat; [exact PE|exact QC]|]. eapply Rle_trans; [|eapply Rle_trans; [exact Z|]]; [lra|].
  rewrite Rmult_assoc. apply Rmult_le_compat_l; [lra|]. pose proof u53_pos. assert (0 <= u53 * ll) by (apply Rmult_le_pos; lra). unfold r. lra.
Qed.

Lemma power_inverse : forall eps, trig_within eps L -> exp_within eps L -> log_within eps L -> atan2_within eps L ->
  eps <= bpow radix2 (-40) -> forall s plane a b, root_domain s plane -> exponent a -> B2R b = - B2R a -> is_finite b = true ->
  let N := cnorm (exactly TSpin s) in
  cnorm (csub (gp (exactly TSpin (powered s plane a)) (exactly TSpin (powered s plane b))) cone) <=
    11 * eps + (190 + 5 * Rabs (ln N)) * unit_roundoff.
Proof.
  intros eps T Te TL TA He s plane a b D Ha Opp Fb N. change unit_roundoff with u53.
  assert (Hb : exponent b) by (split; [exact Fb|rewrite Opp, Rabs_Ropp; exact (proj2 Ha)]).
  destruct (power_all eps T Te TL TA He s plane D) as (He0 & LN & A & _ & _ & K). fold N in LN, A, K.
  set (X := mapv (fun v : f64 => b2r v) TSpin (logG2 s plane)) in *. set (l := sca_0 (spinSca X)) in *.
  destruct (cexp_exists (cscale (b2r a) (den TSpin X))) as [Ea HEa]. destruct (K a Ea Ha HEa) as (NEa & Ra & _ & Qa).
  destruct (cexp_exists (cscale (b2r b) (den TSpin X))) as [Eb HEb]. destruct (K b Eb Hb HEb) as (NEb & Rb & _ & Qb).
  assert (G : ceq cone (gp Ea Eb)).
  { apply (times_add (den TSpin X) (b2r a) (b2r b)); try assumption. rewrite Opp.
    apply (is_cexp_ceq (cscale 0 cone) _ (cscale (exp 0) cone)); [intros k; unfold cscale; ring|intros k; unfold cscale; rewrite exp_0; ring|apply cexp_scalar]. }
  pose proof (Rabs_pos (ln N)) as PL. set (ll := Rabs (ln N)) in *. pose proof (rate_small eps ll (conj He0 He) (conj PL LN)) as RS.
  set (r := 5 * eps + (90 + 2 * ll) * u53) in *.
  pose proof (product_error (powered s plane a) (powered s plane b) Ea Eb r Ra Rb ltac:(lra) Qa Qb) as PE.
  assert (NM : cnorm Ea * cnorm Eb = 1) by (rewrite <- norm_gp_l, <- (cnorm_ceq _ _ G) by exact Ra; apply cone_norm). rewrite NM in PE.
  rewrite (cnorm_ceq _ (csub (gp (exactly TSpin (powered s plane a)) (exactly TSpin (powered s plane b))) cone)) in PE by (intros k; unfold csub; rewrite (G k); reflexivity).
  eapply Rle_trans; [exact PE|]. pose proof u53_pos. assert (0 <= u53 * ll) by (apply Rmult_le_pos; lra). unfold r. lra.
Qed.
End Powers.

(** Spinors of small angle: every power is a scalar. *)
Lemma times_zero : forall e : f64, B2R (Bmult mode_NE e (nzero : f64)) = 0.
Proof. intros [[|]|[|]| |[|] m x B]; reflexivity. Qed.
Lemma power_vanishes : forall (L : Libm f64) (s : Spinor f64) (plane : BiVector f64) (t : f64), log_domain s -> is_finite t = true ->
  cnorm (exactly TBiv (spinBiv s)) <= bpow radix2 (-31) * cnorm (exactly TSpin s) -> 0 < B2R (sca_0 (spinSca s)) ->
  cnorm (exactly TBiv (spinBiv (powered s plane t))) = 0.
Proof.
  intros L s plane t D Ft H Hc. pose proof (proj1 (log_vanishes s plane D H) Hc) as Z. unfold powered.
  rewrite (log_spin s plane D), Z. set (l := mlog (magnitude TSpin s)).
  change (mul_Dub_Spin t (mkSpin (Sca l) zero_Biv)) with (mkSpin (Sca (Bmult mode_NE t l)) (scale TBiv t (zero_Biv : BiVector f64))).
  assert (E : exp_Biv (scale TBiv t (zero_Biv : BiVector f64)) = one TSpin).
  { destruct (scale_zero t Ft) as [K|K]; rewrite K; [apply exp_zero_biv|apply exp_nzero_biv]. }
  unfold exp_Spin. cbn [spinBiv spinSca]. rewrite E.
  set (e := mexp _).
  assert (C : forall k, exactly TBiv (spinBiv (mul_Dub_Spin e (one TSpin))) k = 0).
  { intros k. pose proof (times_zero e) as TZ.
    dblade k; first [reflexivity|exact TZ|apply Ropp_eq_0_compat; exact TZ]. }
  unfold cnorm. set (z := exactly TBiv (spinBiv (mul_Dub_Spin e (one TSpin)))) in *. replace (cnorm2 z) with 0; [apply sqrt_0|]. unfold cnorm2. cbn [map rsum all_blades].
  cbv [rsum all_blades fold_right map]. rewrite !C. ring.
Qed.

(** ** The case *)
Lemma example_exponents : let half := f64_lit 1 (-1) in let quarter := f64_lit 1 (-2) in let both := f64_lit 3 (-2) in
  exponent half /\ exponent quarter /\ exponent both /\ B2R both = B2R half + B2R quarter /\ exponent (f64_lit (-1) (-2)) /\ B2R (f64_lit (-1) (-2)) = - B2R quarter.
Proof.
  destruct (lit_of 1 (-1) ltac:(lia) ltac:(lia)) as [f1 h1]. destruct (lit_of 1 (-2) ltac:(lia) ltac:(lia)) as [f2 h2].
  destruct (lit_of 3 (-2) ltac:(lia) ltac:(lia)) as [f3 h3]. destruct (lit_of (-1) (-2) ltac:(lia) ltac:(lia)) as [f4 h4].
  change (bpow radix2 (-1)) with (/ 2) in *. change (bpow radix2 (-2)) with (/ 4) in *.
  cbv zeta. unfold exponent. change (bpow radix2 (-36)) with (/ 68719476736).
  assert (A : forall y v : R, y = v -> / 68719476736 <= v <= 1 -> / 68719476736 <= Rabs y <= 1) by (intros y v -> h; rewrite Rabs_pos_eq; lra).
  assert (B : forall y v : R, y = - v -> / 68719476736 <= v <= 1 -> / 68719476736 <= Rabs y <= 1) by (intros y v -> h; rewrite Rabs_Ropp, Rabs_pos_eq; lra).
  split; [split; [exact f1|apply (A _ (/ 2)); [rewrite h1; lra|lra]]|].
  split; [split; [exact f2|apply (A _ (/ 4)); [rewrite h2; lra|lra]]|].
  split; [split; [exact f3|apply (A _ (3 / 4)); [rewrite h3; lra|lra]]|].
  split; [rewrite h1, h2, h3; lra|].
  split; [split; [exact f4|apply (B _ (/ 4)); [rewrite h4; lra|lra]]|rewrite h2, h4; lra].
Qed.
