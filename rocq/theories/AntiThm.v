(** * exp(MultiVector) is the exponential of Cl(0,3) (proofs only). *)

Require Import Reals Lra Lia List Bool.
From Flocq Require Import Core.
From Coquelicot Require Import Coquelicot.
Require Import Verif.Num Verif.Types Verif.Priv Verif.OpsMul Verif.Func Verif.SpecCl Verif.SpecExp
  Verif.SpecFunc Verif.SpecAnti Verif.RealInst Verif.AlgTac Verif.AlgMul Verif.AlgFacts Verif.AlgSpec Verif.AlgThm
  Verif.FuncFacts Verif.ExpFacts Verif.ExpThm Verif.LogThm.
Import ListNotations.
Local Open Scope R_scope.

(** ** The product *)
Ltac aring := cbv -[Rplus Rminus Rmult Ropp R R0 R1 IZR]; ring.
Lemma ap_assoc a b c : ceq (ap (ap a b) c) (ap a (ap b c)).
Proof. intro k; dblade k; aring. Qed.
Lemma ap_one_l a : ceq (ap cone a) a.
Proof. intro k; dblade k; aring. Qed.
Lemma ap_one_r a : ceq (ap a cone) a.
Proof. intro k; dblade k; aring. Qed.
Lemma ap_squares : ceq (ap (cbasis bE1) (cbasis bE1)) (copp cone) /\
  ceq (ap (cbasis bE2) (cbasis bE2)) (copp cone) /\ ceq (ap (cbasis bE3) (cbasis bE3)) (copp cone).
Proof. repeat split; intro k; dblade k; aring. Qed.
Lemma ap_swap : ceq (ap (cbasis bE2) (cbasis bE1)) (copp (ap (cbasis bE1) (cbasis bE2))) /\
  ceq (ap (cbasis bE3) (cbasis bE1)) (copp (ap (cbasis bE1) (cbasis bE3))) /\
  ceq (ap (cbasis bE3) (cbasis bE2)) (copp (ap (cbasis bE2) (cbasis bE3))).
Proof. repeat split; intro k; dblade k; aring. Qed.
Lemma ap_blades : ceq (cbasis bE12) (ap (cbasis bE1) (cbasis bE2)) /\
  ceq (cbasis bE13) (ap (cbasis bE1) (cbasis bE3)) /\ ceq (cbasis bE23) (ap (cbasis bE2) (cbasis bE3)) /\
  ceq (cbasis bE123) (ap (ap (cbasis bE1) (cbasis bE2)) (cbasis bE3)).
Proof. repeat split; intro k; dblade k; aring. Qed.
Lemma ap_add_l a b c : ceq (ap (cadd a b) c) (cadd (ap a c) (ap b c)).
Proof. intro k; dblade k; aring. Qed.
Lemma ap_add_r a b c : ceq (ap c (cadd a b)) (cadd (ap c a) (ap c b)).
Proof. intro k; dblade k; aring. Qed.
Lemma ap_scale r a b : ceq (ap (cscale r a) b) (cscale r (ap a b)) /\ ceq (ap a (cscale r b)) (cscale r (ap a b)).
Proof. split; intro k; dblade k; aring. Qed.
Lemma ap_algebra :
  (forall a b c : clf, ceq (ap (ap a b) c) (ap a (ap b c))) /\
  (forall a : clf, ceq (ap cone a) a /\ ceq (ap a cone) a) /\
  (forall a b c : clf, ceq (ap (cadd a b) c) (cadd (ap a c) (ap b c)) /\
     ceq (ap c (cadd a b)) (cadd (ap c a) (ap c b))) /\
  (forall (r : R) (a b : clf),
     ceq (ap (cscale r a) b) (cscale r (ap a b)) /\ ceq (ap a (cscale r b)) (cscale r (ap a b))) /\
  (ceq (ap (cbasis bE1) (cbasis bE1)) (copp cone) /\
   ceq (ap (cbasis bE2) (cbasis bE2)) (copp cone) /\ ceq (ap (cbasis bE3) (cbasis bE3)) (copp cone)) /\
  (ceq (ap (cbasis bE2) (cbasis bE1)) (copp (ap (cbasis bE1) (cbasis bE2))) /\
   ceq (ap (cbasis bE3) (cbasis bE1)) (copp (ap (cbasis bE1) (cbasis bE3))) /\
   ceq (ap (cbasis bE3) (cbasis bE2)) (copp (ap (cbasis bE2) (cbasis bE3)))) /\
  (ceq (cbasis bE12) (ap (cbasis bE1) (cbasis bE2)) /\
   ceq (cbasis bE13) (ap (cbasis bE1) (cbasis bE3)) /\ ceq (cbasis bE23) (ap (cbasis bE2) (cbasis bE3)) /\
   ceq (cbasis bE123) (ap (ap (cbasis bE1) (cbasis bE2)) (cbasis bE3))).
Proof.
  split; [exact ap_assoc|]. split; [intro a; split; [apply ap_one_l | apply ap_one_r]|].
  split; [intros a b c; split; [apply ap_add_l | apply ap_add_r]|]. split; [exact ap_scale|].
  split; [exact ap_squares|]. split; [exact ap_swap | exact ap_blades].
Qed.

(** ** Powers of [s + v] where [v * v = - q] *)
Fixpoint pw (s q : R) (n : nat) : R * R :=
  match n with
  | O => (1, 0)
  | S n' => let '(x, y) := pw s q n' in (s * x - q * y, s * y + x)
  end.
Lemma pw_step s q n : pw s q (S n) = (s * fst (pw s q n) - q * snd (pw s q n), s * snd (pw s q n) + fst (pw s q n)).
Proof. cbn [pw]; destruct (pw s q n); reflexivity. Qed.

Lemma cpow_pw s q a : ceq (gp a a) (cscale (- q) cone) -> forall n,
  ceq (cpow (cadd (cscale s cone) a) n) (cadd (cscale (fst (pw s q n)) cone) (cscale (snd (pw s q n)) a)).
Proof.
  intros Ha n; induction n as [|n IH].
  - intro k; unfold cadd, cscale; cbn; ring.
  - cbn [cpow]. rewrite pw_step; cbn [fst snd].
    etransitivity; [apply gp_ceq; [reflexivity | exact IH]|].
    rewrite gp_add_l, !gp_add_r, !gp_scale_l, !gp_scale_r, Ha, !gp_one_l, gp_one_r.
    intro k; unfold cadd, cscale; ring.
Qed.

Lemma pw_series s m : is_series (fun n => fst (pw s (m * m) n) / INR (fact n)) (exp s * cos m) /\
  is_series (fun n => snd (pw s (m * m) n) / INR (fact n)) (exp s * sinc m).
Proof.
  (* an element with a non-zero coefficient of e12 and square -m^2 *)
  assert (H : exists a : clf, ceq (gp a a) (cscale (- (m * m)) cone) /\ a bE12 <> 0 /\ a bS = 0).
  { destruct (Req_EM_T m 0) as [->|Hm].
    - exists (den8 0 1 0 0 0 0 1 0); repeat split; try (cbn; lra).
      intro k; dblade k; aring.
    - exists (den8 0 0 0 0 0 0 m 0); repeat split; try (cbn; lra).
      intro k; dblade k; aring. }
  destruct H as (a & Ha & H12 & HS).
  assert (Hc : ceq (gp (cscale s cone) a) (gp a (cscale s cone)))
    by (rewrite gp_scalar_l, gp_scale_r, gp_one_r; reflexivity).
  pose proof (cexp_add _ _ Hc _ _ (cexp_scalar s) (cexp_square a m Ha)) as E.
  assert (G : forall k, gp (cscale (exp s) cone) (cadd (cscale (cos m) cone) (cscale (sinc m) a)) k
     = exp s * (cos m * cone k + sinc m * a k)).
  { intro k; rewrite (gp_scalar_l _ _ k); reflexivity. }
  split.
  - pose proof (E bS) as h; rewrite G, HS in h.
    replace (exp s * (cos m * cone bS + sinc m * 0)) with (exp s * cos m) in h by (cbn; ring).
    apply (Rseries_ext _ _ _) with (2 := h); intro n.
    rewrite (cpow_pw s (m * m) a Ha n bS); unfold cadd, cscale; rewrite HS; cbn; unfold Rdiv; ring.
  - pose proof (E bE12) as h; rewrite G in h.
    apply (is_series_scal (/ a bE12)) in h.
    match type of h with is_series _ ?l => replace l with (exp s * sinc m) in h end.
    2:{ unfold scal; cbn; unfold mult; cbn; field; exact H12. }
    apply (Rseries_ext _ _ _) with (2 := h); intro n.
    rewrite (cpow_pw s (m * m) a Ha n bE12); unfold scal; cbn; unfold mult, cadd, cscale; cbn.
    field; split; [apply INR_fact_neq_0 | exact H12].
Qed.

(** ** Powers in Cl(0,3): two copies of the quaternions *)
Lemma apow_split s x y z p q r t n :
  let u := s + t in let w := s - t in
  let x1 := x - p in let x2 := y - q in let x3 := z - r in
  let y1 := x + p in let y2 := y + q in let y3 := z + r in
  let F := pw u (x1 * x1 + x2 * x2 + x3 * x3) n in
  let G := pw w (y1 * y1 + y2 * y2 + y3 * y3) n in
  ceq (apow (den8 s x y z p q r t) n)
    (den8 ((fst F + fst G) / 2)
       ((x1 * snd F + y1 * snd G) / 2) ((x2 * snd F + y2 * snd G) / 2) ((x3 * snd F + y3 * snd G) / 2)
       ((y1 * snd G - x1 * snd F) / 2) ((y2 * snd G - x2 * snd F) / 2) ((y3 * snd G - x3 * snd F) / 2)
       ((fst F - fst G) / 2)).
Proof.
  intros u w x1 x2 x3 y1 y2 y3; induction n as [|n IH]; intros F G.
  - unfold F, G; cbn [pw fst snd apow]; intro k; dblade k; cbn; field.
  - unfold F, G; rewrite !pw_step; cbn [fst snd apow].
    cbv zeta in IH.
    revert IH.
    generalize (pw u (x1 * x1 + x2 * x2 + x3 * x3) n) (pw w (y1 * y1 + y2 * y2 + y3 * y3) n).
    intros [f f'] [g g'] IH; cbn [fst snd] in *.
    intro k. unfold ap, rsum, all_blades; cbn [map fold_right]; rewrite !IH.
    unfold u, w, x1, x2, x3, y1, y2, y3.
    dblade k; cbv -[Rplus Rminus Rmult Ropp Rdiv Rinv R R0 R1 IZR]; field.
Qed.

Lemma cnorm_vec v : cnorm (den TVec v) = sqrt (vec_0 v * vec_0 v + vec_1 v * vec_1 v + vec_2 v * vec_2 v).
Proof. unfold cnorm; f_equal; dvals; dring. Qed.

Definition aexp (f g : R) (M : MultiVector R) : clf :=
  let a := cnorm (den TVec (part_minus M)) in let b := cnorm (den TVec (part_plus M)) in
  let s := sca_0 (mvSca M) in let t := tri_0 (mvTri M) in
  let p := exp (s + t) in let n := exp (s - t) in
  let x := part_minus M in let y := part_plus M in
  den8 ((p * cos a + n * cos b) / 2)
    ((vec_0 x * (p * f) + vec_0 y * (n * g)) / 2) ((vec_1 x * (p * f) + vec_1 y * (n * g)) / 2)
    ((vec_2 x * (p * f) + vec_2 y * (n * g)) / 2)
    ((vec_0 y * (n * g) - vec_0 x * (p * f)) / 2) ((vec_1 y * (n * g) - vec_1 x * (p * f)) / 2)
    ((vec_2 y * (n * g) - vec_2 x * (p * f)) / 2)
    ((p * cos a - n * cos b) / 2).

Lemma Rser_lin2 (u v : nat -> R) (a b c d : R) : is_series u a -> is_series v b ->
  is_series (fun n => c * u n + d * v n) (c * a + d * b).
Proof.
  intros Hu Hv. exact (is_series_plus (fun n => c * u n) (fun n => d * v n) _ _ (is_series_scal c u a Hu) (is_series_scal d v b Hv)).
Qed.
Lemma is_aexp_aexp M :
  is_aexp (den TMvec M) (aexp (sinc (cnorm (den TVec (part_minus M)))) (sinc (cnorm (den TVec (part_plus M)))) M).
Proof.
  destruct M as [[[s]] [[x y z]] [[p q r]] [[t]]].
  set (M := mkMvec _ _ _ _). set (a := cnorm (den TVec (part_minus M))). set (b := cnorm (den TVec (part_plus M))).
  destruct (pw_series (s + t) a) as [F0 F1]; destruct (pw_series (s - t) b) as [G0 G1].
  assert (Ea : a * a = (x - p) * (x - p) + (y - q) * (y - q) + (z - r) * (z - r)).
  { unfold a; rewrite cnorm_sq; dring. }
  assert (Eb : b * b = (x + p) * (x + p) + (y + q) * (y + q) + (z + r) * (z + r)).
  { unfold b; rewrite cnorm_sq; dring. }
  rewrite Ea in F0, F1; rewrite Eb in G0, G1.
  intro k.
  pose proof (fun n => apow_split s x y z p q r t n k) as P; cbv zeta in P.
  assert (C0 : forall (u v : nat -> R) c d la lb l, is_series u la -> is_series v lb -> c * la + d * lb = l ->
    (forall n, apow (den TMvec M) n k / INR (fact n) = c * u n + d * v n) ->
    is_series (fun n => apow (den TMvec M) n k / INR (fact n)) l).
  { intros u v c d la lb l Hu Hv <- E. apply (Rseries_ext (fun n => c * u n + d * v n)); [intros; symmetry; apply E|].
    apply Rser_lin2; assumption. }
  assert (D : forall n, INR (fact n) <> 0) by (intro; apply INR_fact_neq_0).
  unfold aexp; cbv zeta; fold a b.
  change (sca_0 (mvSca M)) with s; change (tri_0 (mvTri M)) with t.
  unfold part_minus, part_plus; cbn [vec_0 vec_1 vec_2].
  dblade k; cbn [den8];
   match goal with
   | |- is_series _ ((_ * cos a + _) / 2) => apply (C0 _ _ (/2) (/2) _ _ _ F0 G0); [field|]
   | |- is_series _ ((_ * cos a - _) / 2) => apply (C0 _ _ (/2) (-/2) _ _ _ F0 G0); [field|]
   | |- is_series _ ((?X * (_ * sinc a) + ?Y * _) / 2) => apply (C0 _ _ (X/2) (Y/2) _ _ _ F1 G1); [field|]
   | |- is_series _ ((?Y * (_ * sinc b) - ?X * _) / 2) => apply (C0 _ _ (-(X/2)) (Y/2) _ _ _ F1 G1); [field|]
   | |- is_series _ (- ((?Y * (_ * sinc b) - ?X * _) / 2)) => apply (C0 _ _ (X/2) (-(Y/2)) _ _ _ F1 G1); [field|]
   end;
   intro n; cbn [den]; cbn [mvSca mvVec mvBiv mvTri M sca_0 vec_0 vec_1 vec_2 biv_0 biv_1 biv_2 tri_0] in *;
   match goal with |- ?L / _ = _ => replace L with (apow (den8 s x y z p q r t) n ltac:(match type of P with forall _, apow _ _ ?kk = _ => exact kk end)) by reflexivity end;
   rewrite P; cbn [den8]; cbn -[Rplus Rminus Rmult Rdiv Ropp pw fact INR]; field; apply D.
Qed.

Lemma Rexp_Mvec_den M : ceq (den TMvec (Rexp_Mvec M))
  (aexp (Rsync (cnorm (den TVec (part_minus M)))) (Rsync (cnorm (den TVec (part_plus M)))) M).
Proof.
  unfold Rexp_Mvec, aexp; rewrite !cnorm_vec.
  destruct M as [[[s]] [[x y z]] [[p q r]] [[t]]].
  cbv zeta. unfold part_minus, part_plus.
  cbn [mvSca mvVec mvBiv mvTri sca_0 vec_0 vec_1 vec_2 biv_0 biv_1 biv_2 tri_0 vecData bivData scaData triData at30 at31 at32].
  replace ((z - r) * (z - r) + (y + - q) * (y + - q) + (x - p) * (x - p))
    with ((x - p) * (x - p) + (y - q) * (y - q) + (z - r) * (z - r)) by ring.
  replace ((z + r) * (z + r) + (y - - q) * (y - - q) + (x + p) * (x + p))
    with ((x + p) * (x + p) + (y + q) * (y + q) + (z + r) * (z + r)) by ring.
  set (a := sqrt _); set (b := sqrt _). clearbody a b.
  assert (E1 : exp (s - t) = exp s * exp (- t)) by apply exp_plus.
  intro k; dblade k; cbv -[Rplus Rminus Rmult Ropp Rdiv Rinv R R0 R1 IZR Rsync cos exp];
    rewrite ?E1, ?exp_plus; field.
Qed.

Lemma exp_Mvec_aexp : forall M : MultiVector R, exists r E,
  exp_Mvec (exact TMvec M) = exact TMvec r /\ is_aexp (den TMvec M) E /\
  (sync_exactly (part_minus M) -> sync_exactly (part_plus M) -> ceq (den TMvec r) E) /\
  cnorm (csub (den TMvec r) E) <=
    exp (sca_0 (mvSca M) + Rabs (tri_0 (mvTri M))) * (2 / 10 ^ 28) * cnorm (den TMvec M).
Proof.
  intros M. exists (Rexp_Mvec M). eexists; split; [apply exp_Mvec_exact|].
  split; [apply is_aexp_aexp|].
  set (a := cnorm (den TVec (part_minus M))). set (b := cnorm (den TVec (part_plus M))).
  assert (Ha0 : 0 <= a) by apply cnorm_nonneg. assert (Hb0 : 0 <= b) by apply cnorm_nonneg.
  split.
  - intros Ha Hb; rewrite Rexp_Mvec_den; fold a b.
    assert (S : forall v, sync_exactly v -> Rsync (cnorm (den TVec v)) = sinc (cnorm (den TVec v))).
    { intros v [h|h]; [rewrite h; apply Rsync_0 | apply Rsync_exact, h]. }
    unfold a, b; rewrite (S _ Ha), (S _ Hb); reflexivity.
  - pose proof (Rsync_error a Ha0) as Ea; pose proof (Rsync_error b Hb0) as Eb.
    set (f := Rsync a - sinc a) in *; set (g := Rsync b - sinc b) in *. set (d := 2 / 10 ^ 28) in *.
    assert (Hd : 0 <= d) by (unfold d; apply Rlt_le, Rdiv_lt_0_compat; [lra | apply pow_lt; lra]).
    set (s := sca_0 (mvSca M)); set (t := tri_0 (mvTri M)).
    set (p := exp (s + t)); set (n := exp (s - t)). set (e := exp (s + Rabs t)).
    assert (Hp : 0 < p <= e).
    { split; [apply exp_pos|]. apply exp_le; pose proof (Rle_abs t); lra. }
    assert (Hn : 0 < n <= e).
    { split; [apply exp_pos|]. apply exp_le; pose proof (Rle_abs (- t)); rewrite Rabs_Ropp in *; lra. }
    set (x := part_minus M); set (y := part_plus M).
    assert (E : cnorm2 (csub (den TMvec (Rexp_Mvec M)) (aexp (sinc a) (sinc b) M)) =
       ((p * f) * (p * f) * (a * a) + (n * g) * (n * g) * (b * b)) / 2).
    { assert (E1 : ceq (csub (den TMvec (Rexp_Mvec M)) (aexp (sinc a) (sinc b) M))
         (den8 0 ((vec_0 x * (p * f) + vec_0 y * (n * g)) / 2) ((vec_1 x * (p * f) + vec_1 y * (n * g)) / 2)
            ((vec_2 x * (p * f) + vec_2 y * (n * g)) / 2)
            ((vec_0 y * (n * g) - vec_0 x * (p * f)) / 2) ((vec_1 y * (n * g) - vec_1 x * (p * f)) / 2)
            ((vec_2 y * (n * g) - vec_2 x * (p * f)) / 2) 0)).
      { intro k; unfold csub; rewrite (Rexp_Mvec_den M k); unfold aexp; cbv zeta; fold a b x y s t p n; unfold f, g.
        dblade k; cbn [den8]; field. }
      rewrite (cnorm2_ceq _ _ E1). unfold a, b; rewrite !cnorm_sq; fold x y.
      clearbody x y p n f g. clear. dvals.
      cbv -[Rplus Rminus Rmult Ropp Rdiv Rinv R R0 R1 IZR]; field. }
    unfold cnorm at 1; rewrite E.
    assert (N : a * a + b * b <= 2 * cnorm2 (den TMvec M)).
    { unfold a, b; rewrite !cnorm_sq; unfold part_minus, part_plus. clear. destruct M as [[[s]] [[x y z]] [[p q r]] [[t]]].
      cbv -[Rplus Rminus Rmult Ropp R R0 R1 IZR Rle]. pose proof (Rle_0_sqr s); pose proof (Rle_0_sqr t); unfold Rsqr in *; lra. }
    assert (Q : forall u h w, 0 < u <= e -> Rabs h <= d -> 0 <= w -> (u * h) * (u * h) * w <= (e * d) * (e * d) * w).
    { intros u h w Hu Hh Hw; apply Rmult_le_compat_r; [exact Hw|].
      apply (Rsqr_le_abs_1 (u * h) (e * d)).
      rewrite !Rabs_mult, (Rabs_pos_eq u), (Rabs_pos_eq e), (Rabs_pos_eq d) by lra.
      apply Rmult_le_compat; try lra. apply Rabs_pos. }
    pose proof (Q p f (a * a) Hp Ea (Rle_0_sqr a)) as Q1; pose proof (Q n g (b * b) Hn Eb (Rle_0_sqr b)) as Q2.
    apply Rle_trans with (sqrt ((e * d) * (e * d) * cnorm2 (den TMvec M))).
    + apply sqrt_le_1_alt. pose proof (Rle_0_sqr (e * d)) as h; unfold Rsqr in h. nra.
    + assert (He : 0 <= e * d) by (apply Rmult_le_pos; lra).
      rewrite sqrt_mult_alt, sqrt_square by (try exact He; apply Rle_0_sqr). fold (cnorm (den TMvec M)). lra.
Qed.
