(** * Amplitude and the inverses through complex numbers on binary64: proofs. *)

Require Import Reals ZArith List Bool Lra Lia.
From Flocq Require Import Core BinarySingleNaN.
Require Import Verif.Num Verif.Types Verif.Priv Verif.OpsUni Verif.OpsAdd Verif.OpsSub
  Verif.OpsMul Verif.Const Verif.Func Verif.SpecCl Verif.SpecFunc Verif.RealInst Verif.AlgTac Verif.AlgMul Verif.AlgFacts Verif.FuncFacts Verif.Rel
  Verif.B64 Verif.B64Facts Verif.SpecRound Verif.ArrErr Verif.IntFacts Verif.SpecAcc Verif.BoundFacts Verif.ErrFacts Verif.AccFacts Verif.NormFacts
  Verif.SpecScale Verif.ScaleFacts Verif.ScaleThm Verif.SpecAmp.
Import ListNotations.
Local Open Scope R_scope.

(** ** Squared amplitude *)
(** The two components, with the doubling left open. *)
Section Amps.
Context {F : Type} {RF : Ring0 F} (dbl : F -> F).
Local Open Scope num_scope.
Definition amps (t : ty) : val F t -> F * F :=
  match t with
  | TDub => fun _ => (0, 0)
  | TSca => fun x => (magSq_Sca x, 0)
  | TVec => fun x => (- magSq_Vec x, 0)
  | TBiv => fun x => (magSq_Biv x, 0)
  | TTri => fun x => (- magSq_Tri x, 0)
  | TSpin => fun x => (magSq_Sca (spinSca x) + magSq_Biv (spinBiv x), 0)
  | TImsp => fun x => (- (magSq_Vec (imspVec x) + magSq_Tri (imspTri x)), 0)
  | TCplx => fun x => (sca_0 (cplxSca x) * sca_0 (cplxSca x) - tri_0 (cplxTri x) * tri_0 (cplxTri x), dbl (sca_0 (cplxSca x)) * tri_0 (cplxTri x))
  | TDplx => fun x => (- (magSq_Vec (dplxVec x) - magSq_Biv (dplxBiv x)), - dbl (prodComm3 (vecData (dplxVec x)) (bivData (dplxBiv x))))
  | TMvec => fun x => (magSq_Sca (mvSca x) - magSq_Vec (mvVec x) - - magSq_Biv (mvBiv x) + - magSq_Tri (mvTri x),
      dbl (sca_0 (mvSca x) * tri_0 (mvTri x) - prodComm3 (vecData (mvVec x)) (bivData (mvBiv x))))
  end.
End Amps.
Definition two64 : f64 := f64_lit 2 0.
Definition dbl64 (v : f64) : f64 := Bmult mode_NE two64 v.
Lemma amps_f64 : forall t f (x : val f64 t), ampSq t = Some f ->
  f x = mkCplx (Sca (fst (@amps f64 Ring0_B dbl64 t x))) (Tri (snd (@amps f64 Ring0_B dbl64 t x))).
Proof. intros t f x E; destruct t; try discriminate E; injection E as <-; reflexivity. Qed.

Section AmpsRel.
Context {F G : Type} {RF : Ring0 F} {RG : Ring0 G} {R : F -> G -> Prop} (HR : ring_rel RF RG R) (df : F -> F) (dg : G -> G)
  (Hd : forall x y, R x y -> R (df x) (dg y)).
Lemma amps_rel : forall t x y, relv R t x y -> R (fst (amps df t x)) (fst (amps dg t y)) /\ R (snd (amps df t x)) (snd (amps dg t y)).
Proof.
  intros t x y H; destruct t; unfold relv in *; dvs; cbv -[nzero none_ nadd nsub nmul nopp] in *; inv2; split;
  repeat first [ assumption | exact (rr_zero _ _ _ HR) | exact (rr_one _ _ _ HR) | apply (rr_add _ _ _ HR)
  | apply (rr_sub _ _ _ HR) | apply (rr_mul _ _ _ HR) | apply (rr_opp _ _ _ HR) | apply Hd].
Qed.
End AmpsRel.
Lemma two_ok : is_finite two64 = true /\ B2R two64 = 2.
Proof. destruct (lit_val 2 0) as (F & V & _); [lia|lia|]. split; [exact F|]. etransitivity; [exact V|]. cbn; ring. Qed.
Lemma dbl_ok : forall v : f64, is_finite (dbl64 v) = true -> is_finite v = true /\ B2R (dbl64 v) = 2 * B2R v.
Proof.
  intros v F. unfold dbl64 in *. pose proof (bmult_fin _ _ F) as (_ & Fv & V). split; [exact Fv|]. rewrite V, (proj2 two_ok).
  apply (nearest_fmt (2 * B2R v)). change 2 with (bpow radix2 1). apply fmt_up; [lia|apply fmt_f64].
Qed.
Definition cdbl (c : cnt) : cnt := match c with Some (n, k) => Some (n, (2 * k)%nat) | None => None end.
Definition tdbl (p : trk) : trk := (2 * tv p, 2 * tm p, cdbl (tc p)).
Lemma errs_dbl : forall (x : f64) p, errs x p -> errs (dbl64 x) (tdbl p).
Proof.
  intros x p [V H]. unfold errs, tdbl in *. cbn [tv tm tc fst snd]. split; [rewrite Rabs_mult, (Rabs_pos_eq 2) by lra; lra|].
  destruct p as [[v m] [[n k]|]]; cbn [tv tm tc fst snd cdbl] in *; [|exact I]. intros F. apply dbl_ok in F. destruct F as [F E]. specialize (H F). rewrite E.
  replace (2 * B2R x - 2 * v) with (2 * (B2R x - v)) by ring. rewrite Rabs_mult, (Rabs_pos_eq 2) by lra. unfold ebound in *.
  replace (INR (2 * k)) with (2 * INR k) by (rewrite mult_INR; cbn; ring). lra.
Qed.
Lemma amps_cnt : forall t, cnt_le 8 8 (fst (@amps cnt Ring0_cnt cdbl t (@constv cnt (Some (0%nat, 0%nat)) t))) = true /\
  cnt_le 8 8 (snd (@amps cnt Ring0_cnt cdbl t (@constv cnt (Some (0%nat, 0%nat)) t))) = true.
Proof. intros t; destruct t; vm_compute; split; reflexivity. Qed.
Definition rdbl (v : R) : R := 2 * v.
Lemma amps_exact : forall t (x : val R t), t <> TDub -> 
  ceq (den TCplx (mkCplx (Sca (fst (@amps R Ring0_R rdbl t x))) (Tri (snd (@amps R Ring0_R rdbl t x))))) (gp (den t x) (cdir (den t x))).
Proof. intros t x N; destruct t; [contradiction|..]; dvals; intro k; dblade k; dring. Qed.
Lemma amps_abs : forall t (x : val f64 t), 
  fst (@amps R Ring0_abs rdbl t (absv t x)) <= cnorm2 (exactly t x) /\ snd (@amps R Ring0_abs rdbl t (absv t x)) <= cnorm2 (exactly t x).
Proof.
  assert (E : forall v, Rabs v * Rabs v = v * v) by (intros v; rewrite <- Rabs_mult; apply Rabs_pos_eq, Rle_0_sqr).
  assert (M : forall a b, 2 * (Rabs a * Rabs b) <= a * a + b * b) by (intros a b; pose proof (E a); pose proof (E b); pose proof (Rle_0_sqr (Rabs a - Rabs b)); unfold Rsqr in *; lra).
  intros t x. unfold exactly, absv. destruct t; dvs; cbv -[B2R Rabs Rplus Rmult Ropp R0 IZR Rle]; rewrite ?E;
  repeat match goal with |- context [Rabs (B2R ?a) * Rabs (B2R ?b)] => lazymatch goal with H : 2 * (Rabs (B2R a) * Rabs (B2R b)) <= _ |- _ => fail | _ => pose proof (M (B2R a) (B2R b)) end end.
  all: repeat match goal with |- context [B2R ?a * B2R ?a] => lazymatch goal with H : 0 <= B2R a * B2R a |- _ => fail | _ => pose proof (Rle_0_sqr (B2R a) : 0 <= B2R a * B2R a) end end.
  all: split; try lra.
  match goal with |- 2 * Rabs ?a * Rabs ?b <= _ => pose proof (M a b); lra end.
Qed.
Definition bT : blade := B true true true.
Lemma ampSq_error : forall t f (x : val f64 t), ampSq t = Some f ->
  let X := exactly t x in
  (is_finite (sca_0 (cplxSca (f x))) = true -> Rabs (B2R (sca_0 (cplxSca (f x))) - gp X (cdir X) bS) <= 9 * u53 * cnorm2 X + 9 * eta) /\
  (is_finite (tri_0 (cplxTri (f x))) = true -> Rabs (B2R (tri_0 (cplxTri (f x))) - gp X (cdir X) bT) <= 9 * u53 * cnorm2 X + 9 * eta).
Proof.
  intros t f x Hf X. rewrite (amps_f64 t f x Hf). cbn [sca_0 cplxSca scaData at0 tri_0 cplxTri triData]. pose proof u53_pos. pose proof eta_pos.
  pose proof (@amps_rel f64 trk Ring0_B Ring0_trk _ errs_rel dbl64 tdbl errs_dbl t _ _ (track_errs t x)) as [E1 E2].
  pose proof (@amps_rel trk cnt Ring0_trk Ring0_cnt _ tc_rel tdbl cdbl ltac:(intros ? ? <-; reflexivity) t _ _ (track_tc t x)) as [C1 C2].
  pose proof (@amps_rel trk R Ring0_trk Ring0_R _ tv_rel tdbl rdbl ltac:(intros ? ? <-; reflexivity) t _ _ (track_tv t x)) as [V1 V2].
  pose proof (@amps_rel trk R Ring0_trk Ring0_abs _ tm_rel tdbl rdbl ltac:(intros ? ? <-; reflexivity) t _ _ (track_tm t x)) as [M1 M2].
  destruct (amps_cnt t) as [K1 K2]. rewrite <- C1 in K1. rewrite <- C2 in K2. destruct (amps_abs t x) as [A1 A2]. rewrite <- M1 in A1. rewrite <- M2 in A2.
  assert (N : t <> TDub) by (intros ->; discriminate Hf).
  pose proof (amps_exact t (exactv t x) N) as D. change (den t (exactv t x)) with X in D.
  assert (D1 : fst (@amps R Ring0_R rdbl t (exactv t x)) = gp X (cdir X) bS) by exact (D bS).
  assert (D2 : snd (@amps R Ring0_R rdbl t (exactv t x)) = gp X (cdir X) bT) by exact (D bT). rewrite <- V1 in D1. rewrite <- V2 in D2. rewrite <- D1, <- D2.
  assert (G : forall (v : f64) p, errs v p -> cnt_le 8 8 (tc p) = true -> tm p <= cnorm2 (exactly t x) -> is_finite v = true -> Rabs (B2R v - tv p) <= 9 * u53 * cnorm2 X + 9 * eta).
  { intros v p [P E] K A F. destruct (tc p) as [[n k]|]; [|discriminate K]. cbn [cnt_le] in K. apply andb_true_iff in K. destruct K as [Ka Kb].
    apply Nat.leb_le in Ka, Kb. specialize (E F). pose proof (Rabs_pos (tv p)). eapply Rle_trans; [exact E|]. eapply Rle_trans; [apply (ebound_mono n 8 k 8); auto; lra|].
    unfold ebound. destruct bound8 as [B8 C8]. apply Rplus_le_compat; [|apply Rmult_le_compat_r; lra].
    eapply Rle_trans; [apply Rmult_le_compat_r; [lra|exact B8]|]. apply Rmult_le_compat_l; [lra|exact A]. }
  split; intros F; apply G; assumption.
Qed.

(** ** No overflow *)
Lemma dbl_bound : forall e (x : f64) p, (-537 <= e <= 510)%Z -> bounded e e true x p ->
  bounded e e true (dbl64 x) (match p with Pr n => Pr (2 * n) | Z0 => Z0 | _ => Bad end).
Proof.
  intros e x p He H T. unfold bounded in *. destruct p; try contradiction T.
  - destruct (H Logic.I) as [F E]. cbn [tbound] in *. apply zero_real in E. pose proof (bmult_ok two64 x (proj1 two_ok) F) as K. rewrite E, Rmult_0_r, round_0, Rabs_R0 in K by apply valid_rnd_N.
    destruct (K (bpow_gt_0 _ _)) as [G E2]. unfold dbl64. rewrite E2, Rabs_R0. split; [exact G|lra].
  - destruct T as (T & T2). assert (T1 : tok e e true (Pr n)) by (split; [lia|exact T2]). destruct (H T1) as [F E]. cbn [tbound] in *.
    assert (T3 : tok e e true (Pr (2 * n))) by (split; assumption).
    destruct (rnd_n e e true (2 * n) (B2R two64 * B2R x) T3) as [K1 K2].
    { rewrite (proj2 two_ok), Rabs_mult, (Rabs_pos_eq 2), mult_INR by lra. cbn [INR]. lra. }
    destruct (bmult_ok two64 x (proj1 two_ok) F K2) as [G E2]. unfold dbl64. rewrite E2. split; assumption.
Qed.
Definition gdbl (p : tag) : tag := match p with Pr n => Pr (2 * n) | Z0 => Z0 | _ => Bad end.
Lemma fin_mult : forall (a b : f64) p q, is_finite a = true -> is_finite b = true -> Rabs (B2R a) <= bpow radix2 p -> Rabs (B2R b) <= bpow radix2 q -> (-1074 <= p + q < 1024)%Z ->
  is_finite (Bmult mode_NE a b) = true /\ Rabs (B2R (Bmult mode_NE a b)) <= bpow radix2 (p + q).
Proof.
  intros a b p q Fa Fb Ha Hb H.
  assert (U : Rabs (B2R a * B2R b) <= bpow radix2 (p + q)) by (rewrite Rabs_mult, bpow_plus; apply Rmult_le_compat; auto; apply Rabs_pos).
  destruct (bmult_ok a b Fa Fb) as [G E]; [apply (rnd_lt _ (p + q)); [lia|exact U]|]. split; [exact G|]. rewrite E. apply rnd_le_format; [apply fmt_bpow; lia|exact U].
Qed.
Lemma ampSq_within : forall e t f (x : val f64 t), ampSq t = Some f -> (-500 <= e <= 500)%Z -> within e t x -> all_finite TCplx (f x).
Proof.
  intros e t f x Hf He W. rewrite (amps_f64 t f x Hf).
  pose proof (@amps_rel f64 tag Ring0_B (Ring0_tag true) _ (bounded_rel e e true ltac:(reflexivity)) dbl64 gdbl (fun v p => dbl_bound e v p ltac:(lia)) t _ _ (within_L1 e e true t x W)) as [H1 H2].
  assert (G : forall (v : f64) p, bounded e e true v p -> prodtag p = true -> is_finite v = true).
  { intros v p B K. pose proof (prod_list e e true [v] [p] ltac:(lia) ltac:(lia) (Forall2_cons _ _ B (Forall2_nil _))) as Q. cbn [forallb] in Q. rewrite K in Q.
    specialize (Q eq_refl). inversion Q as [|? ? [Q1 _] _]; subst. exact Q1. }
  assert (K1 : is_finite (fst (@amps f64 Ring0_B dbl64 t x)) = true) by (eapply G; [exact H1|]; clear; destruct t; vm_compute; reflexivity).
  assert (K2 : is_finite (snd (@amps f64 Ring0_B dbl64 t x)) = true).
  { assert (C : t = TCplx \/ t <> TCplx) by (destruct t; (left; reflexivity) || (right; discriminate)). destruct C as [->|C].
    - clear - W He. dvs. unfold within in W. inversion W as [|? ? [F1 B1] W2]; subst. inversion W2 as [|? ? [F2 B2] _]; subst.
      match goal with |- is_finite (snd (amps _ _ (mkCplx (mkSca (A1 ?s)) (mkTri (A1 ?t))))) = _ => change (is_finite (Bmult mode_NE (dbl64 s) t) = true); set (a := s) in *; set (b := t) in * end.
      destruct (fin_mult two64 a 1 e (proj1 two_ok) F1) as [F3 B3]; [rewrite (proj2 two_ok), Rabs_pos_eq by lra; right; reflexivity|exact B1|lia|].
      apply (fin_mult (dbl64 a) b (1 + e) e); auto; lia.
    - eapply G; [exact H2|]. clear - C. destruct t; try contradiction; vm_compute; reflexivity. }
  unfold all_finite. repeat (apply Forall_cons || apply Forall_nil); assumption.
Qed.

(** ** Complex numbers *)
Lemma zabs_pos z : 0 <= zabs z.
Proof. apply sqrt_pos. Qed.
Lemma zabs_sq z : zabs z * zabs z = fst z * fst z + snd z * snd z.
Proof. apply sqrt_sqrt. nra. Qed.
Lemma zabs_mul z w : zabs (zmul z w) = zabs z * zabs w.
Proof.
  unfold zabs. rewrite <- sqrt_mult by nra. f_equal. unfold zmul. cbn [fst snd]. ring.
Qed.
Lemma zabs_unique z r : 0 <= r -> r * r = fst z * fst z + snd z * snd z -> zabs z = r.
Proof. intros H E. unfold zabs. rewrite <- E. apply sqrt_square, H. Qed.
Definition zadd (z w : R * R) : R * R := (fst z + fst w, snd z + snd w).
Lemma zabs_tri z w : zabs (zadd z w) <= zabs z + zabs w.
Proof.
  pose proof (zabs_pos z) as P1. pose proof (zabs_pos w) as P2. pose proof (zabs_sq z) as Q1. pose proof (zabs_sq w) as Q2.
  rewrite <- (sqrt_square (zabs z + zabs w)) by lra. unfold zabs at 1. apply sqrt_le_1_alt. unfold zadd. cbn [fst snd]. destruct z as [a b], w as [c d]. cbn [fst snd] in *.
  assert (C : a * c + b * d <= zabs (a, b) * zabs (c, d)).
  { apply Rsqr_incr_0_var; [|apply Rmult_le_pos; assumption]. unfold Rsqr.
    replace (zabs (a, b) * zabs (c, d) * (zabs (a, b) * zabs (c, d))) with ((zabs (a, b) * zabs (a, b)) * (zabs (c, d) * zabs (c, d))) by ring.
    rewrite Q1, Q2. pose proof (Rle_0_sqr (a * d - b * c)) as S. unfold Rsqr in S. lra. }
  lra.
Qed.
Lemma zabs_le z B : 0 <= B -> Rabs (fst z) <= B -> Rabs (snd z) <= B -> zabs z <= 17 / 12 * B.
Proof.
  intros HB H1 H2. rewrite <- (sqrt_square (17 / 12 * B)) by lra. apply sqrt_le_1_alt.
  assert (forall v, Rabs v <= B -> v * v <= B * B). { intros v H. rewrite <- (Rabs_pos_eq (v * v)) by nra. rewrite Rabs_mult. apply Rmult_le_compat; auto; apply Rabs_pos. }
  pose proof (H _ H1). pose proof (H _ H2). nra.
Qed.
Lemma zfst_le z : Rabs (fst z) <= zabs z.
Proof. rewrite <- (sqrt_Rsqr_abs (fst z)). apply sqrt_le_1_alt. unfold Rsqr. nra. Qed.
Lemma zsnd_le z : Rabs (snd z) <= zabs z.
Proof. rewrite <- (sqrt_Rsqr_abs (snd z)). apply sqrt_le_1_alt. unfold Rsqr. nra. Qed.
Lemma zabs_sub z w v : zabs (zsub z w) <= zabs (zsub z v) + zabs (zsub v w).
Proof. replace (zsub z w) with (zadd (zsub z v) (zsub v w)); [apply zabs_tri|]. unfold zadd, zsub. cbn [fst snd]. f_equal; ring. Qed.
Lemma zabs_near z w : zabs z <= zabs w + zabs (zsub z w).
Proof. replace z with (zadd w (zsub z w)) at 1; [apply zabs_tri|]. unfold zadd, zsub. destruct z. cbn [fst snd]. f_equal; ring. Qed.
Lemma zabs_swap z w : zabs (zsub z w) = zabs (zsub w z).
Proof. unfold zabs, zsub. cbn [fst snd]. f_equal. ring. Qed.

(** As elements of the algebra. *)
Definition zcl (z : R * R) : clf := den TCplx (mkCplx (Sca (fst z)) (Tri (snd z))).
Lemma zcl_gp z w : ceq (gp (zcl z) (zcl w)) (zcl (zmul z w)).
Proof. intro k; dblade k; unfold zcl, zmul; dring. Qed.
Lemma zcl_norm2 z : cnorm2 (zcl z) = fst z * fst z + snd z * snd z.
Proof. unfold zcl. dring. Qed.
Lemma zcl_norm z : cnorm (zcl z) = zabs z.
Proof. unfold cnorm, zabs. rewrite zcl_norm2. reflexivity. Qed.
Lemma zcl_sub z w : ceq (csub (zcl z) (zcl w)) (zcl (zsub z w)).
Proof. intro k; dblade k; unfold zcl, zsub; dring. Qed.
Lemma zcl_cplx (c : ComPlex f64) : exactly TCplx c = zcl (zof (sca_0 (cplxSca c), tri_0 (cplxTri c))).
Proof. dvs. reflexivity. Qed.
Definition ampz (X : clf) : R * R := (gp X (cdir X) bS, gp X (cdir X) bT).
Lemma ampz_cl X : ceq (gp X (cdir X)) (zcl (ampz X)).
Proof.
  intro k. assert (C : grade k = 1%nat \/ grade k = 2%nat \/ k = bS \/ k = bT) by (destruct k as [[] [] []]; cbn; auto).
  destruct C as [C|[C|[ -> | -> ]]]; [| |reflexivity|reflexivity]; rewrite gp_cdir_central by tauto;
  destruct k as [[] [] []]; cbn in C; try discriminate C; unfold zcl; cbn -[ampz]; ring.
Qed.

(** Squared amplitude: error as a complex number. *)
Lemma amp_size : forall t f (x : val f64 t), ampSq t = Some f -> zabs (ampz (exactly t x)) <= 17 / 12 * cnorm2 (exactly t x).
Proof.
  intros t f x Hf. assert (N : t <> TDub) by (intros ->; discriminate Hf).
  pose proof (@amps_rel f64 trk Ring0_B Ring0_trk _ errs_rel dbl64 tdbl errs_dbl t _ _ (track_errs t x)) as [[E1 _] [E2 _]].
  pose proof (@amps_rel trk R Ring0_trk Ring0_R _ tv_rel tdbl rdbl ltac:(intros ? ? <-; reflexivity) t _ _ (track_tv t x)) as [V1 V2].
  pose proof (@amps_rel trk R Ring0_trk Ring0_abs _ tm_rel tdbl rdbl ltac:(intros ? ? <-; reflexivity) t _ _ (track_tm t x)) as [M1 M2].
  destruct (amps_abs t x) as [A1 A2]. rewrite <- M1 in A1. rewrite <- M2 in A2. rewrite V1 in E1. rewrite V2 in E2.
  pose proof (amps_exact t (exactv t x) N) as D. change (den t (exactv t x)) with (exactly t x) in D.
  assert (D1 : fst (@amps R Ring0_R rdbl t (exactv t x)) = gp (exactly t x) (cdir (exactly t x)) bS) by exact (D bS).
  assert (D2 : snd (@amps R Ring0_R rdbl t (exactv t x)) = gp (exactly t x) (cdir (exactly t x)) bT) by exact (D bT).
  rewrite D1 in E1. rewrite D2 in E2. apply zabs_le; [apply cnorm2_nonneg| |]; unfold ampz; cbn [fst snd]; lra.
Qed.
Lemma amp_close : forall t f (x : val f64 t), ampSq t = Some f -> all_finite t x -> bpow radix2 (-400) <= cnorm (exactly t x) <= bpow radix2 400 ->
  let z := (sca_0 (cplxSca (f x)), tri_0 (cplxTri (f x))) in
  zfin z /\ zabs (zsub (zof z) (ampz (exactly t x))) <= 14 * u53 * cnorm2 (exactly t x).
Proof.
  intros t f x Hf F B z. set (X := exactly t x) in *.
  pose proof (ampSq_within 400 t f x Hf ltac:(lia) (norm_within t x 400 F (proj2 B))) as G.
  assert (Z : zfin z).
  { unfold z, zfin. destruct (f x) as [s' t']. dvs. unfold all_finite in G. inversion G as [|? ? G1 G2]; subst. inversion G2; subst. split; assumption. }
  split; [exact Z|]. destruct (ampSq_error t f x Hf) as [E1 E2]. specialize (E1 (proj1 Z)). specialize (E2 (proj2 Z)). fold X in E1, E2.
  assert (P : bpow radix2 (-800) <= cnorm2 X) by (rewrite <- cnorm_sq'; apply (sq_lower _ (-400)); apply B).
  assert (S : eta <= u53 / 1000 * cnorm2 X) by (apply eta_rel; eapply Rle_trans; [|exact P]; apply bpow_le; lia).
  pose proof u53_pos as U. pose proof (cnorm2_nonneg X) as P0.
  assert (UN : 0 <= u53 * cnorm2 X) by (apply Rmult_le_pos; lra).
  eapply Rle_trans; [apply (zabs_le _ (9 * u53 * cnorm2 X + 9 * eta)); unfold zsub, ampz, zof, z; cbn [fst snd]|].
  - pose proof eta_pos. lra.
  - exact E1.
  - exact E2.
  - lra.
Qed.

(** ** Amplitude *)
Section WithLib.
Context (L : Libm f64) (eps : R) (He : 0 <= eps <= bpow radix2 (-10)) (HL : complex_within eps L).
Lemma root_step : forall a s z tau n, zmul s s = z -> zabs (zsub a s) <= eps * zabs s + tau -> 0 <= tau -> 0 <= n -> zabs z <= 3 / 2 * (n * n) -> tau <= u53 / 10 * n ->
  zabs s <= 5 / 4 * n /\ zabs (zsub (zmul a a) z) <= 201 / 100 * eps * zabs z + u53 / 2 * (n * n).
Proof.
  intros a s z tau n Es E Ht Hn Hz Hu. pose proof u53_pos as U. pose proof (zabs_pos s) as Ps.
  assert (Q : zabs s * zabs s = zabs z) by (rewrite <- Es; symmetry; apply zabs_mul).
  assert (S : zabs s <= 5 / 4 * n) by nra. split; [exact S|].
  set (d := zsub a s) in *. assert (Ed : zsub (zmul a a) z = zmul d (zadd (zadd s s) d)).
  { rewrite <- Es. unfold d, zmul, zsub, zadd. cbn [fst snd]. f_equal; ring. }
  rewrite Ed, zabs_mul. assert (T : zabs (zadd (zadd s s) d) <= 2 * zabs s + zabs d) by (pose proof (zabs_tri (zadd s s) d); pose proof (zabs_tri s s); lra).
  assert (B10 : bpow radix2 (-10) = / 1024) by reflexivity. rewrite B10 in He. pose proof (zabs_pos d) as Pd. assert (U3 : u53 <= / 1000000) by (rewrite u53_val; lra).
  apply Rle_trans with ((eps * zabs s + tau) * ((2 + eps) * zabs s + tau)).
  { apply Rmult_le_compat; auto; [apply zabs_pos|lra]. }
  replace ((eps * zabs s + tau) * ((2 + eps) * zabs s + tau)) with (eps * (2 + eps) * (zabs s * zabs s) + tau * ((2 + 2 * eps) * zabs s + tau)) by ring.
  rewrite Q. apply Rplus_le_compat.
  - apply Rmult_le_compat_r; [apply zabs_pos|]. nra.
  - apply Rle_trans with (u53 / 10 * n * (3 * n)).
    + assert ((2 + 2 * eps) * zabs s <= (2 + 2 / 1024) * (5 / 4 * n)) by (apply Rmult_le_compat; lra). assert (tau <= / 1000 * n) by nra.
      apply Rmult_le_compat; try lra. apply Rplus_le_le_0_compat; [apply Rmult_le_pos; lra|lra].
    + assert (0 <= u53 * (n * n)) by (apply Rmult_le_pos; nra). lra.
Qed.
Lemma amplitude_error : forall t f (x : val f64 t), amplitude t = Some f -> all_finite t x -> bpow radix2 (-400) <= cnorm (exactly t x) <= bpow radix2 400 ->
  let X := exactly t x in let A := exactly TCplx (f x) in
  all_finite TCplx (f x) /\ - (2 * eps + unit_roundoff) * cnorm X <= A bS /\
  cnorm (csub (gp A A) (gp X (cdir X))) <= (3 * eps + 15 * unit_roundoff) * cnorm2 X.
Proof.
  intros t f x Hf F B X A. unfold amplitude in Hf. destruct (ampSq t) as [g|] eqn:Hg; [|discriminate Hf]. injection Hf as <-.
  destruct (amp_close t g x Hg F B) as [Fz Ez]. pose proof (amp_size t g x Hg) as S. fold X in Ez, S. set (z := (sca_0 (cplxSca (g x)), tri_0 (cplxTri (g x)))) in *.
  change unit_roundoff with u53. pose proof u53_pos as U. pose proof (cnorm2_nonneg X) as PN. pose proof (cnorm_sq' X) as SQ.
  assert (U3 : u53 <= / 1000000) by (rewrite u53_val; lra). assert (UN : 0 <= u53 * cnorm2 X) by (apply Rmult_le_pos; lra).
  assert (Hz : zabs (zof z) <= 3 / 2 * cnorm2 X) by (pose proof (zabs_near (zof z) (ampz X)); nra).
  assert (Hn : cnorm2 X <= bpow radix2 800) by (rewrite <- SQ; apply (sq_upper _ 400); split; [apply sqrt_pos|apply B]).
  destruct (sqrt_within eps L HL z Fz) as (Fr & s & Es & Ps & Er).
  { eapply Rle_trans; [exact Hz|]. apply Rle_trans with (bpow radix2 1 * bpow radix2 800); [change (bpow radix2 1) with 2; pose proof (bpow_ge_0 radix2 800); lra|].
    rewrite <- bpow_plus. apply bpow_le. lia. }
  assert (Ht : bpow radix2 (-500) <= u53 / 10 * cnorm X).
  { apply Rle_trans with (bpow radix2 (-57) * bpow radix2 (-400)); [rewrite <- bpow_plus; apply bpow_le; lia|]. apply Rmult_le_compat; try apply bpow_ge_0; [|apply B].
    rewrite u53_val. change (bpow radix2 (-57)) with (/ 144115188075855872). lra. }
  pose proof (sqrt_pos (cnorm2 X) : 0 <= cnorm X) as Pn.
  destruct (root_step _ s _ _ (cnorm X) Es Er (bpow_ge_0 _ _) Pn) as [Bs Rs]; [rewrite SQ; exact Hz|exact Ht|]. rewrite SQ in Rs.
  assert (EA : A = zcl (zof (mcsqrt z))) by (unfold A; rewrite zcl_cplx; unfold amplitude_of; fold z; destruct (mcsqrt z); reflexivity).
  split; [|split].
  - unfold all_finite. unfold amplitude_of. fold z. destruct (mcsqrt z) as [p q]. destruct Fr. repeat (apply Forall_cons || apply Forall_nil); assumption.
  - rewrite EA. change (zcl (zof (mcsqrt z)) bS) with (fst (zof (mcsqrt z))). pose proof (zfst_le (zsub (zof (mcsqrt z)) s)) as K. unfold zsub at 1 in K. cbn [fst] in K. apply Rabs_le_inv in K.
    assert (eps * zabs s <= eps * (5 / 4 * cnorm X)) by (apply Rmult_le_compat_l; lra). assert (0 <= eps * cnorm X) by (apply Rmult_le_pos; lra). assert (0 <= u53 * cnorm X) by (apply Rmult_le_pos; lra). lra.
  - rewrite EA. rewrite (cnorm_ceq _ (zcl (zsub (zmul (zof (mcsqrt z)) (zof (mcsqrt z))) (ampz X)))).
    + rewrite zcl_norm. eapply Rle_trans; [apply (zabs_sub _ _ (zof z))|].
      assert (201 / 100 * eps * zabs (zof z) <= 201 / 100 * eps * (17 / 12 * cnorm2 X + 14 * u53 * cnorm2 X)).
      { apply Rmult_le_compat_l; [lra|]. pose proof (zabs_near (zof z) (ampz X)). lra. }
      assert (0 <= eps * cnorm2 X) by (apply Rmult_le_pos; lra).
      assert (eps * (u53 * cnorm2 X) <= / 1000 * (eps * cnorm2 X)) by nra. lra.
    + intros k. unfold csub. rewrite (zcl_gp _ _ k), (ampz_cl X k). exact (zcl_sub _ _ k).
Qed.
End WithLib.
