(** * Scaling by powers of two: proofs. *)

Require Import Reals ZArith List Bool Lra Lia.
From Flocq Require Import Core Relative Plus_error Mult_error BinarySingleNaN.
Require Import Verif.Num Verif.Types Verif.Priv Verif.OpsUni Verif.OpsAdd Verif.OpsSub
  Verif.OpsMul Verif.Const Verif.Func Verif.SpecCl Verif.SpecFunc Verif.Rel Verif.IntFacts
  Verif.B64 Verif.B64Facts Verif.SpecRound Verif.SpecScale.
Import ListNotations.
Local Open Scope R_scope.

Notation fmt := (generic_format radix2 (FLT_exp (-1074) 53)).
Local Instance valid53 : Valid_exp (FLT_exp (-1074) 53) := FLT_exp_valid (-1074) 53.

(** ** Rounding *)
Lemma nearest_scale : forall z e, z = 0 \/ bpow radix2 (-1022) <= Rabs z /\ bpow radix2 (-1022) <= bpow radix2 e * Rabs z ->
  nearest64 (bpow radix2 e * z) = bpow radix2 e * nearest64 z.
Proof.
  intros z e [->|[H1 H2]].
  - rewrite Rmult_0_r. unfold nearest64. rewrite round_0 by apply valid_rnd_N. ring.
  - pose proof (bpow_gt_0 radix2 (-1022)). assert (Nz : z <> 0) by (intros ->; rewrite Rabs_R0 in H1; lra).
    unfold nearest64. rewrite !round_FLT_FLX.
    2: exact H1.
    2: rewrite Rabs_mult, (Rabs_pos_eq (bpow radix2 e)) by apply bpow_ge_0; exact H2.
    rewrite Rmult_comm. unfold round, scaled_mantissa, cexp. rewrite mag_mult_bpow by exact Nz. unfold FLX_exp.
    replace (mag radix2 z + e - 53)%Z with (mag radix2 z - 53 + e)%Z by lia.
    replace (z * bpow radix2 e * bpow radix2 (- (mag radix2 z - 53 + e))) with (z * bpow radix2 (- (mag radix2 z - 53))).
    + unfold F2R. cbn [Fnum Fexp]. rewrite bpow_plus. ring.
    + rewrite Rmult_assoc, <- bpow_plus. do 2 f_equal. lia.
Qed.
Lemma fmt_up : forall z e, (0 <= e)%Z -> fmt z -> fmt (bpow radix2 e * z).
Proof. intros z e He F. rewrite Rmult_comm. apply mult_bpow_pos_exact_FLT; [exact F|exact He]. Qed.
Lemma nearest_fmt : forall z, fmt z -> nearest64 z = z.
Proof. intros z F. apply round_generic; [apply valid_rnd_N|exact F]. Qed.
Lemma nearest_plus_scale : forall a b e, fmt a -> fmt b -> fmt (bpow radix2 e * a) -> fmt (bpow radix2 e * b) ->
  nearest64 (bpow radix2 e * (a + b)) = bpow radix2 e * nearest64 (a + b).
Proof.
  intros a b e Fa Fb Fa' Fb'. pose proof (bpow_gt_0 radix2 e) as Pe.
  assert (S : forall u w, fmt u -> fmt w -> Rabs (u + w) < bpow radix2 (-1022) -> fmt (u + w)).
  { intros u w Fu Fw H. apply FLT_format_plus_small; [reflexivity|exact Fu|exact Fw|]. left. eapply Rlt_le_trans; [exact H|apply bpow_le; lia]. }
  assert (D : forall z, fmt z \/ fmt (bpow radix2 e * z) -> fmt z /\ fmt (bpow radix2 e * z) \/ fmt z /\ (e < 0)%Z \/ fmt (bpow radix2 e * z) /\ (0 < e)%Z).
  { intros z [F|F].
    - destruct (Z_lt_le_dec e 0) as [N|N]; [tauto|left; split; [exact F|apply fmt_up; assumption]].
    - destruct (Z_lt_le_dec 0 e) as [N|N]; [tauto|left; split; [|exact F]].
      replace z with (bpow radix2 (- e) * (bpow radix2 e * z)) by (rewrite <- Rmult_assoc, <- bpow_plus; replace (- e + e)%Z with 0%Z by lia; change (bpow radix2 0) with 1; ring).
      apply fmt_up; [lia|exact F]. }
  set (z := a + b) in *.
  destruct (Rlt_or_le (Rabs z) (bpow radix2 (-1022))) as [H1|H1]; destruct (Rlt_or_le (bpow radix2 e * Rabs z) (bpow radix2 (-1022))) as [H2|H2].
  4: apply nearest_scale; right; split; assumption.
  all: assert (B : fmt z /\ fmt (bpow radix2 e * z)); [|destruct B as [B1 B2]; rewrite !nearest_fmt by assumption; reflexivity].
  - split; [apply S; assumption|]. unfold z. rewrite Rmult_plus_distr_l. apply S; [assumption|assumption|].
    rewrite <- Rmult_plus_distr_l, Rabs_mult, (Rabs_pos_eq (bpow radix2 e)) by lra. exact H2.
  - assert (F : fmt z) by (apply S; assumption). split; [exact F|]. apply fmt_up; [|exact F].
    destruct (Z_lt_le_dec e 0) as [N|N]; [exfalso|exact N].
    assert (bpow radix2 e <= 1) by (change 1 with (bpow radix2 0); apply bpow_le; lia). pose proof (Rabs_pos z).
    assert (bpow radix2 e * Rabs z <= 1 * Rabs z) by (apply Rmult_le_compat_r; assumption). lra.
  - assert (F : fmt (bpow radix2 e * z)).
    { unfold z. rewrite Rmult_plus_distr_l. apply S; [assumption|assumption|].
      rewrite <- Rmult_plus_distr_l, Rabs_mult, (Rabs_pos_eq (bpow radix2 e)) by lra. exact H2. }
    split; [|exact F]. destruct (D z (or_intror F)) as [[A _]|[[A _]|[_ N]]]; [exact A|exact A|exfalso].
    assert (1 <= bpow radix2 e) by (change 1 with (bpow radix2 0); apply bpow_le; lia). pose proof (Rabs_pos z).
    assert (1 * Rabs z <= bpow radix2 e * Rabs z) by (apply Rmult_le_compat_r; assumption). lra.
Qed.

(** ** Operations *)
Lemma fmt_f64 : forall x : f64, fmt (B2R x).
Proof. intros x. exact (generic_format_B2R 53 1024 x). Qed.
Lemma cmp_scale : forall e z, Rcompare (bpow radix2 e * z) 0 = Rcompare z 0.
Proof.
  intros e z. replace 0 with (bpow radix2 e * 0) at 1 by ring. rewrite Rcompare_mult_l by apply bpow_gt_0. reflexivity.
Qed.
Lemma plus_scaled : forall e (a b a' b' : f64), scaled e a a' -> scaled e b b' ->
  is_finite (Bplus mode_NE a b) = true -> is_finite (Bplus mode_NE a' b') = true -> scaled e (Bplus mode_NE a b) (Bplus mode_NE a' b').
Proof.
  intros e a b a' b' (Fa & Fa' & Va & Sa) (Fb & Fb' & Vb & Sb) F F'. split; [exact F|]. split; [exact F'|].
  pose proof (Bplus_correct 53 1024 _ _ mode_NE a b Fa Fb) as C. pose proof (Bplus_correct 53 1024 _ _ mode_NE a' b' Fa' Fb') as C'.
  destruct (Rlt_bool _ _) in C; [|exfalso; destruct C as [C _]; apply sf_overflow_fin in C; exact (eq_true_false_abs _ F C)].
  destruct (Rlt_bool _ _) in C'; [|exfalso; destruct C' as [C' _]; apply sf_overflow_fin in C'; exact (eq_true_false_abs _ F' C')].
  destruct C as (V & _ & S). destruct C' as (V' & _ & S'). split.
  - rewrite V, V', Va, Vb. rewrite <- Rmult_plus_distr_l. apply nearest_plus_scale; [apply fmt_f64|apply fmt_f64|rewrite <- Va; apply fmt_f64|rewrite <- Vb; apply fmt_f64].
  - rewrite S, S', Va, Vb, Sa, Sb. rewrite <- Rmult_plus_distr_l, cmp_scale. reflexivity.
Qed.
Lemma opp_scaled : forall e (a a' : f64), scaled e a a' -> scaled e (Bopp a) (Bopp a').
Proof.
  intros e a a' (F & F' & V & S). repeat split; rewrite ?is_finite_Bopp, ?B2R_Bopp; try assumption; [rewrite V; ring|].
  rewrite !Bsign_Bopp by (destruct a, a'; try discriminate; reflexivity). rewrite S. reflexivity.
Qed.
Lemma minus_scaled : forall e (a b a' b' : f64), scaled e a a' -> scaled e b b' ->
  is_finite (Bminus mode_NE a b) = true -> is_finite (Bminus mode_NE a' b') = true -> scaled e (Bminus mode_NE a b) (Bminus mode_NE a' b').
Proof. intros e a b a' b' Ha Hb. rewrite !bminus_opp. apply plus_scaled; [exact Ha|apply opp_scaled, Hb]. Qed.
Lemma mult_scaled : forall j k (a b a' b' : f64), scaled j a a' -> scaled k b b' -> no_underflow (j + k) a b ->
  is_finite (Bmult mode_NE a b) = true -> is_finite (Bmult mode_NE a' b') = true -> scaled (j + k) (Bmult mode_NE a b) (Bmult mode_NE a' b').
Proof.
  intros j k a b a' b' (Fa & Fa' & Va & Sa) (Fb & Fb' & Vb & Sb) U F F'. split; [exact F|]. split; [exact F'|].
  pose proof (Bmult_correct 53 1024 _ _ mode_NE a b) as C. pose proof (Bmult_correct 53 1024 _ _ mode_NE a' b') as C'.
  destruct (Rlt_bool _ _) in C; [|exfalso; apply sf_overflow_fin in C; exact (eq_true_false_abs _ F C)].
  destruct (Rlt_bool _ _) in C'; [|exfalso; apply sf_overflow_fin in C'; exact (eq_true_false_abs _ F' C')].
  destruct C as (V & _ & S). destruct C' as (V' & _ & S'). split.
  - rewrite V, V', Va, Vb. replace (bpow radix2 j * B2R a * (bpow radix2 k * B2R b)) with (bpow radix2 (j + k) * (B2R a * B2R b)) by (rewrite bpow_plus; ring).
    apply nearest_scale, U.
  - rewrite S, S' by (destruct (Bmult mode_NE a b), (Bmult mode_NE a' b'); try discriminate; reflexivity). rewrite Sa, Sb. reflexivity.
Qed.
Lemma sqrt_scaled : forall e (a a' : f64), scaled (e + e) a a' -> 0 <= B2R a -> scaled e (Bsqrt mode_NE a) (Bsqrt mode_NE a').
Proof.
  intros e a a' (F & F' & V & S) P. pose proof (bpow_gt_0 radix2 e) as Pe. pose proof (bpow_gt_0 radix2 (e + e)) as Pee.
  assert (P' : 0 <= B2R a') by (rewrite V; apply Rmult_le_pos; lra).
  assert (G : forall x : f64, is_finite x = true -> 0 <= B2R x -> is_finite (Bsqrt mode_NE x) = true /\ B2R (Bsqrt mode_NE x) = nearest64 (sqrt (B2R x)) /\
    Bsign (Bsqrt mode_NE x) = Bsign x).
  { intros x Fx Px. destruct (Bsqrt_correct 53 1024 _ _ mode_NE x) as (A & B & C).
    assert (T : is_finite (Bsqrt mode_NE x) = true).
    { rewrite B. destruct x as [s|s| |[|] m ex Hb]; try discriminate; try reflexivity. exfalso.
      assert (F2R (Float radix2 (Zneg m) ex) < 0) by (apply F2R_lt_0; reflexivity). cbn [B2R cond_Zopp] in Px. change (- Zpos m)%Z with (Zneg m) in Px. lra. }
    split; [exact T|]. split; [exact A|]. apply C. destruct (Bsqrt mode_NE x); try discriminate; reflexivity. }
  destruct (G a F P) as (A1 & A2 & A3). destruct (G a' F' P') as (B1 & B2 & B3).
  split; [exact A1|]. split; [exact B1|]. split; [|rewrite A3, B3; exact S].
  rewrite A2, B2, V. rewrite bpow_plus, sqrt_mult by (try apply Rmult_le_pos; lra). rewrite sqrt_square by lra. apply nearest_scale.
  assert (M : forall x : f64, 0 < B2R x -> bpow radix2 (-537) <= sqrt (B2R x)).
  { intros x Px. replace (bpow radix2 (-537)) with (sqrt (bpow radix2 (-1074))).
    - apply sqrt_le_1_alt. apply (generic_format_ge_bpow radix2 (FLT_exp (-1074) 53)); [intros; apply Z.le_max_r|exact Px|apply fmt_f64].
    - change (-1074)%Z with (-537 + -537)%Z. rewrite bpow_plus. apply sqrt_square, bpow_ge_0. }
  assert (Q : bpow radix2 (-1022) <= bpow radix2 (-537)) by (apply bpow_le; lia).
  destruct P as [P|P]; [right|left; rewrite <- P; apply sqrt_0]. rewrite Rabs_pos_eq by apply sqrt_pos.
  split; [eapply Rle_trans; [exact Q|apply M, P]|].
  replace (bpow radix2 e * sqrt (B2R a)) with (sqrt (B2R a')).
  - eapply Rle_trans; [exact Q|apply M]. rewrite V. apply Rmult_lt_0_compat; assumption.
  - rewrite V, bpow_plus, sqrt_mult by (try apply Rmult_le_pos; lra). rewrite sqrt_square by lra. reflexivity.
Qed.
Lemma div_scaled : forall j k (a b a' b' : f64), scaled j a a' -> scaled k b b' -> B2R b <> 0 ->
  B2R a / B2R b = 0 \/ bpow radix2 (-1022) <= Rabs (B2R a / B2R b) /\ bpow radix2 (-1022) <= bpow radix2 (j - k) * Rabs (B2R a / B2R b) ->
  is_finite (Bdiv mode_NE a b) = true -> is_finite (Bdiv mode_NE a' b') = true -> scaled (j - k) (Bdiv mode_NE a b) (Bdiv mode_NE a' b').
Proof.
  intros j k a b a' b' (Fa & Fa' & Va & Sa) (Fb & Fb' & Vb & Sb) Nb U F F'. split; [exact F|]. split; [exact F'|].
  pose proof (bpow_gt_0 radix2 k) as Pk.
  assert (Nb' : B2R b' <> 0) by (rewrite Vb; apply Rmult_integral_contrapositive_currified; [lra|exact Nb]).
  pose proof (Bdiv_correct 53 1024 _ _ mode_NE a b Nb) as C. pose proof (Bdiv_correct 53 1024 _ _ mode_NE a' b' Nb') as C'.
  destruct (Rlt_bool _ _) in C; [|exfalso; apply sf_overflow_fin in C; exact (eq_true_false_abs _ F C)].
  destruct (Rlt_bool _ _) in C'; [|exfalso; apply sf_overflow_fin in C'; exact (eq_true_false_abs _ F' C')].
  destruct C as (V & _ & S). destruct C' as (V' & _ & S'). split.
  - rewrite V, V', Va, Vb. replace (bpow radix2 j * B2R a / (bpow radix2 k * B2R b)) with (bpow radix2 (j - k) * (B2R a / B2R b)).
    + apply nearest_scale, U.
    + unfold Zminus. rewrite bpow_plus, bpow_opp. field. split; [exact Nb|lra].
  - rewrite S, S' by (destruct (Bdiv mode_NE a b), (Bdiv mode_NE a' b'); try discriminate; reflexivity). rewrite Sa, Sb. reflexivity.
Qed.
Lemma scaled_0 : forall v w, scaled 0 v w -> w = v.
Proof.
  intros v w (F & F' & V & S). change (bpow radix2 0) with 1 in V. rewrite Rmult_1_l in V. apply B2R_Bsign_inj; assumption.
Qed.
Lemma scaled_refl : forall v, is_finite v = true -> scaled 0 v v.
Proof. intros v F. repeat split; try assumption. change (bpow radix2 0) with 1. ring. Qed.

(** ** Degrees *)
Inductive deg : Type := DZ | DX | DY | DP | DBad.
Definition dadd (a b : deg) : deg :=
  match a, b with
  | DZ, DZ => DZ | DZ, DP | DP, DZ | DP, DP => DP | _, _ => DBad
  end.
Definition dmul (sq : bool) (a b : deg) : deg :=
  match a, b with
  | DZ, (DZ | DX | DY) | (DX | DY), DZ => DZ
  | DX, DY => DP
  | DY, DX => DP
  | DX, DX => if sq then DP else DBad
  | _, _ => DBad
  end.
Definition Ring0_deg (sq : bool) : Ring0 deg := {|
  nzero := DZ; none_ := DBad; nadd := dadd; nsub := dadd; nmul := dmul sq; nopp := fun a => a |}.
Definition Ring0_two : Ring0 (f64 * f64) := {|
  nzero := (nzero, nzero); none_ := (none_, none_);
  nadd := fun p q => (nadd (fst p) (fst q), nadd (snd p) (snd q));
  nsub := fun p q => (nsub (fst p) (fst q), nsub (snd p) (snd q));
  nmul := fun p q => (nmul (fst p) (fst q), nmul (snd p) (snd q));
  nopp := fun p => (nopp (fst p), nopp (snd p)) |}.

Section Degrees.
Context (sq : bool) (j k : Z) (X Y : R -> Prop).
Hypothesis XY : forall v w : f64, X (Rabs (B2R v)) -> Y (Rabs (B2R w)) -> no_underflow (j + k) v w.
Hypothesis XX : sq = true -> j = k /\ forall v w : f64, X (Rabs (B2R v)) -> X (Rabs (B2R w)) -> no_underflow (j + k) v w.
Definition isz (v w : f64) : Prop := exists s, v = B754_zero s /\ w = B754_zero s.
Definition dof (d : deg) (p : f64 * f64) : Prop :=
  let '(v, w) := p in
  match d with
  | DZ => isz v w
  | DX => scaled j v w /\ X (Rabs (B2R v))
  | DY => scaled k v w /\ Y (Rabs (B2R v))
  | DP => is_finite v = true -> is_finite w = true -> scaled (j + k) v w
  | DBad => True
  end.
Lemma isz_scaled : forall e v w, isz v w -> scaled e v w.
Proof. intros e v w (s & -> & ->). repeat split. cbn. ring. Qed.
Lemma under_sym : forall e v w, no_underflow e v w -> no_underflow e w v.
Proof. intros e v w. unfold no_underflow. rewrite (Rmult_comm (B2R w)). tauto. Qed.
Lemma dof_add : forall a b p q, dof a p -> dof b q ->
  dof (dadd a b) (Bplus mode_NE (fst p) (fst q), Bplus mode_NE (snd p) (snd q)).
Proof.
  intros a b [v w] [v' w'] Ha Hb. cbn [fst snd].
  destruct a, b; try exact Logic.I; cbn [dadd dof] in *.
  - destruct Ha as (s & -> & ->), Hb as (s' & -> & ->). destruct s, s'; eexists; split; reflexivity.
  - intros F F'. destruct (bplus_fin _ _ F) as (F1 & F2 & _), (bplus_fin _ _ F') as (F3 & F4 & _). apply plus_scaled; auto. apply isz_scaled, Ha.
  - intros F F'. destruct (bplus_fin _ _ F) as (F1 & F2 & _), (bplus_fin _ _ F') as (F3 & F4 & _). apply plus_scaled; auto. apply isz_scaled, Hb.
  - intros F F'. destruct (bplus_fin _ _ F) as (F1 & F2 & _), (bplus_fin _ _ F') as (F3 & F4 & _). apply plus_scaled; auto.
Qed.
Lemma dof_opp : forall a p, dof a p -> dof a (Bopp (fst p), Bopp (snd p)).
Proof.
  intros a [v w] H. cbn [fst snd]. destruct a; cbn [dof] in *.
  - destruct H as (s & -> & ->). eexists; split; reflexivity.
  - destruct H as [H HX]. split; [apply opp_scaled, H|]. rewrite B2R_Bopp, Rabs_Ropp. exact HX.
  - destruct H as [H HX]. split; [apply opp_scaled, H|]. rewrite B2R_Bopp, Rabs_Ropp. exact HX.
  - rewrite !is_finite_Bopp. intros F F'. apply opp_scaled; auto.
  - exact Logic.I.
Qed.
Lemma zero_mult : forall s (v : f64), is_finite v = true -> Bmult mode_NE (B754_zero s) v = B754_zero (xorb s (Bsign v)) /\
  Bmult mode_NE v (B754_zero s) = B754_zero (xorb (Bsign v) s).
Proof. intros s v F. destruct v; try discriminate; split; reflexivity. Qed.
Lemma dof_mul : forall a b p q, dof a p -> dof b q ->
  dof (dmul sq a b) (Bmult mode_NE (fst p) (fst q), Bmult mode_NE (snd p) (snd q)).
Proof.
  intros a b [v w] [v' w'] Ha Hb. cbn [fst snd].
  assert (Z1 : forall e, isz v w -> scaled e v' w' -> isz (Bmult mode_NE v v') (Bmult mode_NE w w')).
  { intros e (s & -> & ->) (F & F' & _ & S). destruct (zero_mult s v' F) as [-> _], (zero_mult s w' F') as [-> _]. rewrite S. eexists; split; reflexivity. }
  assert (Z2 : forall e, scaled e v w -> isz v' w' -> isz (Bmult mode_NE v v') (Bmult mode_NE w w')).
  { intros e (F & F' & _ & S) (s & -> & ->). destruct (zero_mult s v F) as [_ ->], (zero_mult s w F') as [_ ->]. rewrite S. eexists; split; reflexivity. }
  destruct a, b; try exact Logic.I; cbn [dmul dof] in *.
  - apply (Z1 0%Z Ha), isz_scaled, Hb.
  - apply (Z1 j Ha), Hb.
  - apply (Z1 k Ha), Hb.
  - apply (Z2 j); [apply Ha|exact Hb].
  - destruct sq eqn:E; [|exact Logic.I]. destruct (XX eq_refl) as [Ej U]. intros F F'.
    apply mult_scaled; [apply Ha|rewrite <- Ej; apply Hb|apply U; [apply Ha|apply Hb]|exact F|exact F'].
  - intros F F'. apply mult_scaled; [apply Ha|apply Hb|apply XY; [apply Ha|apply Hb]|exact F|exact F'].
  - apply (Z2 k); [apply Ha|exact Hb].
  - intros F F'. rewrite (bmult_comm v), (bmult_comm w) in *. apply mult_scaled; [apply Hb|apply Ha|apply XY; [apply Hb|apply Ha]|exact F|exact F'].
Qed.
Lemma deg_rel : ring_rel (Ring0_deg sq) Ring0_two dof.
Proof.
  constructor.
  - exists false. split; reflexivity.
  - exact Logic.I.
  - intros a b c d. apply dof_add.
  - intros a b [c c'] [d d'] Ha Hb. cbn. rewrite !bminus_opp. apply (dof_add a b (c, c') (Bopp d, Bopp d') Ha). apply (dof_opp b (d, d') Hb).
  - intros a b c d. apply dof_mul.
  - intros a c. apply dof_opp.
Qed.
End Degrees.

(** ** All operators *)
Definition zipv {A B} (t : ty) : val A t -> val B t -> val (A * B) t :=
  match t with
  | TDub => fun x y => (x, y)
  | TSca => fun x y => Sca (sca_0 x, sca_0 y)
  | TVec => fun x y => Vec (vec_0 x, vec_0 y) (vec_1 x, vec_1 y) (vec_2 x, vec_2 y)
  | TBiv => fun x y => Biv (biv_0 x, biv_0 y) (biv_1 x, biv_1 y) (biv_2 x, biv_2 y)
  | TTri => fun x y => Tri (tri_0 x, tri_0 y)
  | TSpin => fun x y => mkSpin (Sca (sca_0 (spinSca x), sca_0 (spinSca y)))
      (Biv (biv_0 (spinBiv x), biv_0 (spinBiv y)) (biv_1 (spinBiv x), biv_1 (spinBiv y)) (biv_2 (spinBiv x), biv_2 (spinBiv y)))
  | TImsp => fun x y => mkImsp (Vec (vec_0 (imspVec x), vec_0 (imspVec y)) (vec_1 (imspVec x), vec_1 (imspVec y)) (vec_2 (imspVec x), vec_2 (imspVec y)))
      (Tri (tri_0 (imspTri x), tri_0 (imspTri y)))
  | TCplx => fun x y => mkCplx (Sca (sca_0 (cplxSca x), sca_0 (cplxSca y))) (Tri (tri_0 (cplxTri x), tri_0 (cplxTri y)))
  | TDplx => fun x y => mkDplx (Vec (vec_0 (dplxVec x), vec_0 (dplxVec y)) (vec_1 (dplxVec x), vec_1 (dplxVec y)) (vec_2 (dplxVec x), vec_2 (dplxVec y)))
      (Biv (biv_0 (dplxBiv x), biv_0 (dplxBiv y)) (biv_1 (dplxBiv x), biv_1 (dplxBiv y)) (biv_2 (dplxBiv x), biv_2 (dplxBiv y)))
  | TMvec => fun x y => mkMvec (Sca (sca_0 (mvSca x), sca_0 (mvSca y)))
      (Vec (vec_0 (mvVec x), vec_0 (mvVec y)) (vec_1 (mvVec x), vec_1 (mvVec y)) (vec_2 (mvVec x), vec_2 (mvVec y)))
      (Biv (biv_0 (mvBiv x), biv_0 (mvBiv y)) (biv_1 (mvBiv x), biv_1 (mvBiv y)) (biv_2 (mvBiv x), biv_2 (mvBiv y)))
      (Tri (tri_0 (mvTri x), tri_0 (mvTri y)))
  end.
Lemma elems_zip : forall A B t (x : val A t) (y : val B t), elems t (zipv t x y) = combine (elems t x) (elems t y).
Proof. intros A B t x y; destruct t; dvs; reflexivity. Qed.
Lemma elems_length : forall A B t (x : val A t) (y : val B t), length (elems t x) = length (elems t y).
Proof. intros A B t x y; destruct t; dvs; reflexivity. Qed.
Lemma elems_const : forall A (c : A) t, exists n, elems t (constv c t) = repeat c n.
Proof. intros A c t; destruct t; [exists 1%nat|exists 1%nat|exists 3%nat|exists 3%nat|exists 1%nat|exists 4%nat|exists 4%nat|exists 2%nat|exists 6%nat|exists 8%nat]; reflexivity. Qed.
Definition is1 (p : f64 * f64) (v : f64) : Prop := fst p = v.
Definition is2 (p : f64 * f64) (v : f64) : Prop := snd p = v.
Lemma is1_rel : ring_rel Ring0_two Ring0_B is1.
Proof. unfold is1. constructor; intros; subst; reflexivity. Qed.
Lemma is2_rel : ring_rel Ring0_two Ring0_B is2.
Proof. unfold is2. constructor; intros; subst; reflexivity. Qed.
Lemma zip1 : forall t x y, relv is1 t (zipv t x y) x.
Proof.
  intros t x y. unfold relv. rewrite elems_zip. pose proof (elems_length _ _ t x y) as H. revert H. generalize (elems t y). induction (elems t x) as [|a l IH]; intros [|b m] H; try discriminate; constructor; [reflexivity|].
  apply IH. injection H. auto.
Qed.
Lemma zip2 : forall t x y, relv is2 t (zipv t x y) y.
Proof.
  intros t x y. unfold relv. rewrite elems_zip. pose proof (elems_length _ _ t x y) as H. revert H. generalize (elems t y). induction (elems t x) as [|a l IH]; intros [|b m] H; try discriminate; constructor; [reflexivity|].
  apply IH. injection H. auto.
Qed.
Lemma zip_dof : forall (P : deg -> f64 * f64 -> Prop) d t x y, Forall2 (fun v w => P d (v, w)) (elems t x) (elems t y) -> relv P t (@constv deg d t) (zipv t x y).
Proof.
  intros P d t x y H. unfold relv. rewrite elems_zip.
  pose proof (elems_length _ _ t (@constv deg d t) x) as E. destruct (elems_const deg d t) as [n Hn]. rewrite Hn in *. rewrite repeat_length in E.
  clear Hn. revert n E. induction H as [|v w l m V H IH]; intros [|n] E; try discriminate; cbn; constructor; [exact V|]. apply IH. injection E; auto.
Qed.
Definition good (d : deg) : bool := match d with DZ | DP => true | _ => false end.
Lemma degs_scaled : forall j k X Y ds (ps : list (f64 * f64)) l l', Forall2 (dof j k X Y) ds ps -> forallb good ds = true ->
  Forall2 is1 ps l -> Forall2 is2 ps l' -> Forall (fun v : f64 => is_finite v = true) l -> Forall (fun v : f64 => is_finite v = true) l' ->
  Forall2 (scaled (j + k)) l l'.
Proof.
  intros j k X Y ds ps l l' H. revert l l'. induction H as [|d [v w] ds ps Hd H IH]; intros l l' G A B F F'; inversion A; inversion B; subst; [constructor|].
  cbn [forallb] in G. apply andb_prop in G. destruct G as [G1 G2]. inversion F; inversion F'; subst. unfold is1, is2 in *. cbn [fst snd] in *. subst.
  constructor; [|apply IH; assumption]. destruct d; try discriminate; cbn [dof] in Hd; [apply isz_scaled, Hd|apply Hd; assumption].
Qed.
Lemma under_abs : forall e (v w v' w' : f64), Rabs (B2R v) = Rabs (B2R v') -> Rabs (B2R w) = Rabs (B2R w') -> no_underflow e v' w' -> no_underflow e v w.
Proof.
  intros e v w v' w' Hv Hw [Z|[H1 H2]].
  - left. destruct (Req_dec (B2R v * B2R w) 0) as [E|E]; [exact E|exfalso]. apply Rabs_no_R0 in E. apply E. rewrite Rabs_mult, Hv, Hw, <- Rabs_mult, Z. apply Rabs_R0.
  - right. rewrite Rabs_mult, Hv, Hw, <- Rabs_mult. split; assumption.
Qed.
Definition among (t : ty) (x : val f64 t) (r : R) : Prop := exists u, In u (elems t x) /\ Rabs (B2R u) = r.
Lemma Forall2_in : forall A B (P Q : A -> B -> Prop) l m, Forall2 P l m -> (forall a b, In a l -> P a b -> Q a b) -> Forall2 Q l m.
Proof.
  intros A B P Q l m H. induction H as [|a b l m Hp H IH]; intros HQ; constructor; [apply HQ; [left; reflexivity|exact Hp]|].
  apply IH. intros a' b' I0. apply HQ. right; exact I0.
Qed.
Lemma mul_degs : forall a b, forallb good (elems (mulTy a b) (@mul deg (Ring0_deg false) a b (@constv deg DX a) (@constv deg DY b))) = true.
Proof. intros a b; destruct a, b; vm_compute; reflexivity. Qed.
Lemma mul_scaled : forall j k a b x y x' y', scaledv j a x x' -> scaledv k b y y' ->
  (forall u w, In u (elems a x) -> In w (elems b y) -> no_underflow (j + k) u w) ->
  all_finite (mulTy a b) (mul a b x y) -> all_finite (mulTy a b) (mul a b x' y') ->
  scaledv (j + k) (mulTy a b) (mul a b x y) (mul a b x' y').
Proof.
  intros j k a b x y x' y' Hx Hy U F F'.
  assert (RR : ring_rel (Ring0_deg false) Ring0_two (dof j k (among a x) (among b y))).
  { apply deg_rel; [|discriminate]. intros v w (u & Iu & Eu) (u' & Iu' & Eu'). apply (under_abs _ _ _ u u'); [symmetry; exact Eu|symmetry; exact Eu'|apply U; assumption]. }
  eapply degs_scaled; [|apply (mul_degs a b)| | |exact F|exact F'].
  - apply (mul_rel RR); apply zip_dof; cbn [dof].
    + eapply Forall2_in; [exact Hx|]. intros v w I0 H. split; [exact H|exists v; auto].
    + eapply Forall2_in; [exact Hy|]. intros v w I0 H. split; [exact H|exists v; auto].
  - apply (mul_rel is1_rel); apply zip1.
  - apply (mul_rel is2_rel); apply zip2.
Qed.
Lemma magSq_degs : forall t, good (@magSq deg (Ring0_deg true) t (@constv deg DX t)) = true.
Proof. intros t; destruct t; reflexivity. Qed.
Lemma magSq_scaled : forall e t x x', scaledv e t x x' ->
  (forall u w, In u (elems t x) -> In w (elems t x) -> no_underflow (e + e) u w) ->
  is_finite (magSq t x) = true -> is_finite (magSq t x') = true -> scaled (e + e) (magSq t x) (magSq t x').
Proof.
  intros e t x x' Hx U F F'.
  assert (UU : forall v w, among t x (Rabs (B2R v)) -> among t x (Rabs (B2R w)) -> no_underflow (e + e) v w).
  { intros v w (u & Iu & Eu) (u' & Iu' & Eu'). apply (under_abs _ _ _ u u'); [symmetry; exact Eu|symmetry; exact Eu'|apply U; assumption]. }
  assert (RR : ring_rel (Ring0_deg true) Ring0_two (dof e e (among t x) (among t x))) by (apply deg_rel; auto).
  assert (H : Forall2 (scaled (e + e)) [magSq t x] [magSq t x']).
  { eapply (degs_scaled e e (among t x) (among t x) [_] [_]); [constructor; [|constructor]| |constructor; [|constructor]|constructor; [|constructor]|repeat constructor; exact F|repeat constructor; exact F'].
    - apply (magSq_rel RR). apply (zip_dof _ DX t x x'). cbn [dof]. eapply Forall2_in; [exact Hx|]. intros v w I0 H. split; [exact H|exists v; auto].
    - cbn [forallb]. rewrite magSq_degs. reflexivity.
    - apply (magSq_rel is1_rel), zip1.
    - apply (magSq_rel is2_rel), zip2. }
  inversion H; assumption.
Qed.
(** Sums and differences need no condition. *)
Definition scaledo (e : Z) (o : option ty) : oval f64 o -> oval f64 o -> Prop :=
  match o with Some t => scaledv e t | None => fun _ _ => True end.
Lemma sum_rr : forall e, ring_rel (Ring0_deg false) Ring0_two (dof e 0 (fun _ => False) (fun _ => False)).
Proof. intros e. apply deg_rel; [contradiction|discriminate]. Qed.
Lemma add_degs : forall a b, match addTy a b as o return oval deg o -> bool with Some t => fun r => forallb good (elems t r) | None => fun _ => true end
  (@add deg (Ring0_deg false) a b (@constv deg DP a) (@constv deg DP b)) = true.
Proof. intros a b; destruct a, b; vm_compute; reflexivity. Qed.
Lemma sub_degs : forall a b, match subTy a b as o return oval deg o -> bool with Some t => fun r => forallb good (elems t r) | None => fun _ => true end
  (@sub deg (Ring0_deg false) a b (@constv deg DP a) (@constv deg DP b)) = true.
Proof. intros a b; destruct a, b; vm_compute; reflexivity. Qed.
Definition comps {F} (o : option ty) : oval F o -> list F :=
  match o with Some t => fun x => elems t x | None => fun _ => [] end.
Lemma relo_comps : forall F G (R : F -> G -> Prop) o x y, relo R o x y -> Forall2 R (comps o x) (comps o y).
Proof. intros F G R [t|] x y H; [exact H|constructor]. Qed.
Lemma comps_good : forall o (r : oval deg o), match o as o return oval deg o -> bool with Some t => fun r => forallb good (elems t r) | None => fun _ => true end r = true ->
  forallb good (comps o r) = true.
Proof. intros [t|] r H; [exact H|reflexivity]. Qed.
Lemma sum_inputs : forall e t x x', scaledv e t x x' -> relv (dof e 0 (fun _ => False) (fun _ => False)) t (@constv deg DP t) (zipv t x x').
Proof. intros e t x x' H. apply zip_dof. cbn [dof]. rewrite Z.add_0_r. eapply Forall2_in; [exact H|]. auto. Qed.
Lemma add_scaled : forall e a b x y x' y', scaledv e a x x' -> scaledv e b y y' ->
  Forall (fun v : f64 => is_finite v = true) (components (addTy a b) (add a b x y)) ->
  Forall (fun v : f64 => is_finite v = true) (components (addTy a b) (add a b x' y')) ->
  Forall2 (scaled e) (components (addTy a b) (add a b x y)) (components (addTy a b) (add a b x' y')).
Proof.
  intros e a b x y x' y' Hx Hy F F'. rewrite <- (Z.add_0_r e).
  eapply degs_scaled; [|apply comps_good, (add_degs a b)| | |exact F|exact F'].
  - apply relo_comps, (add_rel (sum_rr e)); [exact (sum_inputs e a x x' Hx)|exact (sum_inputs e b y y' Hy)].
  - apply (relo_comps _ _ is1), (add_rel is1_rel); apply zip1.
  - apply (relo_comps _ _ is2), (add_rel is2_rel); apply zip2.
Qed.
Lemma sub_scaled : forall e a b x y x' y', scaledv e a x x' -> scaledv e b y y' ->
  Forall (fun v : f64 => is_finite v = true) (components (subTy a b) (sub a b x y)) ->
  Forall (fun v : f64 => is_finite v = true) (components (subTy a b) (sub a b x' y')) ->
  Forall2 (scaled e) (components (subTy a b) (sub a b x y)) (components (subTy a b) (sub a b x' y')).
Proof.
  intros e a b x y x' y' Hx Hy F F'. rewrite <- (Z.add_0_r e).
  eapply degs_scaled; [|apply comps_good, (sub_degs a b)| | |exact F|exact F'].
  - apply relo_comps, (sub_rel (sum_rr e)); [exact (sum_inputs e a x x' Hx)|exact (sum_inputs e b y y' Hy)].
  - apply (relo_comps _ _ is1), (sub_rel is1_rel); apply zip1.
  - apply (relo_comps _ _ is2), (sub_rel is2_rel); apply zip2.
Qed.
Lemma scaled_fin : forall e l l', Forall2 (scaled e) l l' -> Forall (fun v : f64 => is_finite v = true) l /\ Forall (fun v : f64 => is_finite v = true) l'.
Proof. intros e l l' H. induction H as [|v w l l' (F & F' & _) H [A B]]; split; constructor; assumption. Qed.
Lemma unary_scaled : forall e t x x', scaledv e t x x' ->
  scaledv e t (neg t x) (neg t x') /\ scaledv e t (reverse t x) (reverse t x') /\ scaledv e t (oddverse t x) (oddverse t x') /\
  scaledv e t (dirverse t x) (dirverse t x') /\ scaledv e (dualTy t) (dual t x) (dual t x') /\ scaledv e TMvec (to_mv t x) (to_mv t x').
Proof.
  intros e t x x' H. pose proof (isz_scaled e (B754_zero false) (B754_zero false) (ex_intro _ false (conj eq_refl eq_refl))) as Z0.
  unfold scaledv in *. destruct t; dvs; cbv -[scaled Bopp] in *; inv2; repeat split; repeat (apply Forall2_cons || apply Forall2_nil); auto using opp_scaled.
Qed.
