(** * Rational bounds on the circle constant (proofs only). *)

Require Import Reals QArith Qreals Machin Ratan Lra Lia.
Local Open Scope R_scope.

(** Partial sums of Machin's series [PI/4 = 2 atan(1/3) + atan(1/7)], in [Q]. *)
Definition qterm (n : nat) : Q :=
  let k := (2 * n + 1)%nat in
  let d := inject_Z (Z.of_nat k) in
  ((if Nat.even n then 1 else -1) *
   (2 * (1 / (inject_Z (3 ^ Z.of_nat k) * d)) + 1 / (inject_Z (7 ^ Z.of_nat k) * d)))%Q.
Fixpoint qsum (n : nat) : Q :=
  match n with O => qterm 0 | S m => Qred (qsum m + qterm n)%Q end.

Lemma Q2R_inj z : Q2R (inject_Z z) = IZR z.
Proof. unfold Q2R, inject_Z; simpl; field. Qed.

Lemma qterm_ok n : Q2R (qterm n) = tg_alt PI_2_3_7_tg n.
Proof.
  unfold qterm, tg_alt, PI_2_3_7_tg, Ratan_seq.
  set (k := (2 * n + 1)%nat).
  assert (Hk : INR k <> 0) by (apply not_0_INR; unfold k; lia).
  assert (H3 : forall p, (0 < p)%Z -> IZR (p ^ Z.of_nat k) <> 0).
  { intros p Hp; rewrite <- pow_IZR; apply pow_nonzero; apply IZR_neq; lia. }
  assert (Hz : forall p, (0 < p)%Z -> ~ (inject_Z (p ^ Z.of_nat k) * inject_Z (Z.of_nat k) == 0)%Q).
  { intros p Hp h; apply Qeq_eqR in h; rewrite Q2R_mult, !Q2R_inj, RMicromega.Q2R_0, <- INR_IZR_INZ in h.
    apply Rmult_integral in h; destruct h as [h|h]; [exact (H3 p Hp h) | exact (Hk h)]. }
  rewrite Q2R_mult, Q2R_plus, Q2R_mult, !Q2R_div by (apply Hz; lia).
  rewrite !Q2R_mult, !Q2R_inj, <- INR_IZR_INZ, <- !pow_IZR, !RMicromega.Q2R_1.
  rewrite !pow_inv by (apply IZR_neq; lia).
  replace (Q2R 2) with 2 by (unfold Q2R; simpl; field).
  assert (P3 := H3 3%Z ltac:(lia)); assert (P7 := H3 7%Z ltac:(lia)); rewrite <- pow_IZR in P3, P7.
  replace (Q2R (if Nat.even n then 1 else -1)) with ((-1) ^ n).
  - field; repeat split; assumption.
  - destruct (Nat.even n) eqn:E.
    + apply Nat.even_spec in E; destruct E as [m ->].
      rewrite pow_1_even, RMicromega.Q2R_1; reflexivity.
    + assert (O : Nat.odd n = true) by (rewrite <- Nat.negb_even, E; reflexivity).
      apply Nat.odd_spec in O; destruct O as [m ->].
      replace (2 * m + 1)%nat with (S (2 * m)) by lia.
      rewrite pow_1_odd; unfold Q2R; simpl; field.
Qed.

Lemma qsum_ok n : Q2R (qsum n) = sum_f_R0 (tg_alt PI_2_3_7_tg) n.
Proof.
  induction n; cbn [qsum sum_f_R0]; [apply qterm_ok|].
  rewrite <- IHn, <- qterm_ok, <- Q2R_plus; apply Qeq_eqR, Qred_correct.
Qed.

Lemma PI_bounds (N : nat) (lo hi : Q) :
  (Qle_bool lo (4 * qsum (S (2 * N))) && Qle_bool (4 * qsum (2 * N)) hi)%bool = true ->
  Q2R lo <= PI <= Q2R hi.
Proof.
  intros H; apply Bool.andb_true_iff in H; destruct H as [H1 H2].
  apply Qle_bool_iff, Qle_Rle in H1; apply Qle_bool_iff, Qle_Rle in H2.
  rewrite Q2R_mult, qsum_ok in H1, H2.
  replace (Q2R 4) with 4 in * by (unfold Q2R; simpl; field).
  pose proof (PI_2_3_7_ineq N); lra.
Qed.

(** The double nearest to PI is below it by between 1.22e-16 and 1.23e-16. *)
Lemma pi_double : 122 / 10^18 <= PI - 7074237752028440 / 2251799813685248 <= 123 / 10^18.
Proof.
  pose proof (PI_bounds 10 ((7074237752028440 # 2251799813685248) + (122 # 1000000000000000000))
    ((7074237752028440 # 2251799813685248) + (123 # 1000000000000000000))) as H.
  assert (E : forall n, Q2R ((7074237752028440 # 2251799813685248) + (n # 1000000000000000000)) =
    7074237752028440 / 2251799813685248 + IZR n / 10^18).
  { intro n; rewrite Q2R_plus; unfold Q2R; simpl; field. }
  rewrite !E in H; specialize (H ltac:(vm_compute; reflexivity)); lra.
Qed.
