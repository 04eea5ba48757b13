(** * The pi constants are nearest doubles: proofs. *)

Require Import Reals ZArith Lra Lia.
From Flocq Require Import Core BinarySingleNaN.
Require Import Verif.Num Verif.Const Verif.PiFacts Verif.B64 Verif.B64Facts Verif.SpecConst.
Local Open Scope R_scope.

(** Doubles other than [m * 2^e] are at least [2^e] away from it. *)
Lemma spacing : forall (m e : Z) (y : f64), (2 ^ 52 < m)%Z -> (-1074 <= e)%Z ->
  b2r y <> IZR m * bpow radix2 e -> bpow radix2 e <= Rabs (b2r y - IZR m * bpow radix2 e).
Proof.
  intros m e y Hm He Hy. pose proof (bpow_gt_0 radix2 e) as Pe.
  pose proof (generic_format_B2R 53 1024 y) as G. set (x := b2r y) in *.
  destruct (Rle_or_lt (bpow radix2 (e + 52)) (Rabs x)) as [Hb|Hb].
  - assert (Hmag : (e + 53 <= mag radix2 x)%Z) by (apply mag_ge_bpow; replace (e + 53 - 1)%Z with (e + 52)%Z by lia; exact Hb).
    unfold generic_format in G. set (f := cexp radix2 (SpecFloat.fexp 53 1024) x) in *.
    assert (Hf : (e <= f)%Z) by (unfold f, cexp, SpecFloat.fexp, SpecFloat.emin; lia).
    set (n := Ztrunc (scaled_mantissa radix2 (SpecFloat.fexp 53 1024) x)) in *.
    assert (X : x = IZR (n * 2 ^ (f - e)) * bpow radix2 e).
    { rewrite G at 1. unfold F2R. cbn [Fnum Fexp]. rewrite mult_IZR, Rmult_assoc. f_equal.
      replace (2 ^ (f - e))%Z with (Zpower radix2 (f - e)) by reflexivity.
      rewrite IZR_Zpower by lia. rewrite <- bpow_plus. f_equal. lia. }
    rewrite X in *. set (k := (n * 2 ^ (f - e))%Z) in *.
    assert (Hk : k <> m) by (intros ->; apply Hy; reflexivity).
    rewrite <- Rmult_minus_distr_r, Rabs_mult, (Rabs_pos_eq (bpow radix2 e)) by lra.
    rewrite <- (Rmult_1_l (bpow radix2 e)) at 1. apply Rmult_le_compat_r; [lra|].
    rewrite <- minus_IZR, <- abs_IZR. apply IZR_le. lia.
  - rewrite bpow_plus in Hb. assert (B : bpow radix2 52 = IZR (2 ^ 52)) by reflexivity. rewrite B in Hb.
    assert (M : IZR (2 ^ 52) + 1 <= IZR m) by (rewrite <- plus_IZR; apply IZR_le; lia).
    apply (Rmult_le_compat_r (bpow radix2 e)) in M; [|lra].
    pose proof (Rle_abs x). rewrite Rabs_minus_sym. eapply Rle_trans; [|apply Rle_abs]. lra.
Qed.
Lemma near_unique : forall (m e : Z) (c : f64) (x : R), (2 ^ 52 < m)%Z -> (-1074 <= e)%Z ->
  fin c = true -> b2r c = IZR m * bpow radix2 e -> Rabs (x - IZR m * bpow radix2 e) < bpow radix2 e / 2 ->
  nearest_double x c.
Proof.
  intros m e c x Hm He F C Hx. split; [exact F|]. intros y Fy Hy. rewrite C in *.
  pose proof (spacing m e y Hm He Hy) as S. set (z := IZR m * bpow radix2 e) in *.
  pose proof (Rabs_triang (b2r y - x) (x - z)) as T. replace (b2r y - x + (x - z)) with (b2r y - z) in T by ring.
  rewrite Rabs_minus_sym. lra.
Qed.

(** The six constants as literals. *)
Lemma c_lit : (c_pi : f64) = f64_lit 7074237752028440 (-51) /\ (c_piHalf : f64) = f64_lit 7074237752028440 (-52) /\
  (c_piQtr : f64) = f64_lit 7074237752028440 (-53) /\ (c_turnFull : f64) = f64_lit 7074237752028440 (-50).
Proof. repeat split; apply B2SF_inj; vm_compute; reflexivity. Qed.
Lemma near_scaled : forall (e : Z) (x : R), (-1000 <= e <= 900)%Z -> x = PI * bpow radix2 (e + 51) ->
  nearest_double x (f64_lit 7074237752028440 e).
Proof.
  intros e x He ->. set (m := 7074237752028440%Z).
  destruct (lit_exact m e) as [A B].
  - apply generic_format_FLT. exists (Float radix2 m e); [reflexivity|reflexivity|cbn [Fexp]; change (SpecFloat.emin 53 1024) with (-1074)%Z; lia].
  - unfold F2R. cbn [Fnum Fexp]. rewrite Rabs_pos_eq by (apply Rmult_le_pos; [apply IZR_le; lia|apply bpow_ge_0]).
    apply Rlt_le_trans with (bpow radix2 (53 + e)); [|apply bpow_le; lia].
    rewrite bpow_plus. apply Rmult_lt_compat_r; [apply bpow_gt_0|]. apply (IZR_lt m (2 ^ 53)). reflexivity.
  - apply (near_unique m e); auto; [reflexivity|lia|].
    rewrite bpow_plus. assert (B51 : bpow radix2 51 = 2251799813685248) by (cbn; lra).
    pose proof (bpow_gt_0 radix2 e) as Pe. pose proof pi_double as D.
    replace (PI * (bpow radix2 e * bpow radix2 51) - IZR m * bpow radix2 e)
      with ((PI - IZR m / bpow radix2 51) * bpow radix2 51 * bpow radix2 e) by (rewrite B51; field).
    rewrite Rabs_mult, (Rabs_pos_eq (bpow radix2 e)) by lra. rewrite B51.
    replace (bpow radix2 e / 2) with (/ 2 * bpow radix2 e) by field.
    apply Rmult_lt_compat_r; [exact Pe|]. unfold m. rewrite Rabs_pos_eq; lra.
Qed.
Lemma pi_nearest : nearest_double PI (c_pi : f64) /\ nearest_double (PI / 2) (c_piHalf : f64) /\
  nearest_double (PI / 4) (c_piQtr : f64) /\ nearest_double (2 * PI) (c_turnFull : f64) /\
  nearest_double PI (c_turnHalf : f64) /\ nearest_double (PI / 2) (c_turnQtr : f64).
Proof.
  destruct c_lit as (A & B & C & D). unfold c_turnHalf, c_turnQtr. rewrite B, C, D, A.
  assert (P : nearest_double PI (f64_lit 7074237752028440 (-51))) by (apply near_scaled; [lia|cbn; ring]).
  assert (H : nearest_double (PI / 2) (f64_lit 7074237752028440 (-52))) by (apply near_scaled; [lia|cbn; field]).
  assert (Q : nearest_double (PI / 4) (f64_lit 7074237752028440 (-53))) by (apply near_scaled; [lia|cbn; field]).
  assert (T : nearest_double (2 * PI) (f64_lit 7074237752028440 (-50))) by (apply near_scaled; [lia|cbn; ring]).
  exact (conj P (conj H (conj Q (conj T (conj P H))))).
Qed.
(** The model's literal is the double the decimal literal denotes. *)
Lemma pi_literal : nearest_double (3141592653589793 / 10 ^ 15) (c_pi : f64).
Proof.
  destruct c_lit as (A & _). rewrite A. set (m := 7074237752028440%Z).
  destruct (lit_exact m (-51)) as [F B].
  - apply generic_format_FLT. exists (Float radix2 m (-51)); [reflexivity|reflexivity|cbn [Fexp]; change (SpecFloat.emin 53 1024) with (-1074)%Z; lia].
  - unfold F2R. cbn [Fnum Fexp]. rewrite Rabs_pos_eq by (apply Rmult_le_pos; [apply IZR_le; lia|apply bpow_ge_0]).
    apply Rlt_le_trans with (bpow radix2 (53 + -51)); [|apply bpow_le; lia].
    rewrite bpow_plus. apply Rmult_lt_compat_r; [apply bpow_gt_0|]. apply (IZR_lt m (2 ^ 53)). reflexivity.
  - apply (near_unique m (-51)); auto; [reflexivity|lia|].
    assert (B51 : bpow radix2 (-51) = / 2251799813685248) by (cbn; lra). rewrite B51. unfold m.
    rewrite Rabs_left1; lra.
Qed.
