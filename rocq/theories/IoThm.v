(** * Reading and writing: particular texts and numbers. *)

Require Import Reals ZArith List Bool Ascii String Lra Lia.
From Flocq Require Import Core BinarySingleNaN.
Require Import Verif.Num Verif.Types Verif.B64 Verif.Validity Verif.Stream Verif.Io Verif.SpecValid Verif.SpecRound Verif.SpecCompare
  Verif.SpecText Verif.SpecIo Verif.ValidFacts Verif.ParseFacts Verif.InFacts Verif.OutFacts Verif.RoundTrip.
Import ListNotations.

(** A double written with 17 digits or more and read. *)
Lemma enote_number : forall nn (x : f64) a rest d, is_finite x = true -> (16 <= a < 2 ^ 31)%Z -> opens rest ->
  exists r, words r = words rest /\
    get_num (mkIs (enote_Dub nn x a ++ rest) false false) d = (Some x, mkIs r (nilb r) false).
Proof.
  intros nn x a rest d F Ha O. destruct (enote_reads nn TDub _ eq_refl x a rest Ha) as (r & R & W); [repeat constructor; exact F|exact O|].
  exists r. split; [exact W|]. cbn [elems] in R. inversion R as [|? ? s' ? ? A B]; subst. inversion B; subst. apply get_reads, A.
Qed.

Definition text_of (s : string) : text := list_ascii_of_string s.
(** 0.1 + 0.2; the largest double; the smallest normal one. *)
Definition third : f64 := f64_lit 5404319552844596 (-54).
Definition dmax : f64 := f64_lit (2 ^ 53 - 1) 971.
Definition dmin : f64 := f64_lit 1 (-1022).
Lemma third_valid : valid_number third.
Proof. apply isValid_number. vm_compute. reflexivity. Qed.
Lemma dmax_valid : valid_number dmax.
Proof. apply isValid_number. vm_compute. reflexivity. Qed.
Lemma dmin_valid : valid_number dmin.
Proof. apply isValid_number. vm_compute. reflexivity. Qed.
Lemma enote_third : forall nn, enote_Dub nn third 15 = text_of " 3.000000000000000e-01".
Proof. intros nn. vm_compute. reflexivity. Qed.
Lemma enote_dmax : forall nn, enote_Dub nn dmax 15 = text_of "1.797693134862316e+308".
Proof. intros nn. vm_compute. reflexivity. Qed.
Lemma enote_dmin : forall nn, enote_Dub nn dmin 15 = text_of "2.225073858507201e-308".
Proof. intros nn. vm_compute. reflexivity. Qed.

Definition reads_back (nn : bool) (x : f64) (a : Z) : Prop :=
  forall d, fst (get_num (mkIs (enote_Dub nn x a) false false) d) = Some x.
Lemma default_loses : forall nn, ~ (forall x : f64, valid_number x -> reads_back nn x 15).
Proof.
  intros nn H. specialize (H third third_valid None). rewrite enote_third in H.
  apply (f_equal (option_map B2SF)) in H. vm_compute in H. discriminate.
Qed.
Lemma narrowed : forall nn, ~ (forall (x : f64) a, valid_number x -> (16 <= a)%Z -> reads_back nn x a).
Proof.
  intros nn H. specialize (H (f64_lit 3 (-1)) (2 ^ 32)%Z). unfold reads_back in H. assert (V : valid_number (f64_lit 3 (-1))) by (apply isValid_number; vm_compute; reflexivity). specialize (H V ltac:(lia) None).
  apply (f_equal (option_map B2SF)) in H. revert H. destruct nn; vm_compute; discriminate.
Qed.
(** The largest double comes back as an error, the smallest one as an invalid
    number. *)
Lemma dmax_unreadable : forall nn d, is_fail (snd (get_num (mkIs (enote_Dub nn dmax 15) false false) d)) = true.
Proof. intros nn d. rewrite enote_dmax. vm_compute. reflexivity. Qed.
Lemma dmin_invalid : forall nn d, exists v, fst (get_num (mkIs (enote_Dub nn dmin 15) false false) d) = Some v /\ ~ valid_number v.
Proof.
  intros nn d. rewrite enote_dmin.
  assert (E : option_map isValid_Dub (fst (get_num (mkIs (text_of "2.225073858507201e-308") false false) d)) = Some false)
    by (vm_compute; reflexivity).
  destruct (fst (get_num _ d)) as [v|]; [|discriminate]. exists v. split; [reflexivity|]. rewrite <- isValid_number.
  cbn [option_map] in E. injection E as E. rewrite E. discriminate.
Qed.

(** What an extraction gives, in comparable form. *)
Definition outcome (t : ty) (s : string) : option (list (option SpecFloat.spec_float) * text * bool * bool) :=
  match extract t (mkIs (text_of s) false false) (mapv (fun _ => None) t (Const.zero t : val f64 t)) with
  | None => None
  | Some (y, i) => Some (map (option_map B2SF) (elems t y), is_text i, is_eof i, is_fail i)
  end.
Definition num (m e : Z) : option SpecFloat.spec_float := Some (B2SF (f64_lit m e)).
Definition nan_ : option SpecFloat.spec_float := Some SpecFloat.S754_nan.
Lemma vector_read : outcome TVec " 1 -2.5
 3e2 x" = Some ([num 1 0; num (-5) (-1); num 300 0], text_of " x", false, false).
Proof. vm_compute. reflexivity. Qed.
Lemma spinor_short : outcome TSpin "1 2 3" = Some ([num 1 0; nan_; nan_; nan_], [], true, true).
Proof. vm_compute. reflexivity. Qed.
Lemma imspin_shifted : outcome TImsp "1e-310 2 3 4" = Some ([nan_; nan_; nan_; num 2 0], text_of " 3 4", false, false).
Proof. vm_compute. reflexivity. Qed.
Lemma third_shown : forall nn, enote_Dub nn third 15 = text_of " 3.000000000000000e-01" /\
  enote_Dub nn third 16 = text_of " 3.0000000000000004e-01".
Proof. intros nn. split; vm_compute; reflexivity. Qed.
Lemma fixed_shown : forall nn,
  map (option_map (fun f => f (mkImsp (Vec (f64_lit 1 0) (f64_lit (-5) (-2)) (B754_infinity true)) (Tri third)) 2 3)%Z)
    [fixed nn TImsp] = [Some (text_of "   1.000  -1.250    -inf     0.300")].
Proof. intros nn. vm_compute. reflexivity. Qed.
Lemma glued : forall nn,
  option_map (fun f => os_out (f (Vec (f64_lit 1 0) (f64_lit 1 0) (f64_lit 1 0))
    (mkOs [] fixed_nt 6 40 "*"%char true))) (insert nn TVec)
  = Some (text_of "    1.000000    1.000000    1.000000****").
Proof. intros nn. vm_compute. reflexivity. Qed.
Lemma fits_cases : fits 2 3 (f64_lit (-5) (-2)) /\ ~ fits 2 3 (f64_lit 100 0).
Proof.
  assert (F1 : is_finite (f64_lit (-5) (-2)) = true) by (vm_compute; reflexivity).
  assert (F2 : is_finite (f64_lit 100 0) = true) by (vm_compute; reflexivity).
  assert (V1 : B2R (f64_lit (-5) (-2)) = (IZR (-5) * bpow radix2 (-2))%R).
  { rewrite <- SF2R_B2SF. replace (B2SF (f64_lit (-5) (-2))) with (SpecFloat.S754_finite true 5629499534213120 (-52)) by (vm_compute; reflexivity).
    cbn. unfold F2R. cbn. lra. }
  assert (V2 : B2R (f64_lit 100 0) = (IZR 100 * bpow radix2 0)%R).
  { rewrite <- SF2R_B2SF. replace (B2SF (f64_lit 100 0)) with (SpecFloat.S754_finite false 7036874417766400 (-46)) by (vm_compute; reflexivity).
    cbn. unfold F2R. cbn. lra. }
  assert (T3 : powerRZ 10 3 = 1000%R) by (rewrite pow10_Z by lia; reflexivity).
  assert (T4 : powerRZ 10 (- 3) = (/ 1000)%R) by (rewrite pow10_neg by lia; reflexivity).
  assert (T2 : powerRZ 10 2 = 100%R) by (rewrite pow10_Z by lia; reflexivity).
  unfold fits, nearest_decimal. change (- (3))%Z with (-3)%Z. rewrite F1, F2, V1, V2, T2, T3, T4. split.
  - left. split; [reflexivity|]. split; [lia|].
    replace (IZR (-5) * bpow radix2 (-2) * 1000)%R with (IZR (-1250)) by (cbn; lra). rewrite (@Zrnd_IZR ZnearestE (valid_rnd_N _)).
    rewrite Rabs_left; cbn; lra.
  - intros [(_ & _ & H)|[H _]]; [|discriminate]. revert H.
    replace (IZR 100 * bpow radix2 0 * 1000)%R with (IZR 100000) by (cbn; lra). rewrite (@Zrnd_IZR ZnearestE (valid_rnd_N _)).
    rewrite Rabs_pos_eq; cbn; lra.
Qed.
