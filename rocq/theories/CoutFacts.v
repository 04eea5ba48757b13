(** * Standard output: proofs. *)

Require Import Reals ZArith Bool Ascii String List Lra Lia.
From Flocq Require Import Core BinarySingleNaN.
Require Import Verif.Num Verif.Types Verif.B64 Verif.B64Facts Verif.Func Verif.OpsMul Verif.OpsAdd Verif.OpsUni Verif.Validity Verif.Stream Verif.Io Verif.Cout
  Verif.SpecValid Verif.SpecRound Verif.SpecSame Verif.SpecText Verif.SpecIo Verif.NumText Verif.GeneralText Verif.OutFacts Verif.ParseFacts Verif.RoundTrip Verif.SpecPower Verif.PowerFacts
  Verif.ConstThm Verif.SpecDemo.
Import ListNotations.
Local Open Scope Z_scope.

Lemma shows_as_ok : forall nn nt prec x, shows_as nn nt prec x (num_text nn nt prec x).
Proof.
  intros nn nt prec x. unfold shows_as. replace (if Z_lt_dec prec 0 then 6 else prec) with (if prec <? 0 then 6 else prec)
    by (destruct (Z_lt_dec prec 0), (Z.ltb_spec prec 0); try reflexivity; lia).
  destruct nt; [apply shows_general_ok|apply shows_fixed_ok|apply shows_sci_ok].
Qed.

(** ** Reading general notation back *)
Local Open Scope R_scope.
Lemma general_value : forall nn P (x : f64) tok, is_finite x = true -> shows_general nn P x tok ->
  exists n, tok = numeral_text n /\ proper n /\ is_minus (nm_sign n) = Bsign x /\
    (B2R x = 0 -> numeral_value n = 0) /\
    (B2R x <> 0 -> exists e, powerRZ 10 e <= Rabs (B2R x) /\ numeral_value n = nearest_decimal (Z.of_nat P - 1 - e) (B2R x)).
Proof.
  intros nn P x tok F S. destruct x as [s|s| |s m e B]; try discriminate; cbn [shows_general] in S.
  - exists (mkNumeral (minus_if s) [0%nat] None None). subst tok. split; [destruct s; reflexivity|].
    split; [repeat split; try discriminate; repeat constructor|]. split; [apply minus_minus|]. split; [|cbn; lra]. intros _. unfold numeral_value. cbn -[IZR]. ring.
  - destruct S as (n & e' & k & A & P1 & Sg & _ & _ & [R1 _] & V & _). exists n. split; [exact A|]. split; [exact P1|].
    split; [rewrite Sg; apply minus_minus|]. split; [|eauto].
    intros X. exfalso. apply (F2R_neq_0 radix2 (Float radix2 (cond_Zopp s (Zpos m)) e)); [destruct s; discriminate|exact X].
Qed.
Lemma general_back : forall nn P (x : f64) tok, (17 <= P)%nat -> is_finite x = true -> shows_general nn P x tok -> token_reads tok x.
Proof.
  intros nn P x tok HP F S. destruct (general_value nn P x tok F S) as (n & -> & Pn & Sg & Z0 & NZ).
  apply numeral_reads; auto. destruct (Req_dec (B2R x) 0) as [E|E].
  - rewrite (Z0 E), nearest0. exact E.
  - destruct (NZ E) as (e & R1 & ->). symmetry. apply digits17; [lia|exact R1].
Qed.
Lemma general_near : forall nn P (x : f64) tok, (2 <= P)%nat -> is_finite x = true -> Rabs (B2R x) <= bpow radix2 1023 ->
  shows_general nn P x tok -> exists v, token_reads tok v /\ is_finite v = true /\
    rounded_to (powerRZ 10 (1 - Z.of_nat P)) x v.
Proof.
  intros nn P x tok HP F L S. set (t := powerRZ 10 (1 - Z.of_nat P)).
  assert (Tp : 0 < t <= / 10).
  { split; [apply pow10_pos|]. unfold t. replace (1 - Z.of_nat P)%Z with (- (Z.of_nat P - 1))%Z by lia. apply tenth. lia. }
  destruct (general_value nn P x tok F S) as (n & -> & Pn & Sg & Z0 & NZ).
  assert (E : Rabs (numeral_value n - B2R x) <= / 2 * (t * Rabs (B2R x))).
  { destruct (Req_dec (B2R x) 0) as [E|E].
    - rewrite (Z0 E), E, Rminus_0_r, Rabs_R0. lra.
    - destruct (NZ E) as (e & R1 & ->). eapply Rle_trans; [apply nearest_decimal_err|]. apply Rmult_le_compat_l; [lra|].
      replace (- (Z.of_nat P - 1 - e))%Z with (1 - Z.of_nat P + e)%Z by lia. rewrite pow10_add. apply Rmult_le_compat_l; [lra|exact R1]. }
  pose proof (twice x (numeral_value n)) as T.
  assert (T2 : Rabs (nearest64 (numeral_value n) - B2R x) <= t * Rabs (B2R x)) by lra.
  destruct (exists_double n Pn) as (v & V1 & V2 & V3 & _).
  - apply Rle_lt_trans with (Rabs (B2R x) + / 10 * Rabs (B2R x)).
    + replace (nearest64 (numeral_value n)) with (B2R x + (nearest64 (numeral_value n) - B2R x)) by ring.
      eapply Rle_trans; [apply Rabs_triang|]. apply Rplus_le_compat_l. eapply Rle_trans; [exact T2|].
      apply Rmult_le_compat_r; [apply Rabs_pos|lra].
    + change (bpow radix2 1024) with (bpow radix2 (1 + 1023)). rewrite bpow_plus. change (bpow radix2 1) with 2.
      pose proof (bpow_gt_0 radix2 1023). set (q := bpow radix2 1023) in *. lra.
  - exists v. split; [exact V3|]. split; [exact V1|]. unfold rounded_to. rewrite V2. exact T2.
Qed.
Local Open Scope Z_scope.

(** ** Lines *)
Lemma show_num_out : forall nn lab x os, os_width os <= 0 -> exists tok, shows_as nn (os_nt os) (os_prec os) x tok /\
  os_out (show_num nn lab x os) = os_out os ++ lab ++ tok ++ [newline] /\
  same_format (show_num nn lab x os) os /\ os_width (show_num nn lab x os) = 0.
Proof.
  intros nn lab x os W. exists (num_text nn (os_nt os) (os_prec os) x). split; [apply shows_as_ok|].
  destruct (put_plain os lab W) as [A B]. unfold show_num, endl, put_num. cbn [os_out os_width].
  change (os_nt (put_text os lab)) with (os_nt os). change (os_prec (put_text os lab)) with (os_prec os).
  destruct (put_plain (put_text os lab) (num_text nn (os_nt os) (os_prec os) x)) as [C D]; [lia|].
  split; [|split; [repeat split|reflexivity]]. rewrite C, A, <- !app_assoc. reflexivity.
Qed.
Lemma lines_out : forall nn (tr : list (label * f64)) os, os_width os <= 0 -> exists toks,
  let os' := fold_left (fun os p => show_num nn (label_text (fst p)) (snd p) os) tr os in
  os_out os' = os_out os ++ labelled (map (fun p => label_text (fst p)) tr) toks /\
  Forall2 (shows_as nn (os_nt os) (os_prec os)) (map snd tr) toks /\ same_format os' os /\ os_width os' <= 0.
Proof.
  intros nn. induction tr as [|[l v] tr IH]; intros os W.
  - exists []. cbn. split; [symmetry; apply app_nil_r|]. split; [constructor|]. split; [repeat split|exact W].
  - cbn [fold_left map fst snd]. destruct (show_num_out nn (label_text l) v os W) as (tok & S & A & (F1 & F2 & F3) & W').
    destruct (IH (show_num nn (label_text l) v os)) as (toks & E & T & G & W''); [lia|]. exists (tok :: toks). cbv zeta in *.
    split; [|split; [|split; [|exact W'']]].
    + rewrite E, A. unfold labelled. cbn [combine map concat fst snd]. rewrite <- !app_assoc. reflexivity.
    + constructor; [exact S|]. rewrite F1, F2 in T. exact T.
    + eapply same_format_trans; [exact G|]. split; [exact F1|]. split; [exact F2|exact F3].
Qed.
Lemma exp_text : forall nn (L : Libm f64) (x : MultiVector f64) os, os_width os <= 0 ->
  Forall (fun k => valid_number (nth k (elems TMvec x) B754_nan)) (first_of_grade TMvec) -> exists toks,
  os_out (fst (exp_cout nn x os)) = os_out os ++ labelled exp_labels toks /\
  Forall2 (shows_as nn (os_nt os) (os_prec os)) (map snd (fst (exp_Mvec_io x))) toks /\
  same_format (fst (exp_cout nn x os)) os /\ snd (exp_cout nn x os) = exp_Mvec x.
Proof.
  intros nn L x os W V. destruct (lines_out nn (fst (exp_Mvec_io x)) os W) as (toks & A & B & C & _). exists toks.
  unfold exp_cout. cbn [fst snd]. split; [|split; [exact B|split; [exact C|reflexivity]]]. rewrite A. do 2 f_equal.
  replace (map (fun p => label_text (fst p)) (fst (exp_Mvec_io x))) with (map label_text (map fst (fst (exp_Mvec_io x)))) by apply map_map.
  rewrite (proj1 (exp_lines L x) V). reflexivity.
Qed.
Lemma exp_silent : forall nn (L : Libm f64) (x : MultiVector f64) os,
  ~ Forall (fun k => valid_number (nth k (elems TMvec x) B754_nan)) (first_of_grade TMvec) -> fst (exp_cout nn x os) = os.
Proof. intros nn L x os V. unfold exp_cout. rewrite (proj2 (exp_lines L x) V). reflexivity. Qed.

(** ** The demonstration program *)
Lemma show_obj_out : forall nn lab t f, insert nn t = Some f -> forall x os, os_width os <= 0 -> exists s, shows_object nn t x s /\
  os_out (show_obj lab (f x) os) = os_out os ++ lab ++ s ++ [newline] /\
  same_format (show_obj lab (f x) os) os /\ os_width (show_obj lab (f x) os) = 0.
Proof.
  intros nn lab t f H x os W. destruct (put_plain os lab W) as [A B].
  destruct (insert_words nn t f H x (put_text os lab)) as (s & E & S); [right; lia|]. exists s. split; [exact S|].
  destruct (insert_state nn t f H x (put_text os lab)) as [F W']. unfold show_obj, endl. cbn [os_out os_width].
  split; [|split; [exact F|exact W']]. rewrite E, A, <- !app_assoc. reflexivity.
Qed.

Lemma copy_orig : forall vecA vecB, demo_copy vecA vecB = demo_orig vecA vecB.
Proof. reflexivity. Qed.
Lemma demo_out : forall nn dub vec biv tri vecA vecB os, os_width os <= 0 -> exists d t1 t2 t3 t4 t5 t6 t7 t8,
  os_out (demo nn dub vec biv tri vecA vecB os) = (os_out os ++ demo_text d t1 t2 t3 t4 t5 t6 t7 t8)%list /\
  shows_as nn (os_nt os) (os_prec os) dub d /\
  shows_object nn TSca (Sca dub) t1 /\ shows_object nn TVec vec t2 /\ shows_object nn TBiv biv t3 /\ shows_object nn TTri tri t4 /\
  shows_object nn TSpin (demo_spin vecA vecB) t5 /\ shows_object nn TImsp (demo_imsp vecA vecB) t6 /\
  shows_object nn TMvec (demo_orig vecA vecB) t7 /\ shows_object nn TMvec (demo_orig vecA vecB) t8.
Proof.
  intros nn dub vec biv tri vecA vecB os W. unfold demo, showFundamentalTypes, showCompositeTypes. cbv zeta. rewrite copy_orig.
  destruct (put_plain os (newline :: txt "Basic Types" ++ [newline]) W) as [A0 W0].
  set (o0 := put_text os _) in *. change (os_nt os) with (os_nt o0). change (os_prec os) with (os_prec o0). clearbody o0.
  destruct (show_num_out nn (txt "dub: ") dub o0) as (d & D & A1 & _ & W1); [lia|]. set (o1 := show_num _ _ _ o0) in *. clearbody o1.
  destruct (show_obj_out nn (txt "sca: ") TSca _ eq_refl (Sca dub) o1) as (t1 & S1 & A2 & _ & W2); [lia|].
  set (o2 := show_obj (txt "sca: ") _ o1) in *. clearbody o2.
  destruct (show_obj_out nn (txt "vec: ") TVec _ eq_refl (vec) o2) as (t2 & S2 & A3 & _ & W3); [lia|].
  set (o3 := show_obj (txt "vec: ") _ o2) in *. clearbody o3.
  destruct (show_obj_out nn (txt "biv: ") TBiv _ eq_refl (biv) o3) as (t3 & S3 & A4 & _ & W4); [lia|].
  set (o4 := show_obj (txt "biv: ") _ o3) in *. clearbody o4.
  destruct (show_obj_out nn (txt "tri: ") TTri _ eq_refl (tri) o4) as (t4 & S4 & A5 & _ & W5); [lia|].
  set (o5 := show_obj (txt "tri: ") _ o4) in *. clearbody o5.
  destruct (put_plain o5 (newline :: txt "Composite Types" ++ [newline])) as [A9 W9]; [lia|]. set (o9 := put_text o5 _) in *. clearbody o9.
  destruct (show_obj_out nn (txt "spinAB: ") TSpin _ eq_refl (demo_spin vecA vecB) o9) as (t9 & S9 & A10 & _ & W10); [lia|].
  set (o10 := show_obj (txt "spinAB: ") _ o9) in *. clearbody o10.
  destruct (show_obj_out nn (txt "imspAB: ") TImsp _ eq_refl (demo_imsp vecA vecB) o10) as (t10 & S10 & A11 & _ & W11); [lia|].
  set (o11 := show_obj (txt "imspAB: ") _ o10) in *. clearbody o11.
  destruct (show_obj_out nn (txt "multiOrig: ") TMvec _ eq_refl (demo_orig vecA vecB) o11) as (t11 & S11 & A12 & _ & W12); [lia|].
  set (o12 := show_obj (txt "multiOrig: ") _ o11) in *. clearbody o12.
  destruct (show_obj_out nn (txt "multiCopy: ") TMvec _ eq_refl (demo_orig vecA vecB) o12) as (t12 & S12 & A13 & _ & W13); [lia|].
  set (o13 := show_obj (txt "multiCopy: ") _ o12) in *. clearbody o13.
  exists d, t1, t2, t3, t4, t9, t10, t11, t12.
  split; [|split; [exact D|split; [exact S1|split; [exact S2|split; [exact S3|split; [exact S4|split; [exact S9|split; [exact S10|split; [exact S11|exact S12]]]]]]]]].
  rewrite A13, A12, A11, A10, A9, A5, A4, A3, A2, A1, A0. unfold demo_text. cbn [app]. rewrite <- !app_assoc. cbn [app]. rewrite <- !app_assoc. reflexivity.
Qed.

(** ** The values shown *)
Lemma plus_zero_same : forall x : f64, same (Bplus mode_NE x (B754_zero false)) x /\ same (Bplus mode_NE (B754_zero false) x) x.
Proof.
  intros x. destruct x as [s|s| |s m e B]; split; try (left; reflexivity); right; exists false, s; destruct s; split; reflexivity.
Qed.
Lemma demo_values : forall vecA vecB : Vector f64, exists s p q r : f64,
  elems TSpin (demo_spin vecA vecB) = [s; p; q; r] /\
  elems TImsp (demo_imsp vecA vecB) = [Bopp p; Bopp q; Bopp r; s] /\
  Forall2 same (elems TMvec (demo_orig vecA vecB)) [s; Bopp p; Bopp q; Bopp r; p; q; r; s].
Proof.
  intros vecA vecB. destruct (demo_spin vecA vecB) as [sc bv] eqn:E; destruct sc as [[s]], bv as [[p q r]]. exists s, p, q, r.
  unfold demo_orig, demo_imsp. rewrite E. split; [reflexivity|]. split; [reflexivity|].
  repeat (apply Forall2_cons; [apply plus_zero_same|]). apply Forall2_nil.
Qed.
Lemma demo_literals :
  map B2R [d100_1; d100_2; d100_3; d200_1; d200_2; d200_3; d300_1] =
  map nearest64 [1001 / 10; 1002 / 10; 1003 / 10; 2001 / 10; 2002 / 10; 2003 / 10; 3001 / 10]%R.
Proof.
  assert (H : forall n (x : f64), x = nearest_frac false n 10 -> is_finite x = true -> B2R x = nearest64 (IZR (Zpos n) / 10)).
  { intros n x -> F. pose proof (nearest_frac_ok false n 10) as N. cbn zeta in N.
    destruct (Rlt_bool _ _) in N; [|rewrite N in F; discriminate]. destruct N as (_ & -> & _). f_equal. cbn. lra. }
  cbn [map]. repeat (apply f_equal2; [apply H; [apply B2SF_inj; vm_compute; reflexivity|reflexivity]|]). reflexivity.
Qed.

Require Import Verif.SpecFunc Verif.SpecCl Verif.AlgTac Verif.RealInst Verif.FuncFacts Verif.LogThm Verif.SpecExp Verif.FuncThm Verif.SpecAnti.
Local Open Scope R_scope.
Lemma exp_values : forall M : MultiVector R,
  let p := cnorm (den TVec (part_minus M)) in let n := cnorm (den TVec (part_plus M)) in
  let s := sca_0 (mvSca M) in let t := tri_0 (mvTri M) in
  exists sp sn, map snd (fst (exp_Mvec_io (exact TMvec M))) =
    map Some [p; n; cos p; cos n; sp; sn; exp s / 2; exp t; exp (- t); exp t + exp (- t)] /\
  Rabs (sp - sinc p) <= 2 / 10 ^ 28 /\ Rabs (sn - sinc n) <= 2 / 10 ^ 28.
Proof.
  intros M p n s t. exists (Rsync p), (Rsync n). split; [|split; apply Rsync_error, sqrt_pos].
  unfold exp_Mvec_io. change (isValid_Mvec (exact TMvec M)) with (isValid TMvec (exact TMvec M)). rewrite isValid_exact.
  assert (Ep : p = sqrt ((vec_2 (mvVec M) - biv_2 (mvBiv M)) * (vec_2 (mvVec M) - biv_2 (mvBiv M)) +
     (vec_1 (mvVec M) + - biv_1 (mvBiv M)) * (vec_1 (mvVec M) + - biv_1 (mvBiv M)) +
     (vec_0 (mvVec M) - biv_0 (mvBiv M)) * (vec_0 (mvVec M) - biv_0 (mvBiv M)))).
  { unfold p, cnorm, part_minus. f_equal. clear. dvals; dring. }
  assert (En : n = sqrt ((vec_2 (mvVec M) + biv_2 (mvBiv M)) * (vec_2 (mvVec M) + biv_2 (mvBiv M)) +
     (vec_1 (mvVec M) - - biv_1 (mvBiv M)) * (vec_1 (mvVec M) - - biv_1 (mvBiv M)) +
     (vec_0 (mvVec M) + biv_0 (mvBiv M)) * (vec_0 (mvVec M) + biv_0 (mvBiv M)))).
  { unfold n, cnorm, part_plus. f_equal. clear. dvals; dring. }
  rewrite Ep, En. clear Ep En p n. unfold s, t. clear s t. dvals.
  change (@sync xreal Arith_X Libm_X) with xsync.
  cbv -[Rplus Rmult Rminus Ropp Rinv Rdiv R R0 R1 IZR xsync Rsync xsqrt cos sin exp sqrt].
  rewrite !xsqrt_some by (pose proof Rle_0_sqr as h; unfold Rsqr in h; repeat apply Rplus_le_le_0_compat; apply h).
  unfold xsync; rewrite !sync_exact.
  repeat (apply f_equal2; [apply f_equal; try reflexivity; field|]). reflexivity.
Qed.

(** ** Writing a number and reading it back *)
Lemma general_precision : forall nn prec (x : f64), (0 <= prec)%Z -> shows_general nn (Nat.max (Z.to_nat prec) 1) x (num_text nn general prec x).
Proof.
  intros nn prec x H. pose proof (shows_general_ok nn prec x) as S. destruct (Z.ltb_spec prec 0); [lia|]. exact S.
Qed.
Lemma number_back : forall nn prec (x : f64) rest c, (17 <= prec)%Z -> is_finite x = true -> opens rest ->
  get_num (mkIs (num_text nn general prec x ++ rest) false false) c = (Some x, mkIs rest (nilb rest) false).
Proof.
  intros nn prec x rest c H F O. apply get_reads. apply (general_back nn (Nat.max (Z.to_nat prec) 1)); [lia|exact F| |exact O].
  apply general_precision. lia.
Qed.
Lemma number_near : forall nn prec (x : f64), (2 <= prec)%Z -> is_finite x = true -> Rabs (B2R x) <= bpow radix2 1023 ->
  exists v : f64, is_finite v = true /\ rounded_to (powerRZ 10 (1 - prec)) x v /\ forall rest c, opens rest ->
  get_num (mkIs (num_text nn general prec x ++ rest) false false) c = (Some v, mkIs rest (nilb rest) false).
Proof.
  intros nn prec x H F M. destruct (general_near nn (Nat.max (Z.to_nat prec) 1) x (num_text nn general prec x)) as (v & T & Fv & R1);
    [lia|exact F|exact M|apply general_precision; lia|]. exists v. split; [exact Fv|]. split.
  - replace (Z.of_nat (Nat.max (Z.to_nat prec) 1)) with prec in R1 by lia. exact R1.
  - intros rest c O. apply get_reads, T, O.
Qed.
