(** * C71: Text on standard output. *)

Require Import Reals ZArith Ascii String List.
From Flocq Require Import Core BinarySingleNaN.
Require Import Verif.Num Verif.Types Verif.B64 Verif.Func Verif.Stream Verif.Cout Verif.RealInst
  Verif.SpecCl Verif.SpecValid Verif.SpecRound Verif.SpecSame Verif.SpecText Verif.SpecIo Verif.SpecPower Verif.SpecFunc Verif.SpecExp Verif.SpecAnti Verif.SpecDemo Verif.ConstThm Verif.CoutFacts.
Import ListNotations.
Local Open Scope Z_scope.

(** C71: a number is written in the notation and with the precision of the
    stream: rounded to that many digits, ties to even. *)
Theorem C71_number : forall nn nt prec x, shows_as nn nt prec x (num_text nn nt prec x).
Proof. exact shows_as_ok. Qed.
Print Assumptions C71_number.
Example C71_number_cases :
  map (fun x => string_of_list_ascii (num_text false general 6 x))
    [f64_lit 1000000 0; f64_lit 999999 0; f64_lit 9999995 (-3); f64_lit 1 (-14); f64_lit 1 (-13); f64_lit (-5) (-1); B754_zero true; B754_nan; d100_1]
  = ["1e+06"; "999999"; "1.25e+06"; "6.10352e-05"; "0.00012207"; "-2.5"; "-0"; "nan"; "100.1"]%string.
Proof. vm_compute. reflexivity. Qed.

(** C71: in general notation with 17 digits or more a double is read back as
    it was; with fewer, from 2 on, to one digit less. *)
Theorem C71_number_back : forall nn prec (x : f64) rest c, 17 <= prec -> is_finite x = true -> opens rest ->
  get_num (mkIs (num_text nn general prec x ++ rest) false false) c = (Some x, mkIs rest (nilb rest) false).
Proof. exact number_back. Qed.
Print Assumptions C71_number_back.
Theorem C71_number_near : forall nn prec (x : f64), 2 <= prec -> is_finite x = true -> (Rabs (B2R x) <= bpow radix2 1023)%R ->
  exists v : f64, is_finite v = true /\ rounded_to (powerRZ 10 (1 - prec)) x v /\ forall rest c, opens rest ->
  get_num (mkIs (num_text nn general prec x ++ rest) false false) c = (Some v, mkIs rest (nilb rest) false).
Proof. exact number_near. Qed.
Print Assumptions C71_number_near.
Example C71_number_back_case : get_num (mkIs (num_text false general 17 d100_1 ++ [" "%char]) false false) None =
  (Some d100_1, mkIs [" "%char] false false).
Proof. apply C71_number_back; [reflexivity|reflexivity|left; reflexivity]. Qed.

(** C71: exp(MultiVector) writes ten lines, a label and a value each, if the
    argument is valid, ... *)
Theorem C71_exp : forall nn (L : Libm f64) (x : MultiVector f64) os, os_width os <= 0 ->
  Forall (fun k => valid_number (nth k (elems TMvec x) B754_nan)) (first_of_grade TMvec) -> exists toks,
  os_out (fst (exp_cout nn x os)) = (os_out os ++ labelled exp_labels toks)%list /\
  Forall2 (shows_as nn (os_nt os) (os_prec os)) (map snd (fst (exp_Mvec_io x))) toks /\
  same_format (fst (exp_cout nn x os)) os /\ snd (exp_cout nn x os) = exp_Mvec x.
Proof. exact exp_text. Qed.
Print Assumptions C71_exp.
(** ... and nothing otherwise. *)
Theorem C71_exp_silent : forall nn (L : Libm f64) (x : MultiVector f64) os,
  ~ Forall (fun k => valid_number (nth k (elems TMvec x) B754_nan)) (first_of_grade TMvec) -> fst (exp_cout nn x os) = os.
Proof. exact exp_silent. Qed.
Print Assumptions C71_exp_silent.
Example C71_exp_cases :
  Forall (fun k => valid_number (nth k (elems TMvec (mv_of_Vec (Vec (f64_lit 1 0) (f64_lit 3 5) B754_nan))) B754_nan)) (first_of_grade TMvec) /\
  ~ Forall (fun k => valid_number (nth k (elems TMvec (mv_of_Sca (Sca (B754_nan : f64)))) B754_nan)) (first_of_grade TMvec).
Proof. exact exp_lines_cases. Qed.
(** In exact arithmetic the ten values are: *)
Theorem C71_exp_values : forall M : MultiVector R,
  let p := cnorm (den TVec (part_minus M)) in let n := cnorm (den TVec (part_plus M)) in
  let s := sca_0 (mvSca M) in let t := tri_0 (mvTri M) in
  (exists sp sn, map snd (fst (exp_Mvec_io (exact TMvec M))) =
    map Some [p; n; cos p; cos n; sp; sn; exp s / 2; exp t; exp (- t); exp t + exp (- t)] /\
  Rabs (sp - sinc p) <= 2 / 10 ^ 28 /\ Rabs (sn - sinc n) <= 2 / 10 ^ 28)%R.
Proof. exact exp_values. Qed.
Print Assumptions C71_exp_values.

(** C71: the demonstration program writes these lines, whatever the values it
    starts from. *)
Theorem C71_demo : forall nn dub vec biv tri vecA vecB os, os_width os <= 0 -> exists d t1 t2 t3 t4 t5 t6 t7 t8,
  os_out (demo nn dub vec biv tri vecA vecB os) = (os_out os ++ demo_text d t1 t2 t3 t4 t5 t6 t7 t8)%list /\
  shows_as nn (os_nt os) (os_prec os) dub d /\
  shows_object nn TSca (Sca dub) t1 /\ shows_object nn TVec vec t2 /\ shows_object nn TBiv biv t3 /\ shows_object nn TTri tri t4 /\
  shows_object nn TSpin (demo_spin vecA vecB) t5 /\ shows_object nn TImsp (demo_imsp vecA vecB) t6 /\
  shows_object nn TMvec (demo_orig vecA vecB) t7 /\ shows_object nn TMvec (demo_orig vecA vecB) t8.
Proof. exact demo_out. Qed.
Print Assumptions C71_demo.
(** The dual of the product and the sum of both, component by component. *)
Theorem C71_demo_values : forall vecA vecB : Vector f64, exists s p q r : f64,
  elems TSpin (demo_spin vecA vecB) = [s; p; q; r] /\
  elems TImsp (demo_imsp vecA vecB) = [Bopp p; Bopp q; Bopp r; s] /\
  Forall2 same (elems TMvec (demo_orig vecA vecB)) [s; Bopp p; Bopp q; Bopp r; p; q; r; s].
Proof. exact demo_values. Qed.
Print Assumptions C71_demo_values.
(** The numbers in the program are the doubles nearest to what is written. *)
Theorem C71_demo_literals :
  map B2R [d100_1; d100_2; d100_3; d200_1; d200_2; d200_3; d300_1] =
  map nearest64 [1001 / 10; 1002 / 10; 1003 / 10; 2001 / 10; 2002 / 10; 2003 / 10; 3001 / 10]%R.
Proof. exact demo_literals. Qed.
Print Assumptions C71_demo_literals.
Example C71_demo_case : string_of_list_ascii (os_out (demo_main false os_new)) =
"
Basic Types
dub: 100.1
sca:   100.100000
vec:   100.100000  100.200000  100.300000
biv:   200.100000  200.200000  200.300000
tri:   300.100000

Composite Types
spinAB:   146.000000   -14.000000   21.000000   -7.000000
imspAB:    14.000000  -21.000000    7.000000   146.000000
multiOrig:   146.000000    14.000000  -21.000000    7.000000   -14.000000   21.000000   -7.000000   146.000000
multiCopy:   146.000000    14.000000  -21.000000    7.000000   -14.000000   21.000000   -7.000000   146.000000
"%string.
Proof. vm_compute. reflexivity. Qed.
