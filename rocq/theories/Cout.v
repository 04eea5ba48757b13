(** * Model of what is written to [std::cout].

    By exp(MultiVector), include/g3func.hpp, and by the demonstration program
    demo/helloEngabra.cpp.  The state of [std::cout] is an [ostream]; writing
    does not fail. *)

Require Import ZArith List Bool Ascii String.
From Flocq Require Import BinarySingleNaN.
Require Import Verif.Num Verif.Types Verif.B64 Verif.Func Verif.OpsMul Verif.OpsUni Verif.OpsAdd Verif.Stream Verif.Io.
Import ListNotations.

(** The character [std::endl] puts, g3func.hpp:647-673. *)
Definition newline : ascii := "010"%char.
(** A string literal of g3func.hpp:647-673 or demo/helloEngabra.cpp:65-125. *)
Definition txt (s : string) : text := list_ascii_of_string s.
(** [std::endl]: a character put regardless of the width, which stays. *)
(** called in g3func.hpp:647-673 and demo/helloEngabra.cpp:65-125 *)
Definition endl (os : ostream) : ostream :=
  mkOs (os_out os ++ [newline]) (os_nt os) (os_prec os) (os_width os) (os_fill os) (os_left os).

Section Cout.
Context (nanneg : bool).

(** ** exp(MultiVector) *)
(** [std::cout << label << value << std::endl] *)
(** g3func.hpp:647-673 *)
Definition show_num (label : text) (value : f64) (cout : ostream) : ostream :=
  endl (put_num nanneg (put_text cout label) value).
(** The labels of g3func.hpp:647-648, 659-663, 670-673. *)
Definition label_text (l : label) : text :=
  txt match l with
      | Lapos => "apos: " | Laneg => "aneg: "
      | Lcospos => "cospos: " | Lcosneg => "cosneg: "
      | Lsyncpos => "syncpos: " | Lsyncneg => "syncneg: "
      | Lhea0 => "hea0  : " | Lepa123 => "epa123: " | Lena123 => "ena123: "
      | Lsum => " sum  : "
      end.
(** g3func.hpp:612-702 with its output. *)
Definition exp_cout {L : Libm f64} (someItem : MultiVector f64) (cout : ostream) : ostream * MultiVector f64 :=
  (fold_left (fun os p => show_num (label_text (fst p)) (snd p) os) (fst (exp_Mvec_io someItem)) cout,
   snd (exp_Mvec_io someItem)).

(** ** The demonstration program *)
(** [std::cout << label << x << std::endl] with the operator<< of a type of
    the library. *)
(** helloEngabra.cpp:65-125 *)
Definition show_obj (label : text) (out : ostream -> ostream) (cout : ostream) : ostream :=
  endl (out (put_text cout label)).
(** helloEngabra.cpp:45-70.  The four values are parameters here;
    [demo_main] supplies those of the program. *)
Definition showFundamentalTypes (dub : f64) (vec : Vector f64) (biv : BiVector f64) (tri : TriVector f64) (cout : ostream) : ostream :=
  let sca := Sca dub in
  let cout := put_text cout (newline :: txt "Basic Types" ++ [newline]) in
  let cout := show_num (txt "dub: ") dub cout in
  let cout := show_obj (txt "sca: ") (out_Sca nanneg sca) cout in
  let cout := show_obj (txt "vec: ") (out_Vec nanneg vec) cout in
  let cout := show_obj (txt "biv: ") (out_Biv nanneg biv) cout in
  show_obj (txt "tri: ") (out_Tri nanneg tri) cout.
(** helloEngabra.cpp:85-89: vecA * vecB, and its dual. *)
Definition demo_spin (vecA vecB : Vector f64) : Spinor f64 := mul TVec TVec vecA vecB.
(** helloEngabra.cpp:89 *)
Definition demo_imsp (vecA vecB : Vector f64) : ImSpin f64 := dual TSpin (demo_spin vecA vecB).
(** helloEngabra.cpp:106-107 *)
Definition demo_orig (vecA vecB : Vector f64) : MultiVector f64 :=
  add TMvec TMvec (mv_of_Spin (demo_spin vecA vecB)) (mv_of_Imsp (demo_imsp vecA vecB)).
(** helloEngabra.cpp:112-117 *)
Definition demo_copy (vecA vecB : Vector f64) : MultiVector f64 :=
  let m := demo_orig vecA vecB in mkMvec (mvSca m) (mvVec m) (mvBiv m) (mvTri m).
(** helloEngabra.cpp:72-126 *)
Definition showCompositeTypes (vecA vecB : Vector f64) (cout : ostream) : ostream :=
  let cout := put_text cout (newline :: txt "Composite Types" ++ [newline]) in
  let cout := show_obj (txt "spinAB: ") (out_Spin nanneg (demo_spin vecA vecB)) cout in
  let cout := show_obj (txt "imspAB: ") (out_Imsp nanneg (demo_imsp vecA vecB)) cout in
  let cout := show_obj (txt "multiOrig: ") (out_Mvec nanneg (demo_orig vecA vecB)) cout in
  show_obj (txt "multiCopy: ") (out_Mvec nanneg (demo_copy vecA vecB)) cout.
(** helloEngabra.cpp:130-136 *)
Definition demo (dub : f64) (vec : Vector f64) (biv : BiVector f64) (tri : TriVector f64) (vecA vecB : Vector f64) (cout : ostream) : ostream :=
  showCompositeTypes vecA vecB (showFundamentalTypes dub vec biv tri cout).
End Cout.

(** The literals of helloEngabra.cpp:53-61, as the compiler rounds them. *)
Definition d100_1 : f64 := f64_lit 7043911292184166 (-46).
(** helloEngabra.cpp:57 *)
Definition d100_2 : f64 := f64_lit 7050948166601933 (-46).
(** helloEngabra.cpp:57 *)
Definition d100_3 : f64 := f64_lit 7057985041019699 (-46).
(** helloEngabra.cpp:60 *)
Definition d200_1 : f64 := f64_lit 7040392854975283 (-45).
(** helloEngabra.cpp:60 *)
Definition d200_2 : f64 := f64_lit 7043911292184166 (-45).
(** helloEngabra.cpp:60 *)
Definition d200_3 : f64 := f64_lit 7047429729393050 (-45).
(** helloEngabra.cpp:61 *)
Definition d300_1 : f64 := f64_lit 5279415031929242 (-44).
(** helloEngabra.cpp:130-136 *)
Definition demo_main (nanneg : bool) : ostream -> ostream :=
  demo nanneg d100_1 (Vec d100_1 d100_2 d100_3) (Biv d200_1 d200_2 d200_3) (Tri d300_1)
    (Vec (f64_lit 2 0) (f64_lit 3 0) (f64_lit 5 0)) (Vec (f64_lit 11 0) (f64_lit 13 0) (f64_lit 17 0)).
