(** C97: the files of the library can be included in any order.

    /repo/include/g3publish.hpp, lines 59-63, advises to "include the various
    g3*.hpp files explicitly" as an alternative to engabra.hpp. *)

From Coq Require Import String List Bool.
From Verif Require Import Headers Incl SpecIncl InclFacts InclLib.
Import ListNotations.

(** what the compiler checks is that every name is declared before it is
    used *)
Theorem C97_checked : forall t : list decl, accepted t = true <-> in_order t.
Proof. exact accepted_iff. Qed.
Print Assumptions C97_checked.

(** Whatever files are included, in whatever order and however often, the
    text of each appears once, after the text of those it includes, and no
    name is declared twice. *)
Theorem C97_once :
  forall l : list header,
    NoDup (files_of includes l) /\
    no_repetition (text_of includes l) /\
    (forall x, In x (files_of includes l) <->
               exists h, In h l /\ reaches includes h x) /\
    (forall before x after y,
       files_of includes l = before ++ x :: after ->
       reaches includes x y -> y <> x -> In y before).
Proof. exact includes_once. Qed.
Print Assumptions C97_once.

(** engabra.hpp provides all the names of the library *)
Theorem C97_main_header :
  forall l : list header,
    in_order (text_of includes (h_engabra :: l)) /\
    forall n, library_name n -> declared n (text_of includes (h_engabra :: l)).
Proof. exact main_header. Qed.
Print Assumptions C97_main_header.

(** The files cannot be included in any order: g3opsAdd_same.hpp (line 61)
    and g3opsSub_same.hpp (line 68) use the trait [is::blade], but do not
    include g3traits.hpp, where it is declared.  So a source file that begins
    with g3publish.hpp, or with any of 30 other files, is not accepted; nor is
    one that begins with g3_private.hpp, which includes nothing. *)
Theorem C97_any_order_refuted :
  ~ in_order (text_of includes [h_g3publish]) /\
  ~ in_order (text_of includes [h_g3opsAdd]) /\
  ~ in_order (text_of includes [h_g3type; h_g3opsSub]) /\
  length (filter (fun h => negb (accepted (text_of includes [h]))) all_headers) = 32.
Proof. exact any_order_refuted. Qed.
Print Assumptions C97_any_order_refuted.

(** Exactly these sequences are accepted: the first line is not
    g3_private.hpp, and each line that brings in g3opsAdd_same.hpp or
    g3opsSub_same.hpp follows one that brings in g3traits.hpp, or is one of
    the five that bring it in by themselves first. *)
Theorem C97_any_order_partial :
  forall l : list header,
    in_order (text_of includes l) <->
    hd_error l <> Some h_g3_private /\
    forall before h after,
      l = before ++ h :: after ->
      reaches includes h h_g3opsAdd_same \/ reaches includes h h_g3opsSub_same ->
      (exists h', In h' before /\ reaches includes h' h_g3traits) \/
      In h [h_g3opsMul; h_g3ops; h_g3func; h_engabra; h_Engabra].
Proof. exact any_order_exact. Qed.
Print Assumptions C97_any_order_partial.

(** All test programs begin with checks.hpp, and after it every sequence is
    accepted: no test of this kind can show the omission. *)
Theorem C97_hidden_from_tests :
  forall l : list header, in_order (text_of includes (checks_hpp ++ l)).
Proof. exact hidden_from_tests. Qed.
Print Assumptions C97_hidden_from_tests.

(** with the line [#include "g3traits.hpp"] added to the two files, every
    sequence is accepted that does not begin with g3_private.hpp *)
Theorem C97_repaired :
  forall l : list header,
    hd_error l <> Some h_g3_private -> in_order (text_of repaired l).
Proof. exact repaired_in_order. Qed.
Print Assumptions C97_repaired.

(** g3publish.hpp (lines 85-91) makes the operators visible that are declared
    where it stands: these are all the operators +, - and * of the library,
    whatever was included before. *)
Theorem C97_published :
  forall (l before after : list header),
    files_of includes l = before ++ h_g3publish :: after ->
    forall n, library_name n ->
      prefix "operator+(" n || prefix "operator-(" n || prefix "operator*(" n = true ->
      declared n (flat_map declarations before).
Proof. exact published. Qed.
Print Assumptions C97_published.

(** ** examples *)

(** a sequence of files as in the tests of addition
    (test/test_g3opsAdd_other.cpp, lines 31-47) *)
Example C97_example_test :
  In h_g3opsAdd_Scalar (files_of includes (checks_hpp ++ [h_g3opsAdd_Scalar; h_g3opsAdd_Vector])) /\
  length (files_of includes (checks_hpp ++ [h_g3opsAdd_Scalar; h_g3opsAdd_Vector])) = 11.
Proof. vm_compute. tauto. Qed.

Example C97_example_names :
  library_name "operator*(MultiVector,MultiVector)" /\
  declared "operator-(Vector,Vector)" (text_of includes [h_engabra]) /\
  ~ declared "operator-(Vector,Vector)" (text_of includes [h_g3opsMul_Vector]).
Proof. exact example_names. Qed.

(** g3publish.hpp is acceptable after g3traits.hpp *)
Example C97_example_published :
  accepted (text_of includes [h_g3traits; h_g3publish]) = true /\
  exists before after,
    files_of includes [h_g3traits; h_g3publish] = before ++ h_g3publish :: after.
Proof. exact example_published. Qed.
