(** * Which operators a client program can use, and which file declares them.

    [Headers.v] was taken from the text of the sources by a program; the
    overload sets of the model ([addTy], [subTy], [candidates], ...) were
    written by hand, function by function.  These theorems compare the two.
    Only statements; proofs are in OverFacts.v. *)

From Coq Require Import String List Bool.
From Verif Require Import Num Types B64 Traits OpsAdd OpsSub OpsMul Func Compare Io.
From Verif Require Import SpecCl Headers Incl SpecIncl SpecOver OverFacts.
Import ListNotations.
Local Open Scope string_scope.

(** C98: a program that begins with engabra.hpp can add two objects exactly
    if some type stores exactly the grades of both, and these are the sums of
    the model. *)
Theorem C98_sums : forall l a b,
  let sum := declared (binary "+" a b) (text_of includes (h_engabra :: l)) in
  (sum <-> addTy a b <> None) /\
  (sum <-> a <> TDub /\ b <> TDub /\
           exists c, c <> TDub /\ forall n, has_grade c n = orb (has_grade a n) (has_grade b n)).
Proof. exact (fun l a b => conj (sums l a b) (sums_grades l a b)). Qed.
Print Assumptions C98_sums.

Theorem C98_differences : forall l a b,
  declared (binary "-" a b) (text_of includes (h_engabra :: l)) <-> subTy a b <> None.
Proof. exact differences. Qed.
Print Assumptions C98_differences.

(** All pairs of types can be multiplied (two doubles by the language). *)
Theorem C98_products : forall l a b,
  declared (binary "*" a b) (text_of includes (h_engabra :: l)) <-> ~ (a = TDub /\ b = TDub).
Proof. exact products. Qed.
Print Assumptions C98_products.

(** Functions of one object: those with a constrained template, the
    involutions, and the others. *)
Theorem C98_templates : forall l f t,
  declared (spelled f t) (text_of includes (h_engabra :: l)) <-> candidates f t <> [].
Proof. exact trait_functions. Qed.
Print Assumptions C98_templates.

Theorem C98_involutions : forall l t,
  let T := text_of includes (h_engabra :: l) in
  declared (unary "reverse" t) T /\ declared (unary "dual" t) T /\
  (declared (unary "oddverse" t) T <-> t <> TDub) /\ (declared (unary "dirverse" t) T <-> t <> TDub).
Proof. exact involutions. Qed.
Print Assumptions C98_involutions.

Theorem C98_functions : forall l t,
  let T := text_of includes (h_engabra :: l) in
  (declared (unary "ampSq" t) T <-> ampSq (F := f64) t <> None) /\
  (declared (unary "exp" t) T <-> t = TBiv \/ t = TSpin \/ t = TMvec) /\
  (declared (unary "inverse" t) T <-> inverse_named t <> []).
Proof. exact functions. Qed.
Print Assumptions C98_functions.

(** Equality and text; a double has the operators of the language. *)
Theorem C98_equality_and_text : forall l nanneg t, t <> TDub ->
  let T := text_of includes (h_engabra :: l) in
  (declared (binary "==" t t) T <-> eqeq (F := f64) t <> None) /\
  (declared (stream "<<" t) T <-> insert nanneg t <> None) /\
  (declared (spelled f_fixed t) T <-> fixed nanneg t <> None) /\
  (declared (spelled f_enote t) T <-> enote nanneg t <> None).
Proof. exact equality_and_text. Qed.
Print Assumptions C98_equality_and_text.

(** Each operator is declared by one file: that of its left operand, or, for
    sums and differences of like types, g3opsAdd_same.hpp and g3opsSub_same.hpp. *)
Theorem C98_files : forall h a b,
  (declared (binary "+" a b) (declarations h) <->
     addTy a b <> None /\ ((a = b /\ h = h_g3opsAdd_same) \/ (a <> b /\ file_add a = Some h))) /\
  (declared (binary "-" a b) (declarations h) <->
     subTy a b <> None /\ ((a = b /\ h = h_g3opsSub_same) \/ (a <> b /\ file_sub a = Some h))) /\
  (declared (binary "*" a b) (declarations h) <-> ~ (a = TDub /\ b = TDub) /\ h = file_mul a).
Proof. exact files. Qed.
Print Assumptions C98_files.

(** "Contains operator+() overloads for Vector+{...}" (line 30 of
    g3opsAdd_Vector.hpp, and so for each type). *)
Theorem C98_left_operand : forall t h,
  (file_add t = Some h -> forall b, addTy t b <> None -> declared (binary "+" t b) (text_of includes [h])) /\
  (file_sub t = Some h -> forall b, subTy t b <> None -> declared (binary "-" t b) (text_of includes [h])).
Proof. exact left_operand. Qed.
Print Assumptions C98_left_operand.

(** "... and {...}+Vector" (same line): not so, except for MultiVector. *)
Theorem C98_right_operand_refuted : forall t h,
  (file_add t = Some h ->
     ((forall b, addTy b t <> None -> declared (binary "+" b t) (text_of includes [h])) <-> t = TMvec)) /\
  (file_sub t = Some h ->
     ((forall b, subTy b t <> None -> declared (binary "-" b t) (text_of includes [h])) <-> t = TMvec)).
Proof. exact right_operand. Qed.
Print Assumptions C98_right_operand_refuted.

(** "This file gathers include directives for all g3opsAdd_<>.hpp files" and
    "File to include all other g3ops*.hpp operator groupings" (line 30 of
    g3opsAdd.hpp, g3opsSub.hpp and g3ops.hpp): each gives all its operators,
    in whatever company it is included. *)
Theorem C98_gathered : forall l n, library_name n ->
  (In h_g3opsAdd l -> prefix "operator+(" n = true -> declared n (text_of includes l)) /\
  (In h_g3opsSub l -> prefix "operator-(" n = true -> is_binary n = true -> declared n (text_of includes l)) /\
  (In h_g3opsMul l -> prefix "operator*(" n = true -> declared n (text_of includes l)) /\
  (In h_g3ops l -> prefix "operator+(" n || prefix "operator-(" n || prefix "operator*(" n = true -> declared n (text_of includes l)).
Proof. exact gathered. Qed.
Print Assumptions C98_gathered.

(** A vector and a trivector can be added, a scalar and a vector cannot; and
    [b + v] is not found by a program with g3opsAdd_Vector.hpp alone. *)
Example C98_example :
  declared "operator+(Vector,TriVector)" (text_of includes [h_engabra]) /\
  ~ declared "operator+(Scalar,Vector)" (text_of includes [h_engabra]) /\
  addTy TBiv TVec = Some TDplx /\ file_add TVec = Some h_g3opsAdd_Vector /\
  ~ declared "operator+(BiVector,Vector)" (text_of includes [h_g3opsAdd_Vector]).
Proof.
  split; [|split; [|split; [reflexivity|split; [reflexivity|]]]].
  - apply declaredb_iff. vm_compute. reflexivity.
  - intro H. apply declaredb_iff in H. vm_compute in H. discriminate.
  - intro H. apply declaredb_iff in H. vm_compute in H. discriminate.
Qed.
