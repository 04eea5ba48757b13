(** * Specification: the names of the operators, and the files they are looked for in. *)

From Coq Require Import String List.
From Verif Require Import Types Traits Headers.
Import ListNotations.
Local Open Scope string_scope.

(** the type as it is written in the sources *)
Definition type_name (t : ty) : string :=
  match t with
  | TDub => "double" | TSca => "Scalar" | TVec => "Vector" | TBiv => "BiVector" | TTri => "TriVector"
  | TSpin => "Spinor" | TImsp => "ImSpin" | TCplx => "ComPlex" | TDplx => "DirPlex" | TMvec => "MultiVector"
  end.

(** a function of one operand, an operator of two, and an operator on a stream *)
Definition unary (f : string) (t : ty) : string := f ++ "(" ++ type_name t ++ ")".
Definition binary (op : string) (a b : ty) : string :=
  "operator" ++ op ++ "(" ++ type_name a ++ "," ++ type_name b ++ ")".
Definition stream (op : string) (t : ty) : string := "operator" ++ op ++ "(std," ++ type_name t ++ ")".

(** the functions of Traits.v as [Headers.v] spells them *)
Definition spelled (f : fname) (t : ty) : string :=
  match f with
  | f_neg => unary "operator-" t
  | f_add_same => binary "+" t t
  | f_sub_same => binary "-" t t
  | f_magSq => unary "magSq" t
  | f_isValid => unary "isValid" t
  | f_nearlyEquals => "nearlyEquals(" ++ type_name t ++ "," ++ type_name t ++ ",double)"
  | f_fixed => "io::fixed(" ++ type_name t ++ ",std,std)"
  | f_enote => "io::enote(" ++ type_name t ++ ",std)"
  | f_extract => stream ">>" t
  end.

(** the file whose name ends in the type; none for sums with a double *)
Definition file_add (t : ty) : option header :=
  match t with
  | TDub => None | TSca => Some h_g3opsAdd_Scalar | TVec => Some h_g3opsAdd_Vector | TBiv => Some h_g3opsAdd_BiVector
  | TTri => Some h_g3opsAdd_TriVector | TSpin => Some h_g3opsAdd_Spinor | TImsp => Some h_g3opsAdd_ImSpin
  | TCplx => Some h_g3opsAdd_ComPlex | TDplx => Some h_g3opsAdd_DirPlex | TMvec => Some h_g3opsAdd_MultiVector
  end.
Definition file_sub (t : ty) : option header :=
  match t with
  | TDub => None | TSca => Some h_g3opsSub_Scalar | TVec => Some h_g3opsSub_Vector | TBiv => Some h_g3opsSub_BiVector
  | TTri => Some h_g3opsSub_TriVector | TSpin => Some h_g3opsSub_Spinor | TImsp => Some h_g3opsSub_ImSpin
  | TCplx => Some h_g3opsSub_ComPlex | TDplx => Some h_g3opsSub_DirPlex | TMvec => Some h_g3opsSub_MultiVector
  end.
Definition file_mul (t : ty) : header :=
  match t with
  | TDub => h_g3opsMul_double | TSca => h_g3opsMul_Scalar | TVec => h_g3opsMul_Vector | TBiv => h_g3opsMul_BiVector
  | TTri => h_g3opsMul_TriVector | TSpin => h_g3opsMul_Spinor | TImsp => h_g3opsMul_ImSpin
  | TCplx => h_g3opsMul_ComPlex | TDplx => h_g3opsMul_DirPlex | TMvec => h_g3opsMul_MultiVector
  end.

(** a name with two operands *)
Definition is_binary (n : string) : bool := match index 0 "," n with Some _ => true | None => false end.
