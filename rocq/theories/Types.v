(** * Model of include/g3type.hpp : data types, constructors, subscripts. *)

Require Import ZArith NArith Bool List.
Require Import Verif.Num.
Import ListNotations.

Set Implicit Arguments.

(** [std::array<double, 1u>] and [std::array<double, 3u>]. *)
(** g3type.hpp:156, 374 *)
Record Arr1 (F : Type) := A1 { at0 : F }.
(** g3type.hpp:240, 309 *)
Record Arr3 (F : Type) := A3 { at30 : F; at31 : F; at32 : F }.

(** The nine structs; g3type.hpp:153-180 (Scalar), 237-262 (Vector),
    306-331 (BiVector), 371-398 (TriVector), 409-442 (Spinor),
    455-489 (ImSpin), 510-567 (ComPlex), 586-621 (DirPlex),
    634-869 (MultiVector).  The component order of a BiVector is
    e23, e31, e12 (g3type.hpp:300-303). *)
(** g3type.hpp:153-180 *)
Record Scalar (F : Type) := mkSca { scaData : Arr1 F }.
(** g3type.hpp:237-262 *)
Record Vector (F : Type) := mkVec { vecData : Arr3 F }.
(** g3type.hpp:306-331 *)
Record BiVector (F : Type) := mkBiv { bivData : Arr3 F }.
(** g3type.hpp:371-398 *)
Record TriVector (F : Type) := mkTri { triData : Arr1 F }.
(** g3type.hpp:409-442 *)
Record Spinor (F : Type) := mkSpin { spinSca : Scalar F; spinBiv : BiVector F }.
(** g3type.hpp:455-489 *)
Record ImSpin (F : Type) := mkImsp { imspVec : Vector F; imspTri : TriVector F }.
(** g3type.hpp:510-567 *)
Record ComPlex (F : Type) := mkCplx { cplxSca : Scalar F; cplxTri : TriVector F }.
(** g3type.hpp:586-621 *)
Record DirPlex (F : Type) := mkDplx { dplxVec : Vector F; dplxBiv : BiVector F }.
(** g3type.hpp:634-869 *)
Record MultiVector (F : Type) := mkMvec
  { mvSca : Scalar F; mvVec : Vector F; mvBiv : BiVector F; mvTri : TriVector F }.

(** Brace initialisation of the blades, e.g. [Vector{ x, y, z }]. *)
(** aggregate of g3type.hpp:156 *)
Definition Sca {F} (x : F) : Scalar F := mkSca (A1 x).
(** aggregate of g3type.hpp:240 *)
Definition Vec {F} (x y z : F) : Vector F := mkVec (A3 x y z).
(** aggregate of g3type.hpp:309 *)
Definition Biv {F} (x y z : F) : BiVector F := mkBiv (A3 x y z).
(** aggregate of g3type.hpp:374 *)
Definition Tri {F} (x : F) : TriVector F := mkTri (A1 x).

(** Element accesses such as [vec.theData[1]]. *)
(** g3type.hpp:156 *)
Definition sca_0 {F} (s : Scalar F) : F := at0 (scaData s).
(** g3type.hpp:240 *)
Definition vec_0 {F} (v : Vector F) : F := at30 (vecData v).
(** g3type.hpp:240 *)
Definition vec_1 {F} (v : Vector F) : F := at31 (vecData v).
(** g3type.hpp:240 *)
Definition vec_2 {F} (v : Vector F) : F := at32 (vecData v).
(** g3type.hpp:309 *)
Definition biv_0 {F} (b : BiVector F) : F := at30 (bivData b).
(** g3type.hpp:309 *)
Definition biv_1 {F} (b : BiVector F) : F := at31 (bivData b).
(** g3type.hpp:309 *)
Definition biv_2 {F} (b : BiVector F) : F := at32 (bivData b).
(** g3type.hpp:374 *)
Definition tri_0 {F} (t : TriVector F) : F := at0 (triData t).

(** Codes for the operand types of the overload sets: [double] and the structs
    of g3type.hpp:153, 237, 306, 371, 409, 455, 510, 586, 634. *)
Inductive ty : Set :=
| TDub | TSca | TVec | TBiv | TTri | TSpin | TImsp | TCplx | TDplx | TMvec.

(** The C++ type a code stands for: [double], or a struct of
    g3type.hpp:153, 237, 306, 371, 409, 455, 510, 586, 634. *)
Definition val (F : Type) (t : ty) : Type :=
  match t with
  | TDub => F
  | TSca => Scalar F
  | TVec => Vector F
  | TBiv => BiVector F
  | TTri => TriVector F
  | TSpin => Spinor F
  | TImsp => ImSpin F
  | TCplx => ComPlex F
  | TDplx => DirPlex F
  | TMvec => MultiVector F
  end.

(** ** Storage as a list, in memory order. *)
(** the array of g3type.hpp:156, 374 *)
Definition arr1_list {F} (a : Arr1 F) : list F := [at0 a].
(** the array of g3type.hpp:240, 309 *)
Definition arr3_list {F} (a : Arr3 F) : list F := [at30 a; at31 a; at32 a].

(** The members in order of declaration: g3type.hpp:156, 240, 309, 374, 411-412, 457-458, 513-514, 589-590, 637-640. *)
Definition elems {F} (t : ty) : val F t -> list F :=
  match t with
  | TDub => fun x => [x]
  | TSca => fun x => arr1_list (scaData x)
  | TVec => fun x => arr3_list (vecData x)
  | TBiv => fun x => arr3_list (bivData x)
  | TTri => fun x => arr1_list (triData x)
  | TSpin => fun x => arr1_list (scaData (spinSca x)) ++ arr3_list (bivData (spinBiv x))
  | TImsp => fun x => arr3_list (vecData (imspVec x)) ++ arr1_list (triData (imspTri x))
  | TCplx => fun x => arr1_list (scaData (cplxSca x)) ++ arr1_list (triData (cplxTri x))
  | TDplx => fun x => arr3_list (vecData (dplxVec x)) ++ arr3_list (bivData (dplxBiv x))
  | TMvec => fun x => arr1_list (scaData (mvSca x)) ++ arr3_list (vecData (mvVec x))
                      ++ arr3_list (bivData (mvBiv x)) ++ arr1_list (triData (mvTri x))
  end.

(** Apply a function to every component (used to relate number structures; no
    counterpart in the code).  The members are those of g3type.hpp:156, 240, 309,
    374, 411-412, 457-458, 513-514, 589-590, 637-640. *)
Definition map1 {A B} (f : A -> B) (a : Arr1 A) : Arr1 B := A1 (f (at0 a)).
Definition map3 {A B} (f : A -> B) (a : Arr3 A) : Arr3 B :=
  A3 (f (at30 a)) (f (at31 a)) (f (at32 a)).
Definition mapSca {A B} (f : A -> B) (x : Scalar A) := mkSca (map1 f (scaData x)).
Definition mapVec {A B} (f : A -> B) (x : Vector A) := mkVec (map3 f (vecData x)).
Definition mapBiv {A B} (f : A -> B) (x : BiVector A) := mkBiv (map3 f (bivData x)).
Definition mapTri {A B} (f : A -> B) (x : TriVector A) := mkTri (map1 f (triData x)).
Definition mapSpin {A B} (f : A -> B) (x : Spinor A) :=
  mkSpin (mapSca f (spinSca x)) (mapBiv f (spinBiv x)).
Definition mapImsp {A B} (f : A -> B) (x : ImSpin A) :=
  mkImsp (mapVec f (imspVec x)) (mapTri f (imspTri x)).
Definition mapCplx {A B} (f : A -> B) (x : ComPlex A) :=
  mkCplx (mapSca f (cplxSca x)) (mapTri f (cplxTri x)).
Definition mapDplx {A B} (f : A -> B) (x : DirPlex A) :=
  mkDplx (mapVec f (dplxVec x)) (mapBiv f (dplxBiv x)).
Definition mapMvec {A B} (f : A -> B) (x : MultiVector A) :=
  mkMvec (mapSca f (mvSca x)) (mapVec f (mvVec x)) (mapBiv f (mvBiv x)) (mapTri f (mvTri x)).

Definition mapv {A B} (f : A -> B) (t : ty) : val A t -> val B t :=
  match t with
  | TDub => f
  | TSca => mapSca f
  | TVec => mapVec f
  | TBiv => mapBiv f
  | TTri => mapTri f
  | TSpin => mapSpin f
  | TImsp => mapImsp f
  | TCplx => mapCplx f
  | TDplx => mapDplx f
  | TMvec => mapMvec f
  end.

(** ** Subscript operators.

    Array element access [theData[i]]: reading past the end is undefined
    behaviour and is the outcome [None]. *)
(** [theData[0]], g3type.hpp:173, 391, 430, 481, 554, 559, 820, 834 *)
Definition rd1 {F} (a : Arr1 F) (i : N) : option F :=
  nth_error (arr1_list a) (N.to_nat i).
(** [theData[ndx]], g3type.hpp:255, 324, 435, 476, 608, 613, 825, 830 *)
Definition rd3 {F} (a : Arr3 F) (i : N) : option F :=
  nth_error (arr3_list a) (N.to_nat i).

(** Unsigned subtraction [ndx - 1u] on [std::size_t] wraps modulo 2^64. *)
(** g3type.hpp:435, 613, 825, 830, 857, 862 *)
Definition size_sub (a b : N) : N :=
  Z.to_N ((Z.of_N a - Z.of_N b) mod 2 ^ 64).

Section Subscript.
Context {F : Type} (nan : F).   (* priv::sGlobalNaN, g3type.hpp:110-112 *)

(** g3type.hpp:165-179 *)
Definition sub_Sca (x : Scalar F) (ndx : N) : option F :=
  if (ndx <? 1)%N then rd1 (scaData x) 0 else Some nan.
(** g3type.hpp:247-261 *)
Definition sub_Vec (x : Vector F) (ndx : N) : option F :=
  if (ndx <? 3)%N then rd3 (vecData x) ndx else Some nan.
(** g3type.hpp:316-330 *)
Definition sub_Biv (x : BiVector F) (ndx : N) : option F :=
  if (ndx <? 3)%N then rd3 (bivData x) ndx else Some nan.
(** g3type.hpp:383-397 *)
Definition sub_Tri (x : TriVector F) (ndx : N) : option F :=
  if (ndx <? 1)%N then rd1 (triData x) 0 else Some nan.
(** g3type.hpp:422-441 *)
Definition sub_Spin (x : Spinor F) (ndx : N) : option F :=
  if (ndx <? 1)%N then rd1 (scaData (spinSca x)) 0
  else if (ndx <? 4)%N then rd3 (bivData (spinBiv x)) (size_sub ndx 1)
  else Some nan.
(** g3type.hpp:468-487 *)
Definition sub_Imsp (x : ImSpin F) (ndx : N) : option F :=
  if (ndx <? 3)%N then rd3 (vecData (imspVec x)) ndx
  else if (ndx <? 4)%N then rd1 (triData (imspTri x)) 0
  else Some nan.
(** g3type.hpp:546-565 *)
Definition sub_Cplx (x : ComPlex F) (ndx : N) : option F :=
  if (ndx <? 1)%N then rd1 (scaData (cplxSca x)) 0
  else if (ndx <? 2)%N then rd1 (triData (cplxTri x)) 0
  else Some nan.
(** g3type.hpp:600-619 *)
Definition sub_Dplx (x : DirPlex F) (ndx : N) : option F :=
  if (ndx <? 3)%N then rd3 (vecData (dplxVec x)) ndx
  else if (ndx <? 6)%N then rd3 (bivData (dplxBiv x)) (size_sub ndx 3)
  else Some nan.
(** g3type.hpp:812-836; there is no NaN branch. *)
Definition sub_Mvec (x : MultiVector F) (ndx : N) : option F :=
  if (ndx <? 1)%N then rd1 (scaData (mvSca x)) 0
  else if (ndx <? 4)%N then rd3 (vecData (mvVec x)) (size_sub ndx 1)
  else if (ndx <? 7)%N then rd3 (bivData (mvBiv x)) (size_sub ndx 4)
  else rd1 (triData (mvTri x)) 0.

(** The overload set of [operator[] const], g3type.hpp:167, 249, 318, 385, 424,
    470, 548, 602, 814.  A [double] has no subscript
    operator: [None]. *)
Definition subscript (t : ty) : val F t -> N -> option F :=
  match t with
  | TDub => fun _ _ => None
  | TSca => sub_Sca
  | TVec => sub_Vec
  | TBiv => sub_Biv
  | TTri => sub_Tri
  | TSpin => sub_Spin
  | TImsp => sub_Imsp
  | TCplx => sub_Cplx
  | TDplx => sub_Dplx
  | TMvec => sub_Mvec
  end.
End Subscript.

(** Writing an array element; past-the-end writes are undefined ([None]). *)
(** g3type.hpp:852, 866 *)
Definition wr1 {F} (a : Arr1 F) (i : N) (x : F) : option (Arr1 F) :=
  match i with
  | 0%N => Some (A1 x)
  | _ => None
  end.
(** g3type.hpp:857, 862 *)
Definition wr3 {F} (a : Arr3 F) (i : N) (x : F) : option (Arr3 F) :=
  match i with
  | 0%N => Some (A3 x (at31 a) (at32 a))
  | 1%N => Some (A3 (at30 a) x (at32 a))
  | 2%N => Some (A3 (at30 a) (at31 a) x)
  | _ => None
  end.

(** [mv[ndx] = x] through the mutable subscript, g3type.hpp:844-868. *)
Definition assign_Mvec {F} (m : MultiVector F) (ndx : N) (x : F)
  : option (MultiVector F) :=
  if (ndx <? 1)%N then
    option_map (fun a => mkMvec (mkSca a) (mvVec m) (mvBiv m) (mvTri m))
               (wr1 (scaData (mvSca m)) 0 x)
  else if (ndx <? 4)%N then
    option_map (fun a => mkMvec (mvSca m) (mkVec a) (mvBiv m) (mvTri m))
               (wr3 (vecData (mvVec m)) (size_sub ndx 1) x)
  else if (ndx <? 7)%N then
    option_map (fun a => mkMvec (mvSca m) (mvVec m) (mkBiv a) (mvTri m))
               (wr3 (bivData (mvBiv m)) (size_sub ndx 4) x)
  else
    option_map (fun a => mkMvec (mvSca m) (mvVec m) (mvBiv m) (mkTri a))
               (wr1 (triData (mvTri m)) 0 x).

(** ** MultiVector constructors. *)
Section Ctor.
Context {F : Type} `{Ring0 F}.
Local Open Scope num_scope.

(** g3type.hpp:646-659 is [mkMvec] itself. *)
(** g3type.hpp:661-671 *)
Definition mv_of_Dub (d : F) : MultiVector F :=
  mkMvec (Sca d) (Vec 0 0 0) (Biv 0 0 0) (Tri 0).
(** g3type.hpp:673-683 *)
Definition mv_of_Sca (s : Scalar F) : MultiVector F :=
  mkMvec s (Vec 0 0 0) (Biv 0 0 0) (Tri 0).
(** g3type.hpp:685-695 *)
Definition mv_of_Vec (v : Vector F) : MultiVector F :=
  mkMvec (Sca 0) v (Biv 0 0 0) (Tri 0).
(** g3type.hpp:697-707 *)
Definition mv_of_Biv (b : BiVector F) : MultiVector F :=
  mkMvec (Sca 0) (Vec 0 0 0) b (Tri 0).
(** g3type.hpp:709-719 *)
Definition mv_of_Tri (t : TriVector F) : MultiVector F :=
  mkMvec (Sca 0) (Vec 0 0 0) (Biv 0 0 0) t.
(** g3type.hpp:721-731 *)
Definition mv_of_Spin (s : Spinor F) : MultiVector F :=
  mkMvec (spinSca s) (Vec 0 0 0) (spinBiv s) (Tri 0).
(** g3type.hpp:733-743 *)
Definition mv_of_Imsp (s : ImSpin F) : MultiVector F :=
  mkMvec (Sca 0) (imspVec s) (Biv 0 0 0) (imspTri s).
(** g3type.hpp:745-755 *)
Definition mv_of_Cplx (c : ComPlex F) : MultiVector F :=
  mkMvec (cplxSca c) (Vec 0 0 0) (Biv 0 0 0) (cplxTri c).
(** g3type.hpp:757-767 *)
Definition mv_of_Dplx (d : DirPlex F) : MultiVector F :=
  mkMvec (Sca 0) (dplxVec d) (dplxBiv d) (Tri 0).
(** g3type.hpp:769-780 *)
Definition mv_of_Cplx_Dplx (c : ComPlex F) (d : DirPlex F) : MultiVector F :=
  mkMvec (cplxSca c) (dplxVec d) (dplxBiv d) (cplxTri c).
(** g3type.hpp:782-799 *)
Definition mv_of_8 (s x y z p q r t : F) : MultiVector F :=
  mkMvec (Sca s) (Vec x y z) (Biv p q r) (Tri t).

(** The overload set of one-argument MultiVector constructors, g3type.hpp:661-767; the last line
    is the implicit copy constructor. *)
Definition to_mv (t : ty) : val F t -> MultiVector F :=
  match t with
  | TDub => mv_of_Dub
  | TSca => mv_of_Sca
  | TVec => mv_of_Vec
  | TBiv => mv_of_Biv
  | TTri => mv_of_Tri
  | TSpin => mv_of_Spin
  | TImsp => mv_of_Imsp
  | TCplx => mv_of_Cplx
  | TDplx => mv_of_Dplx
  | TMvec => fun m => m
  end.
End Ctor.

(** ** ComPlex and [std::complex<double>] (a pair real, imaginary). *)
(** g3type.hpp:516-528 *)
Definition cplx_from {F} (z : F * F) : ComPlex F :=
  mkCplx (Sca (fst z)) (Tri (snd z)).
(** g3type.hpp:530-536 *)
Definition cplx_to_std {F} (c : ComPlex F) : F * F :=
  (sca_0 (cplxSca c), tri_0 (cplxTri c)).
