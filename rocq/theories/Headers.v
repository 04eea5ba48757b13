(** The files of /repo/include: what each includes, what it declares, and
    what each declaration refers to.

    A file is modelled by its [#include] lines, in order, and by its
    declarations, in order; in every file all [#include] lines precede all
    declarations, and all of it stands between include guards (lines 26-27
    of each file and its last line).

    A declaration is modelled by the names it introduces and the names that
    have to be declared before it: the types in its signature and body, the
    traits in its template parameters, and the functions and operators called
    in its body, resolved to the overload that the types of the arguments
    select (so ["operator*(Scalar,Vector)"] and ["operator*(Vector,Scalar)"]
    are different names).  A template over the blades declares the names of
    its four instances; a template over all types declares a name ending in
    ["(*)"].  Calls in a template whose arguments depend on its parameters
    are looked up where the template is used, and do not count.  The lines of
    each declaration are given beside it.

    Simplifications: the standard library is one file, [h_std], that declares
    the one name ["std"], and each [#include <...>] line includes it; that is,
    any standard header is taken to provide all the standard names that
    follow.  In g3io.hpp only the uses of names of other files are
    recorded. *)

From Coq Require Import String List.
Import ListNotations.
Local Open Scope string_scope.

(** the files /repo/include/*.hpp and /repo/include/Engabra ([_.hpp] is an
    empty template for new files and is left out), and the standard library *)
Inductive header : Set :=
  | h_std | h_g3_private | h_g3type | h_g3traits | h_g3const | h_g3validity | h_g3compare | h_g3io |
      h_g3opsUni | h_g3opsAdd_same | h_g3opsAdd_Scalar | h_g3opsAdd_Vector | h_g3opsAdd_BiVector |
      h_g3opsAdd_TriVector | h_g3opsAdd_Spinor | h_g3opsAdd_ImSpin | h_g3opsAdd_ComPlex |
      h_g3opsAdd_DirPlex | h_g3opsAdd_MultiVector | h_g3opsAdd | h_g3opsSub_same | h_g3opsSub_Scalar
      | h_g3opsSub_Vector | h_g3opsSub_BiVector | h_g3opsSub_TriVector | h_g3opsSub_Spinor |
      h_g3opsSub_ImSpin | h_g3opsSub_ComPlex | h_g3opsSub_DirPlex | h_g3opsSub_MultiVector |
      h_g3opsSub | h_g3opsMul_double | h_g3opsMul_Scalar | h_g3opsMul_Vector | h_g3opsMul_BiVector |
      h_g3opsMul_TriVector | h_g3opsMul_Spinor | h_g3opsMul_ImSpin | h_g3opsMul_ComPlex |
      h_g3opsMul_DirPlex | h_g3opsMul_MultiVector | h_g3opsMul | h_g3ops | h_g3func | h_g3publish |
      h_engabra | h_Engabra.

Definition header_eq_dec : forall a b : header, {a = b} + {a <> b}.
Proof. decide equality. Defined.

Definition all_headers : list header :=
  [h_std; h_g3_private; h_g3type; h_g3traits; h_g3const; h_g3validity; h_g3compare; h_g3io;
      h_g3opsUni; h_g3opsAdd_same; h_g3opsAdd_Scalar; h_g3opsAdd_Vector; h_g3opsAdd_BiVector;
      h_g3opsAdd_TriVector; h_g3opsAdd_Spinor; h_g3opsAdd_ImSpin; h_g3opsAdd_ComPlex;
      h_g3opsAdd_DirPlex; h_g3opsAdd_MultiVector; h_g3opsAdd; h_g3opsSub_same; h_g3opsSub_Scalar;
      h_g3opsSub_Vector; h_g3opsSub_BiVector; h_g3opsSub_TriVector; h_g3opsSub_Spinor;
      h_g3opsSub_ImSpin; h_g3opsSub_ComPlex; h_g3opsSub_DirPlex; h_g3opsSub_MultiVector; h_g3opsSub;
      h_g3opsMul_double; h_g3opsMul_Scalar; h_g3opsMul_Vector; h_g3opsMul_BiVector;
      h_g3opsMul_TriVector; h_g3opsMul_Spinor; h_g3opsMul_ImSpin; h_g3opsMul_ComPlex;
      h_g3opsMul_DirPlex; h_g3opsMul_MultiVector; h_g3opsMul; h_g3ops; h_g3func; h_g3publish;
      h_engabra; h_Engabra].

(** a declaration: the names it introduces, the names it refers to *)
Record decl := D { declares : list string; refers : list string }.

(** the [#include] lines of each file, in order (repetitions left out) *)
Definition includes (h : header) : list header :=
  match h with
  | h_std => (* any standard header *)
      []
  | h_g3_private => (* g3_private.hpp: none *)
      []
  | h_g3type => (* g3type.hpp, lines 94-98 *)
      [h_std]
  | h_g3traits => (* g3traits.hpp, lines 39-41 *)
      [h_g3type; h_std]
  | h_g3const => (* g3const.hpp, lines 83-85 *)
      [h_g3type; h_std]
  | h_g3validity => (* g3validity.hpp, lines 59-61 *)
      [h_g3const; h_g3traits; h_g3type]
  | h_g3compare => (* g3compare.hpp, lines 86-92 *)
      [h_g3traits; h_g3type; h_g3validity; h_std]
  | h_g3io => (* g3io.hpp, lines 76-84 *)
      [h_g3traits; h_g3type; h_g3validity; h_std]
  | h_g3opsUni => (* g3opsUni.hpp, lines 107-110 *)
      [h_g3type; h_g3traits; h_std]
  | h_g3opsAdd_same => (* g3opsAdd_same.hpp, lines 41-45 *)
      [h_g3type; h_g3_private; h_std]
  | h_g3opsAdd_Scalar => (* g3opsAdd_Scalar.hpp, lines 40-40 *)
      [h_g3opsAdd_same]
  | h_g3opsAdd_Vector => (* g3opsAdd_Vector.hpp, lines 40-40 *)
      [h_g3opsAdd_same]
  | h_g3opsAdd_BiVector => (* g3opsAdd_BiVector.hpp, lines 40-42 *)
      [h_g3opsAdd_same; h_g3opsAdd_Scalar; h_g3opsAdd_Vector]
  | h_g3opsAdd_TriVector => (* g3opsAdd_TriVector.hpp, lines 40-42 *)
      [h_g3opsAdd_same; h_g3opsAdd_Scalar; h_g3opsAdd_Vector]
  | h_g3opsAdd_Spinor => (* g3opsAdd_Spinor.hpp, lines 40-42 *)
      [h_g3opsAdd_same; h_g3opsAdd_Scalar; h_g3opsAdd_BiVector]
  | h_g3opsAdd_ImSpin => (* g3opsAdd_ImSpin.hpp, lines 40-43 *)
      [h_g3opsAdd_same; h_g3opsAdd_Vector; h_g3opsAdd_TriVector; h_g3opsAdd_Spinor]
  | h_g3opsAdd_ComPlex => (* g3opsAdd_ComPlex.hpp, lines 40-42 *)
      [h_g3opsAdd_same; h_g3opsAdd_Scalar; h_g3opsAdd_TriVector]
  | h_g3opsAdd_DirPlex => (* g3opsAdd_DirPlex.hpp, lines 40-43 *)
      [h_g3opsAdd_same; h_g3opsAdd_Vector; h_g3opsAdd_BiVector; h_g3opsAdd_ComPlex]
  | h_g3opsAdd_MultiVector => (* g3opsAdd_MultiVector.hpp, lines 40-48 *)
      [h_g3opsAdd_same; h_g3opsAdd_Scalar; h_g3opsAdd_Vector; h_g3opsAdd_BiVector;
          h_g3opsAdd_TriVector; h_g3opsAdd_Spinor; h_g3opsAdd_ImSpin; h_g3opsAdd_ComPlex;
          h_g3opsAdd_DirPlex]
  | h_g3opsAdd => (* g3opsAdd.hpp, lines 34-43 *)
      [h_g3opsAdd_same; h_g3opsAdd_Scalar; h_g3opsAdd_Vector; h_g3opsAdd_BiVector;
          h_g3opsAdd_TriVector; h_g3opsAdd_Spinor; h_g3opsAdd_ImSpin; h_g3opsAdd_ComPlex;
          h_g3opsAdd_DirPlex; h_g3opsAdd_MultiVector]
  | h_g3opsSub_same => (* g3opsSub_same.hpp, lines 41-45 *)
      [h_g3type; h_g3_private; h_std]
  | h_g3opsSub_Scalar => (* g3opsSub_Scalar.hpp, lines 40-41 *)
      [h_g3opsSub_same; h_g3opsUni]
  | h_g3opsSub_Vector => (* g3opsSub_Vector.hpp, lines 40-41 *)
      [h_g3opsSub_same; h_g3opsUni]
  | h_g3opsSub_BiVector => (* g3opsSub_BiVector.hpp, lines 40-43 *)
      [h_g3opsSub_same; h_g3opsUni; h_g3opsSub_Scalar; h_g3opsSub_Vector]
  | h_g3opsSub_TriVector => (* g3opsSub_TriVector.hpp, lines 40-43 *)
      [h_g3opsSub_same; h_g3opsUni; h_g3opsSub_Scalar; h_g3opsSub_Vector]
  | h_g3opsSub_Spinor => (* g3opsSub_Spinor.hpp, lines 40-43 *)
      [h_g3opsSub_same; h_g3opsUni; h_g3opsSub_Scalar; h_g3opsSub_BiVector]
  | h_g3opsSub_ImSpin => (* g3opsSub_ImSpin.hpp, lines 40-44 *)
      [h_g3opsSub_same; h_g3opsUni; h_g3opsSub_Vector; h_g3opsSub_TriVector; h_g3opsSub_Spinor]
  | h_g3opsSub_ComPlex => (* g3opsSub_ComPlex.hpp, lines 40-43 *)
      [h_g3opsSub_same; h_g3opsUni; h_g3opsSub_Scalar; h_g3opsSub_TriVector]
  | h_g3opsSub_DirPlex => (* g3opsSub_DirPlex.hpp, lines 40-44 *)
      [h_g3opsSub_same; h_g3opsUni; h_g3opsSub_Vector; h_g3opsSub_BiVector; h_g3opsSub_ComPlex]
  | h_g3opsSub_MultiVector => (* g3opsSub_MultiVector.hpp, lines 40-49 *)
      [h_g3opsSub_same; h_g3opsUni; h_g3opsSub_Scalar; h_g3opsSub_Vector; h_g3opsSub_BiVector;
          h_g3opsSub_TriVector; h_g3opsSub_Spinor; h_g3opsSub_ImSpin; h_g3opsSub_ComPlex;
          h_g3opsSub_DirPlex]
  | h_g3opsSub => (* g3opsSub.hpp, lines 33-42 *)
      [h_g3opsSub_same; h_g3opsSub_Scalar; h_g3opsSub_Vector; h_g3opsSub_BiVector;
          h_g3opsSub_TriVector; h_g3opsSub_Spinor; h_g3opsSub_ImSpin; h_g3opsSub_ComPlex;
          h_g3opsSub_DirPlex; h_g3opsSub_MultiVector]
  | h_g3opsMul_double => (* g3opsMul_double.hpp, lines 39-39 *)
      [h_g3type]
  | h_g3opsMul_Scalar => (* g3opsMul_Scalar.hpp, lines 39-41 *)
      [h_g3type; h_g3opsMul_double]
  | h_g3opsMul_Vector => (* g3opsMul_Vector.hpp, lines 39-46 *)
      [h_g3type; h_g3_private; h_g3opsAdd; h_g3opsUni; h_g3opsMul_double; h_g3opsMul_Scalar]
  | h_g3opsMul_BiVector => (* g3opsMul_BiVector.hpp, lines 39-47 *)
      [h_g3type; h_g3_private; h_g3opsAdd; h_g3opsUni; h_g3opsMul_double; h_g3opsMul_Scalar;
          h_g3opsMul_Vector]
  | h_g3opsMul_TriVector => (* g3opsMul_TriVector.hpp, lines 39-48 *)
      [h_g3type; h_g3_private; h_g3opsAdd; h_g3opsUni; h_g3opsMul_double; h_g3opsMul_Scalar;
          h_g3opsMul_Vector; h_g3opsMul_BiVector]
  | h_g3opsMul_Spinor => (* g3opsMul_Spinor.hpp, lines 39-51 *)
      [h_g3type; h_g3_private; h_g3opsAdd; h_g3opsSub; h_g3opsUni; h_g3opsMul_double;
          h_g3opsMul_Scalar; h_g3opsMul_Vector; h_g3opsMul_BiVector; h_g3opsMul_TriVector]
  | h_g3opsMul_ImSpin => (* g3opsMul_ImSpin.hpp, lines 39-52 *)
      [h_g3type; h_g3_private; h_g3opsAdd; h_g3opsSub; h_g3opsUni; h_g3opsMul_double;
          h_g3opsMul_Scalar; h_g3opsMul_Vector; h_g3opsMul_BiVector; h_g3opsMul_TriVector;
          h_g3opsMul_Spinor]
  | h_g3opsMul_ComPlex => (* g3opsMul_ComPlex.hpp, lines 39-53 *)
      [h_g3type; h_g3_private; h_g3opsAdd; h_g3opsSub; h_g3opsUni; h_g3opsMul_double;
          h_g3opsMul_Scalar; h_g3opsMul_Vector; h_g3opsMul_BiVector; h_g3opsMul_TriVector;
          h_g3opsMul_Spinor; h_g3opsMul_ImSpin]
  | h_g3opsMul_DirPlex => (* g3opsMul_DirPlex.hpp, lines 39-54 *)
      [h_g3type; h_g3_private; h_g3opsAdd; h_g3opsSub; h_g3opsUni; h_g3opsMul_double;
          h_g3opsMul_Scalar; h_g3opsMul_Vector; h_g3opsMul_BiVector; h_g3opsMul_TriVector;
          h_g3opsMul_Spinor; h_g3opsMul_ImSpin; h_g3opsMul_ComPlex]
  | h_g3opsMul_MultiVector => (* g3opsMul_MultiVector.hpp, lines 39-55 *)
      [h_g3type; h_g3_private; h_g3opsAdd; h_g3opsSub; h_g3opsUni; h_g3opsMul_double;
          h_g3opsMul_Scalar; h_g3opsMul_Vector; h_g3opsMul_BiVector; h_g3opsMul_TriVector;
          h_g3opsMul_Spinor; h_g3opsMul_ImSpin; h_g3opsMul_ComPlex; h_g3opsMul_DirPlex]
  | h_g3opsMul => (* g3opsMul.hpp, lines 146-168 *)
      [h_g3type; h_g3opsUni; h_g3_private; h_g3opsAdd_same; h_g3opsSub_same; h_g3opsMul_double;
          h_g3opsMul_Scalar; h_g3opsMul_Vector; h_g3opsMul_BiVector; h_g3opsMul_TriVector;
          h_g3opsMul_Spinor; h_g3opsMul_ImSpin; h_g3opsMul_ComPlex; h_g3opsMul_DirPlex;
          h_g3opsMul_MultiVector; h_std]
  | h_g3ops => (* g3ops.hpp, lines 35-39 *)
      [h_g3opsUni; h_g3opsAdd_same; h_g3opsMul]
  | h_g3func => (* g3func.hpp, lines 83-89 *)
      [h_g3type; h_g3ops; h_g3traits; h_g3validity; h_g3io]
  | h_g3publish => (* g3publish.hpp, lines 73-77 *)
      [h_g3opsAdd_same; h_g3opsSub_same; h_g3opsMul; h_g3opsUni]
  | h_engabra => (* engabra.hpp, lines 37-45 *)
      [h_g3compare; h_g3type; h_g3const; h_g3func; h_g3io; h_g3ops; h_g3publish; h_g3validity]
  | h_Engabra => (* Engabra, lines 46-46 *)
      [h_engabra]
  end.

(** the declarations of each file, in order *)
Definition declarations (h : header) : list decl :=
  match h with
  | h_std => (* any standard header *)
      [ D ["std"] []
      ]
  | h_g3_private => (* g3_private.hpp *)
      [ D ["priv::binaryElementByElement"] ["std"] (* 53-71 *)
      ; D ["priv::prodComm(array3,array3)"] ["std"] (* 78-91 *)
      ; D ["priv::prodComm(array1,array1)"] ["std"] (* 94-102 *)
      ; D ["priv::prodAnti(array3,array3)"] ["std"] (* 109-121 *)
      ]
  | h_g3type => (* g3type.hpp *)
      [ D ["sGlobalNaN"] ["std"] (* 111-112 *)
      ; D ["Scalar"] ["std"] (* 153-180 *)
      ; D ["Vector"] ["std"] (* 237-262 *)
      ; D ["BiVector"] ["std"] (* 306-331 *)
      ; D ["TriVector"] ["std"] (* 371-398 *)
      ; D ["Spinor"] ["std"; "Scalar"; "BiVector"] (* 409-442 *)
      ; D ["ImSpin"] ["std"; "Vector"; "TriVector"] (* 455-489 *)
      ; D ["ComPlex"] ["std"; "Scalar"; "TriVector"] (* 510-567 *)
      ; D ["DirPlex"] ["std"; "Vector"; "BiVector"] (* 586-621 *)
      ; D ["MultiVector"] ["std"; "Scalar"; "Vector"; "BiVector"; "TriVector"; "Spinor"; "ImSpin";
          "ComPlex"; "DirPlex"] (* 634-869 *)
      ]
  | h_g3traits => (* g3traits.hpp *)
      [ D ["is::blade"] ["std"; "Scalar"; "Vector"; "BiVector"; "TriVector"] (* 77-93 *)
      ; D ["is::Scalar"] ["std"; "Scalar"] (* 99-105 *)
      ; D ["is::Vector"] ["std"; "Vector"] (* 107-113 *)
      ; D ["is::BiVector"] ["std"; "BiVector"] (* 115-121 *)
      ; D ["is::TriVector"] ["std"; "TriVector"] (* 123-129 *)
      ; D ["is::Spinor"] ["std"; "Spinor"] (* 131-137 *)
      ; D ["is::ImSpin"] ["std"; "ImSpin"] (* 139-145 *)
      ; D ["is::ComPlex"] ["std"; "ComPlex"] (* 147-153 *)
      ; D ["is::DirPlex"] ["std"; "DirPlex"] (* 155-161 *)
      ; D ["is::MultiVector"] ["std"; "MultiVector"] (* 163-169 *)
      ]
  | h_g3const => (* g3const.hpp *)
      [ D ["pi"] [] (* 99 *)
      ; D ["piHalf"] ["pi"] (* 101 *)
      ; D ["piQtr"] ["piHalf"] (* 103 *)
      ; D ["turnFull"] ["pi"] (* 106 *)
      ; D ["turnHalf"] ["pi"] (* 108 *)
      ; D ["turnQtr"] ["piHalf"] (* 110 *)
      ; D ["nan"] ["std"] (* 117 *)
      ; D ["null"] ["nan"] (* 120-128 *)
      ; D ["null<Vector>"] ["Vector"; "nan"] (* 149-157 *)
      ; D ["null<BiVector>"] ["BiVector"; "nan"] (* 160-168 *)
      ; D ["null<Spinor>"] ["Spinor"; "null"; "null<BiVector>"] (* 185-192 *)
      ; D ["null<ImSpin>"] ["ImSpin"; "null<Vector>"; "null"] (* 195-202 *)
      ; D ["null<ComPlex>"] ["ComPlex"; "Scalar"; "null"; "TriVector"] (* 205-213 *)
      ; D ["null<DirPlex>"] ["DirPlex"; "null<Vector>"; "null<BiVector>"] (* 216-223 *)
      ; D ["zero"] [] (* 230-238 *)
      ; D ["zero<Vector>"] ["Vector"] (* 253-260 *)
      ; D ["zero<BiVector>"] ["BiVector"] (* 263-270 *)
      ; D ["zero<Spinor>"] ["Spinor"; "zero"; "zero<BiVector>"] (* 286-293 *)
      ; D ["zero<ImSpin>"] ["ImSpin"; "zero<Vector>"; "zero"] (* 296-303 *)
      ; D ["zero<ComPlex>"] ["ComPlex"; "zero"] (* 306-313 *)
      ; D ["zero<DirPlex>"] ["DirPlex"; "zero<Vector>"; "zero<BiVector>"] (* 316-323 *)
      ; D ["zero<MultiVector>"] ["MultiVector"; "zero"; "zero<Vector>"; "zero<BiVector>"] (* 326-337 *)
      ; D ["one"] [] (* 344-351 *)
      ; D ["one<Vector>"] ["Vector"; "zero<Vector>"] (* 354-361 *)
      ; D ["one<BiVector>"] ["BiVector"; "zero<BiVector>"] (* 364-371 *)
      ; D ["one<Spinor>"] ["Spinor"; "one"; "zero<BiVector>"] (* 374-381 *)
      ; D ["one<MultiVector>"] ["MultiVector"; "one"; "zero<Vector>"; "zero<BiVector>"; "zero"] (* 384-395 *)
      ; D ["e0"] ["Scalar"] (* 402 *)
      ; D ["e1"] ["Vector"] (* 405 *)
      ; D ["e2"] ["Vector"] (* 406 *)
      ; D ["e3"] ["Vector"] (* 407 *)
      ; D ["e23"] ["BiVector"] (* 410 *)
      ; D ["e31"] ["BiVector"] (* 411 *)
      ; D ["e12"] ["BiVector"] (* 412 *)
      ; D ["e123"] ["TriVector"] (* 415 *)
      ]
  | h_g3validity => (* g3validity.hpp *)
      [ D ["isValid(double)"] ["std"] (* 83-91 *)
      ; D ["isValid(array)"] ["std"; "isValid(double)"] (* 98-111 *)
      ; D ["isValid(Scalar)"; "isValid(Vector)"; "isValid(BiVector)"; "isValid(TriVector)"] ["std";
          "is::blade"] (* 114-125 *)
      ; D ["isValid(Spinor)"] ["Spinor"; "isValid(Scalar)"; "isValid(BiVector)"] (* 128-135 *)
      ; D ["isValid(ImSpin)"] ["ImSpin"; "isValid(Vector)"; "isValid(TriVector)"] (* 138-145 *)
      ; D ["isValid(ComPlex)"] ["ComPlex"; "isValid(Scalar)"; "isValid(TriVector)"] (* 148-155 *)
      ; D ["isValid(DirPlex)"] ["DirPlex"; "isValid(Vector)"; "isValid(BiVector)"] (* 158-165 *)
      ; D ["isValid(MultiVector)"] ["MultiVector"; "isValid(Scalar)"; "isValid(Vector)";
          "isValid(BiVector)"; "isValid(TriVector)"] (* 168-180 *)
      ]
  | h_g3compare => (* g3compare.hpp *)
      [ D ["isSmallAbs(double,double)"] ["std"] (* 101-109 *)
      ; D ["isSmallAbsDiff(double,double,double)"] ["isSmallAbs(double,double)"] (* 112-122 *)
      ; D ["bothAreValid(double,double)"] ["isValid(double)"] (* 125-133 *)
      ; D ["nearlyEqualsAbs(double,double,double)"] ["std"; "bothAreValid(double,double)";
          "isSmallAbsDiff(double,double,double)"] (* 155-169 *)
      ; D ["nearlyEqualsRel(double,double,double)"] ["std"; "bothAreValid(double,double)";
          "isSmallAbsDiff(double,double,double)"] (* 175-207 *)
      ; D ["nearlyEquals(double,double,double)"] ["std"; "nearlyEqualsRel(double,double,double)"] (* 213-222 *)
      ; D ["nearlyEquals(bool,bool)"] [] (* 229-237 *)
      ; D ["nearlyEquals(array,array,double)"] ["std"; "isValid(array)";
          "nearlyEqualsAbs(double,double,double)"; "isSmallAbsDiff(double,double,double)";
          "isSmallAbs(double,double)"] (* 254-306 *)
      ; D ["nearlyEquals(Scalar,Scalar,double)"; "nearlyEquals(Vector,Vector,double)";
          "nearlyEquals(BiVector,BiVector,double)"; "nearlyEquals(TriVector,TriVector,double)"]
          ["std"; "is::blade"] (* 309-322 *)
      ; D ["nearlyEquals(Spinor,Spinor,double)"] ["std"; "Spinor";
          "nearlyEquals(Scalar,Scalar,double)"; "nearlyEquals(BiVector,BiVector,double)"] (* 325-337 *)
      ; D ["nearlyEquals(ImSpin,ImSpin,double)"] ["std"; "ImSpin";
          "nearlyEquals(Vector,Vector,double)"; "nearlyEquals(TriVector,TriVector,double)"] (* 340-352 *)
      ; D ["nearlyEquals(ComPlex,ComPlex,double)"] ["std"; "ComPlex";
          "nearlyEquals(Scalar,Scalar,double)"; "nearlyEquals(TriVector,TriVector,double)"] (* 355-367 *)
      ; D ["nearlyEquals(DirPlex,DirPlex,double)"] ["std"; "DirPlex";
          "nearlyEquals(Vector,Vector,double)"; "nearlyEquals(BiVector,BiVector,double)"] (* 370-382 *)
      ; D ["nearlyEquals(MultiVector,MultiVector,double)"] ["std"; "MultiVector";
          "nearlyEquals(Scalar,Scalar,double)"; "nearlyEquals(Vector,Vector,double)";
          "nearlyEquals(BiVector,BiVector,double)"; "nearlyEquals(TriVector,TriVector,double)"] (* 385-399 *)
      ; D ["operator==(array3,array3)"] ["std"] (* 406-418 *)
      ; D ["operator==(Scalar,Scalar)"] ["Scalar"] (* 422-430 *)
      ; D ["operator==(Vector,Vector)"] ["Vector"; "operator==(array3,array3)"] (* 433-441 *)
      ; D ["operator==(BiVector,BiVector)"] ["BiVector"; "operator==(array3,array3)"] (* 444-452 *)
      ; D ["operator==(TriVector,TriVector)"] ["TriVector"] (* 455-463 *)
      ; D ["operator==(Spinor,Spinor)"] ["Spinor"; "operator==(Scalar,Scalar)";
          "operator==(BiVector,BiVector)"] (* 466-477 *)
      ; D ["operator==(ImSpin,ImSpin)"] ["ImSpin"; "operator==(Vector,Vector)";
          "operator==(TriVector,TriVector)"] (* 480-491 *)
      ; D ["operator==(MultiVector,MultiVector)"] ["MultiVector"; "operator==(Scalar,Scalar)";
          "operator==(Vector,Vector)"; "operator==(BiVector,BiVector)";
          "operator==(TriVector,TriVector)"] (* 494-507 *)
      ]
  | h_g3io => (* g3io.hpp *)
      [ D ["io::priv::prepareEnote(std,std)"] ["std"] (* 203-230 *)
      ; D ["io::priv::operator<<(std,DoubleFormat)"] ["std"] (* 233-242 *)
      ; D ["io::priv::put(std,double,DoubleFormat)"] ["std"] (* 249-259 *)
      ; D ["io::priv::put(std,array,DoubleFormat)"] ["std"] (* 262-278 *)
      ; D ["io::priv::isInputOkay(std,double)"] ["std"; "isValid(double)"] (* 285-296 *)
      ; D ["io::fixed(double,std,std)"] ["std"] (* 305-317 *)
      ; D ["io::fixed(Scalar,std,std)"; "io::fixed(Vector,std,std)"; "io::fixed(BiVector,std,std)";
          "io::fixed(TriVector,std,std)"] ["std"; "is::blade"] (* 320-340 *)
      ; D ["io::fixed(Spinor,std,std)"] ["std"; "Scalar"; "BiVector"; "Spinor"] (* 343-358 *)
      ; D ["io::fixed(ImSpin,std,std)"] ["std"; "Vector"; "TriVector"; "ImSpin"] (* 361-376 *)
      ; D ["io::fixed(MultiVector,std,std)"] ["std"; "Scalar"; "Vector"; "BiVector"; "TriVector";
          "MultiVector"] (* 379-398 *)
      ; D ["io::enote(double,std)"] ["std"] (* 405-416 *)
      ; D ["io::enote(Scalar,std)"; "io::enote(Vector,std)"; "io::enote(BiVector,std)";
          "io::enote(TriVector,std)"] ["std"; "is::blade"] (* 419-441 *)
      ; D ["io::enote(Spinor,std)"] ["std"; "Scalar"; "BiVector"; "Spinor"] (* 444-458 *)
      ; D ["io::enote(ImSpin,std)"] ["std"; "Vector"; "TriVector"; "ImSpin"] (* 461-475 *)
      ; D ["io::enote(MultiVector,std)"] ["std"; "Scalar"; "Vector"; "BiVector"; "TriVector";
          "MultiVector"] (* 478-496 *)
      ; D ["operator<<(std,Scalar)"] ["std"; "Scalar"] (* 513-522 *)
      ; D ["operator<<(std,Vector)"] ["std"; "Vector"] (* 525-534 *)
      ; D ["operator<<(std,BiVector)"] ["std"; "BiVector"] (* 537-546 *)
      ; D ["operator<<(std,TriVector)"] ["std"; "TriVector"] (* 549-558 *)
      ; D ["operator<<(std,Spinor)"] ["std"; "Spinor"] (* 561-570 *)
      ; D ["operator<<(std,ImSpin)"] ["std"; "ImSpin"] (* 573-582 *)
      ; D ["operator<<(std,ComPlex)"] ["std"; "ComPlex"] (* 585-594 *)
      ; D ["operator<<(std,DirPlex)"] ["std"; "DirPlex"] (* 597-606 *)
      ; D ["operator<<(std,MultiVector)"] ["std"; "MultiVector"] (* 609-623 *)
      ; D ["operator>>(std,array)"] ["std"] (* 634-658 *)
      ; D ["operator>>(std,Scalar)"; "operator>>(std,Vector)"; "operator>>(std,BiVector)";
          "operator>>(std,TriVector)"] ["std"; "is::blade"] (* 661-674 *)
      ; D ["operator>>(std,Spinor)"] ["std"; "Spinor"] (* 677-688 *)
      ; D ["operator>>(std,ImSpin)"] ["std"; "ImSpin"] (* 691-702 *)
      ; D ["operator>>(std,ComPlex)"] ["std"; "ComPlex"] (* 705-715 *)
      ; D ["operator>>(std,DirPlex)"] ["std"; "DirPlex"] (* 718-729 *)
      ; D ["operator>>(std,MultiVector)"] ["std"; "MultiVector"] (* 732-745 *)
      ]
  | h_g3opsUni => (* g3opsUni.hpp *)
      [ D ["operator-(Scalar)"; "operator-(Vector)"; "operator-(BiVector)"; "operator-(TriVector)"]
          ["std"; "is::blade"] (* 123-141 *)
      ; D ["operator-(Spinor)"] ["Spinor"; "operator-(Scalar)"; "operator-(BiVector)"] (* 144-151 *)
      ; D ["operator-(ImSpin)"] ["ImSpin"; "operator-(Vector)"; "operator-(TriVector)"] (* 154-161 *)
      ; D ["operator-(ComPlex)"] ["ComPlex"; "operator-(Scalar)"; "operator-(TriVector)"] (* 164-171 *)
      ; D ["operator-(DirPlex)"] ["DirPlex"; "operator-(Vector)"; "operator-(BiVector)"] (* 174-181 *)
      ; D ["operator-(MultiVector)"] ["MultiVector"; "operator-(Scalar)"; "operator-(Vector)";
          "operator-(BiVector)"; "operator-(TriVector)"] (* 184-191 *)
      ; D ["reverse(double)"] [] (* 198-205 *)
      ; D ["reverse(Scalar)"] ["Scalar"] (* 208-215 *)
      ; D ["reverse(Vector)"] ["Vector"] (* 218-225 *)
      ; D ["reverse(BiVector)"] ["BiVector"] (* 228-236 *)
      ; D ["reverse(TriVector)"] ["TriVector"] (* 239-246 *)
      ; D ["reverse(Spinor)"] ["Spinor"; "reverse(Scalar)"; "reverse(BiVector)"] (* 249-260 *)
      ; D ["reverse(ImSpin)"] ["ImSpin"; "reverse(Vector)"; "reverse(TriVector)"] (* 263-274 *)
      ; D ["reverse(ComPlex)"] ["ComPlex"; "reverse(Scalar)"; "reverse(TriVector)"] (* 277-287 *)
      ; D ["reverse(DirPlex)"] ["DirPlex"; "reverse(Vector)"; "reverse(BiVector)"] (* 290-300 *)
      ; D ["reverse(MultiVector)"] ["MultiVector"; "reverse(Scalar)"; "reverse(Vector)";
          "reverse(BiVector)"; "reverse(TriVector)"] (* 303-316 *)
      ; D ["oddverse(Scalar)"] ["Scalar"] (* 323-330 *)
      ; D ["oddverse(Vector)"] ["Vector"] (* 333-340 *)
      ; D ["oddverse(BiVector)"] ["BiVector"] (* 343-350 *)
      ; D ["oddverse(TriVector)"] ["TriVector"] (* 353-360 *)
      ; D ["oddverse(Spinor)"] ["Spinor"] (* 363-370 *)
      ; D ["oddverse(ImSpin)"] ["ImSpin"; "oddverse(Vector)"; "oddverse(TriVector)"] (* 373-383 *)
      ; D ["oddverse(ComPlex)"] ["ComPlex"; "oddverse(TriVector)"] (* 386-396 *)
      ; D ["oddverse(DirPlex)"] ["DirPlex"; "oddverse(Vector)"] (* 399-409 *)
      ; D ["oddverse(MultiVector)"] ["MultiVector"; "oddverse(Scalar)"; "oddverse(Vector)";
          "oddverse(BiVector)"; "oddverse(TriVector)"] (* 412-425 *)
      ; D ["dirverse(Scalar)"] ["Scalar"] (* 433-440 *)
      ; D ["dirverse(Vector)"] ["Vector"] (* 443-450 *)
      ; D ["dirverse(BiVector)"] ["BiVector"] (* 453-460 *)
      ; D ["dirverse(TriVector)"] ["TriVector"] (* 463-470 *)
      ; D ["dirverse(Spinor)"] ["Spinor"; "dirverse(Scalar)"; "dirverse(BiVector)"] (* 473-484 *)
      ; D ["dirverse(ImSpin)"] ["ImSpin"; "dirverse(Vector)"; "dirverse(TriVector)"] (* 487-499 *)
      ; D ["dirverse(ComPlex)"] ["ComPlex"] (* 502-509 *)
      ; D ["dirverse(DirPlex)"] ["DirPlex"; "dirverse(Vector)"; "dirverse(BiVector)"] (* 512-523 *)
      ; D ["dirverse(MultiVector)"] ["MultiVector"; "dirverse(Scalar)"; "dirverse(Vector)";
          "dirverse(BiVector)"; "dirverse(TriVector)"] (* 526-539 *)
      ; D ["dual(double)"] ["TriVector"] (* 546-553 *)
      ; D ["dual(Scalar)"] ["TriVector"; "Scalar"] (* 556-563 *)
      ; D ["dual(Vector)"] ["BiVector"; "Vector"] (* 566-573 *)
      ; D ["dual(BiVector)"] ["Vector"; "BiVector"] (* 576-587 *)
      ; D ["dual(TriVector)"] ["Scalar"; "TriVector"] (* 590-597 *)
      ; D ["dual(Spinor)"] ["ImSpin"; "Spinor"; "dual(BiVector)"; "dual(Scalar)"] (* 600-607 *)
      ; D ["dual(ImSpin)"] ["Spinor"; "ImSpin"; "dual(TriVector)"; "dual(Vector)"] (* 610-617 *)
      ; D ["dual(ComPlex)"] ["ComPlex"; "dual(TriVector)"; "dual(Scalar)"] (* 620-627 *)
      ; D ["dual(DirPlex)"] ["DirPlex"; "dual(BiVector)"; "dual(Vector)"] (* 630-637 *)
      ; D ["dual(MultiVector)"] ["MultiVector"; "dual(TriVector)"; "dual(BiVector)"; "dual(Vector)";
          "dual(Scalar)"] (* 640-652 *)
      ]
  | h_g3opsAdd_same => (* g3opsAdd_same.hpp *)
      [ D ["operator+(Scalar,Scalar)"; "operator+(Vector,Vector)"; "operator+(BiVector,BiVector)";
          "operator+(TriVector,TriVector)"] ["std"; "is::blade"; "priv::binaryElementByElement"] (* 59-76 *)
      ; D ["operator+(Spinor,Spinor)"] ["Spinor"; "operator+(Scalar,Scalar)";
          "operator+(BiVector,BiVector)"] (* 85-96 *)
      ; D ["operator+(ImSpin,ImSpin)"] ["ImSpin"; "operator+(Vector,Vector)";
          "operator+(TriVector,TriVector)"] (* 99-110 *)
      ; D ["operator+(ComPlex,ComPlex)"] ["ComPlex"; "operator+(Scalar,Scalar)";
          "operator+(TriVector,TriVector)"] (* 113-124 *)
      ; D ["operator+(DirPlex,DirPlex)"] ["DirPlex"; "operator+(Vector,Vector)";
          "operator+(BiVector,BiVector)"] (* 127-138 *)
      ; D ["operator+(MultiVector,MultiVector)"] ["MultiVector"; "operator+(Scalar,Scalar)";
          "operator+(Vector,Vector)"; "operator+(BiVector,BiVector)";
          "operator+(TriVector,TriVector)"] (* 141-154 *)
      ]
  | h_g3opsAdd_Scalar => (* g3opsAdd_Scalar.hpp *)
      [ D ["operator+(Scalar,BiVector)"] ["Spinor"; "Scalar"; "BiVector"] (* 57-65 *)
      ; D ["operator+(Scalar,TriVector)"] ["ComPlex"; "Scalar"; "TriVector"] (* 68-76 *)
      ; D ["operator+(Scalar,Spinor)"] ["Spinor"; "Scalar"; "operator+(Scalar,Scalar)"] (* 79-90 *)
      ; D ["operator+(Scalar,ComPlex)"] ["ComPlex"; "Scalar"; "operator+(Scalar,Scalar)"] (* 95-106 *)
      ; D ["operator+(Scalar,MultiVector)"] ["MultiVector"; "Scalar"; "operator+(Scalar,Scalar)"] (* 111-124 *)
      ]
  | h_g3opsAdd_Vector => (* g3opsAdd_Vector.hpp *)
      [ D ["operator+(Vector,BiVector)"] ["DirPlex"; "Vector"; "BiVector"] (* 61-69 *)
      ; D ["operator+(Vector,TriVector)"] ["ImSpin"; "Vector"; "TriVector"] (* 72-80 *)
      ; D ["operator+(Vector,ImSpin)"] ["ImSpin"; "Vector"; "operator+(Vector,Vector)"] (* 83-94 *)
      ; D ["operator+(Vector,DirPlex)"] ["DirPlex"; "Vector"; "operator+(Vector,Vector)"] (* 99-110 *)
      ; D ["operator+(Vector,MultiVector)"] ["MultiVector"; "Vector"; "operator+(Vector,Vector)"] (* 113-126 *)
      ]
  | h_g3opsAdd_BiVector => (* g3opsAdd_BiVector.hpp *)
      [ D ["operator+(BiVector,Scalar)"] ["Spinor"; "BiVector"; "Scalar";
          "operator+(Scalar,BiVector)"] (* 56-64 *)
      ; D ["operator+(BiVector,Vector)"] ["DirPlex"; "BiVector"; "Vector";
          "operator+(Vector,BiVector)"] (* 67-75 *)
      ; D ["operator+(BiVector,Spinor)"] ["Spinor"; "BiVector"; "operator+(BiVector,BiVector)"] (* 86-94 *)
      ; D ["operator+(BiVector,DirPlex)"] ["DirPlex"; "BiVector"; "operator+(BiVector,BiVector)"] (* 99-107 *)
      ; D ["operator+(BiVector,MultiVector)"] ["MultiVector"; "BiVector";
          "operator+(BiVector,BiVector)"] (* 110-123 *)
      ]
  | h_g3opsAdd_TriVector => (* g3opsAdd_TriVector.hpp *)
      [ D ["operator+(TriVector,Scalar)"] ["ComPlex"; "TriVector"; "Scalar";
          "operator+(Scalar,TriVector)"] (* 56-64 *)
      ; D ["operator+(TriVector,Vector)"] ["ImSpin"; "TriVector"; "Vector";
          "operator+(Vector,TriVector)"] (* 67-75 *)
      ; D ["operator+(TriVector,ImSpin)"] ["ImSpin"; "TriVector"; "operator+(TriVector,TriVector)"] (* 88-96 *)
      ; D ["operator+(TriVector,ComPlex)"] ["ComPlex"; "TriVector";
          "operator+(TriVector,TriVector)"] (* 99-107 *)
      ; D ["operator+(TriVector,MultiVector)"] ["MultiVector"; "TriVector";
          "operator+(TriVector,TriVector)"] (* 112-125 *)
      ]
  | h_g3opsAdd_Spinor => (* g3opsAdd_Spinor.hpp *)
      [ D ["operator+(Spinor,Scalar)"] ["Spinor"; "Scalar"; "operator+(Scalar,Spinor)"] (* 56-64 *)
      ; D ["operator+(Spinor,BiVector)"] ["Spinor"; "BiVector"; "operator+(BiVector,Spinor)"] (* 69-77 *)
      ; D ["operator+(Spinor,ImSpin)"] ["MultiVector"; "Spinor"; "ImSpin"] (* 88-101 *)
      ; D ["operator+(Spinor,MultiVector)"] ["MultiVector"; "Spinor"; "operator+(Scalar,Scalar)";
          "operator+(BiVector,BiVector)"] (* 108-121 *)
      ]
  | h_g3opsAdd_ImSpin => (* g3opsAdd_ImSpin.hpp *)
      [ D ["operator+(ImSpin,Vector)"] ["ImSpin"; "Vector"; "operator+(Vector,ImSpin)"] (* 59-67 *)
      ; D ["operator+(ImSpin,TriVector)"] ["ImSpin"; "TriVector"; "operator+(TriVector,ImSpin)"] (* 72-80 *)
      ; D ["operator+(ImSpin,Spinor)"] ["MultiVector"; "ImSpin"; "Spinor";
          "operator+(Spinor,ImSpin)"] (* 83-91 *)
      ; D ["operator+(ImSpin,MultiVector)"] ["MultiVector"; "ImSpin"; "operator+(Vector,Vector)";
          "operator+(TriVector,TriVector)"] (* 104-117 *)
      ]
  | h_g3opsAdd_ComPlex => (* g3opsAdd_ComPlex.hpp *)
      [ D ["operator+(ComPlex,Scalar)"] ["ComPlex"; "Scalar"; "operator+(Scalar,ComPlex)"] (* 57-65 *)
      ; D ["operator+(ComPlex,TriVector)"] ["ComPlex"; "TriVector"; "operator+(TriVector,ComPlex)"] (* 72-80 *)
      ; D ["operator+(ComPlex,DirPlex)"] ["MultiVector"; "ComPlex"; "DirPlex"] (* 93-106 *)
      ; D ["operator+(ComPlex,MultiVector)"] ["MultiVector"; "ComPlex"; "operator+(Scalar,Scalar)";
          "operator+(TriVector,TriVector)"] (* 109-122 *)
      ]
  | h_g3opsAdd_DirPlex => (* g3opsAdd_DirPlex.hpp *)
      [ D ["operator+(DirPlex,Vector)"] ["DirPlex"; "Vector"; "operator+(Vector,DirPlex)"] (* 60-68 *)
      ; D ["operator+(DirPlex,BiVector)"] ["DirPlex"; "BiVector"; "operator+(BiVector,DirPlex)"] (* 71-79 *)
      ; D ["operator+(DirPlex,ComPlex)"] ["MultiVector"; "DirPlex"; "ComPlex";
          "operator+(ComPlex,DirPlex)"] (* 88-96 *)
      ; D ["operator+(DirPlex,MultiVector)"] ["MultiVector"; "DirPlex"; "operator+(Vector,Vector)";
          "operator+(BiVector,BiVector)"] (* 105-118 *)
      ]
  | h_g3opsAdd_MultiVector => (* g3opsAdd_MultiVector.hpp *)
      [ D ["operator+(MultiVector,Scalar)"] ["MultiVector"; "Scalar";
          "operator+(Scalar,MultiVector)"] (* 63-71 *)
      ; D ["operator+(MultiVector,Vector)"] ["MultiVector"; "Vector";
          "operator+(Vector,MultiVector)"] (* 74-82 *)
      ; D ["operator+(MultiVector,BiVector)"] ["MultiVector"; "BiVector";
          "operator+(BiVector,MultiVector)"] (* 85-93 *)
      ; D ["operator+(MultiVector,TriVector)"] ["MultiVector"; "TriVector";
          "operator+(TriVector,MultiVector)"] (* 96-104 *)
      ; D ["operator+(MultiVector,Spinor)"] ["MultiVector"; "Spinor";
          "operator+(Spinor,MultiVector)"] (* 107-115 *)
      ; D ["operator+(MultiVector,ImSpin)"] ["MultiVector"; "ImSpin";
          "operator+(ImSpin,MultiVector)"] (* 118-126 *)
      ; D ["operator+(MultiVector,ComPlex)"] ["MultiVector"; "ComPlex";
          "operator+(ComPlex,MultiVector)"] (* 129-137 *)
      ; D ["operator+(MultiVector,DirPlex)"] ["MultiVector"; "DirPlex";
          "operator+(DirPlex,MultiVector)"] (* 140-148 *)
      ]
  | h_g3opsAdd => []
  | h_g3opsSub_same => (* g3opsSub_same.hpp *)
      [ D ["operator-(Scalar,Scalar)"; "operator-(Vector,Vector)"; "operator-(BiVector,BiVector)";
          "operator-(TriVector,TriVector)"] ["std"; "is::blade"; "priv::binaryElementByElement"] (* 66-83 *)
      ; D ["operator-(Spinor,Spinor)"] ["Spinor"; "operator-(Scalar,Scalar)";
          "operator-(BiVector,BiVector)"] (* 86-97 *)
      ; D ["operator-(ImSpin,ImSpin)"] ["ImSpin"; "operator-(Vector,Vector)";
          "operator-(TriVector,TriVector)"] (* 100-111 *)
      ; D ["operator-(ComPlex,ComPlex)"] ["ComPlex"; "operator-(Scalar,Scalar)";
          "operator-(TriVector,TriVector)"] (* 114-125 *)
      ; D ["operator-(DirPlex,DirPlex)"] ["DirPlex"; "operator-(Vector,Vector)";
          "operator-(BiVector,BiVector)"] (* 128-139 *)
      ; D ["operator-(MultiVector,MultiVector)"] ["MultiVector"; "operator-(Scalar,Scalar)";
          "operator-(Vector,Vector)"; "operator-(BiVector,BiVector)";
          "operator-(TriVector,TriVector)"] (* 142-155 *)
      ]
  | h_g3opsSub_Scalar => (* g3opsSub_Scalar.hpp *)
      [ D ["operator-(Scalar,BiVector)"] ["Spinor"; "Scalar"; "BiVector"; "operator-(BiVector)"] (* 58-66 *)
      ; D ["operator-(Scalar,TriVector)"] ["ComPlex"; "Scalar"; "TriVector"; "operator-(TriVector)"] (* 69-77 *)
      ; D ["operator-(Scalar,Spinor)"] ["Spinor"; "Scalar"; "operator-(Scalar,Scalar)";
          "operator-(BiVector)"] (* 80-91 *)
      ; D ["operator-(Scalar,ComPlex)"] ["ComPlex"; "Scalar"; "operator-(Scalar,Scalar)";
          "operator-(TriVector)"] (* 96-107 *)
      ; D ["operator-(Scalar,MultiVector)"] ["MultiVector"; "Scalar"; "operator-(Scalar,Scalar)";
          "operator-(Vector)"; "operator-(BiVector)"; "operator-(TriVector)"] (* 112-125 *)
      ]
  | h_g3opsSub_Vector => (* g3opsSub_Vector.hpp *)
      [ D ["operator-(Vector,BiVector)"] ["DirPlex"; "Vector"; "BiVector"; "operator-(BiVector)"] (* 62-70 *)
      ; D ["operator-(Vector,TriVector)"] ["ImSpin"; "Vector"; "TriVector"; "operator-(TriVector)"] (* 73-81 *)
      ; D ["operator-(Vector,ImSpin)"] ["ImSpin"; "Vector"; "operator-(Vector,Vector)";
          "operator-(TriVector)"] (* 84-95 *)
      ; D ["operator-(Vector,DirPlex)"] ["DirPlex"; "Vector"; "operator-(Vector,Vector)";
          "operator-(BiVector)"] (* 100-111 *)
      ; D ["operator-(Vector,MultiVector)"] ["MultiVector"; "Vector"; "operator-(Scalar)";
          "operator-(Vector,Vector)"; "operator-(BiVector)"; "operator-(TriVector)"] (* 114-127 *)
      ]
  | h_g3opsSub_BiVector => (* g3opsSub_BiVector.hpp *)
      [ D ["operator-(BiVector,Scalar)"] ["Spinor"; "BiVector"; "Scalar";
          "operator-(Scalar,BiVector)"] (* 57-65 *)
      ; D ["operator-(BiVector,Vector)"] ["DirPlex"; "BiVector"; "Vector";
          "operator-(Vector,BiVector)"] (* 68-76 *)
      ; D ["operator-(BiVector,Spinor)"] ["Spinor"; "BiVector"; "operator-(Scalar)";
          "operator-(BiVector,BiVector)"] (* 87-95 *)
      ; D ["operator-(BiVector,DirPlex)"] ["DirPlex"; "BiVector"; "operator-(Vector)";
          "operator-(BiVector,BiVector)"] (* 100-108 *)
      ; D ["operator-(BiVector,MultiVector)"] ["MultiVector"; "BiVector"; "operator-(Scalar)";
          "operator-(Vector)"; "operator-(BiVector,BiVector)"; "operator-(TriVector)"] (* 111-124 *)
      ]
  | h_g3opsSub_TriVector => (* g3opsSub_TriVector.hpp *)
      [ D ["operator-(TriVector,Scalar)"] ["ComPlex"; "TriVector"; "Scalar";
          "operator-(Scalar,TriVector)"] (* 57-65 *)
      ; D ["operator-(TriVector,Vector)"] ["ImSpin"; "TriVector"; "Vector";
          "operator-(Vector,TriVector)"] (* 68-76 *)
      ; D ["operator-(TriVector,ImSpin)"] ["ImSpin"; "TriVector"; "operator-(Vector)";
          "operator-(TriVector,TriVector)"] (* 89-97 *)
      ; D ["operator-(TriVector,ComPlex)"] ["ComPlex"; "TriVector"; "operator-(Scalar)";
          "operator-(TriVector,TriVector)"] (* 100-108 *)
      ; D ["operator-(TriVector,MultiVector)"] ["MultiVector"; "TriVector"; "operator-(Scalar)";
          "operator-(Vector)"; "operator-(BiVector)"; "operator-(TriVector,TriVector)"] (* 113-126 *)
      ]
  | h_g3opsSub_Spinor => (* g3opsSub_Spinor.hpp *)
      [ D ["operator-(Spinor,Scalar)"] ["Spinor"; "Scalar"; "operator-(Scalar,Spinor)"] (* 57-65 *)
      ; D ["operator-(Spinor,BiVector)"] ["Spinor"; "BiVector"; "operator-(BiVector,Spinor)"] (* 70-78 *)
      ; D ["operator-(Spinor,ImSpin)"] ["MultiVector"; "Spinor"; "ImSpin"; "operator-(Vector)";
          "operator-(TriVector)"] (* 89-102 *)
      ; D ["operator-(Spinor,MultiVector)"] ["MultiVector"; "Spinor"; "operator-(Scalar,Scalar)";
          "operator-(Vector)"; "operator-(BiVector,BiVector)"; "operator-(TriVector)"] (* 109-122 *)
      ]
  | h_g3opsSub_ImSpin => (* g3opsSub_ImSpin.hpp *)
      [ D ["operator-(ImSpin,Vector)"] ["ImSpin"; "Vector"; "operator-(Vector,ImSpin)";
          "operator-(ImSpin)"] (* 60-68 *)
      ; D ["operator-(ImSpin,TriVector)"] ["ImSpin"; "TriVector"; "operator-(TriVector,ImSpin)";
          "operator-(ImSpin)"] (* 73-81 *)
      ; D ["operator-(ImSpin,Spinor)"] ["MultiVector"; "ImSpin"; "Spinor";
          "operator-(Spinor,ImSpin)"; "operator-(MultiVector)"] (* 84-92 *)
      ; D ["operator-(ImSpin,MultiVector)"] ["MultiVector"; "ImSpin"; "operator-(Scalar)";
          "operator-(Vector,Vector)"; "operator-(BiVector)"; "operator-(TriVector,TriVector)"] (* 105-118 *)
      ]
  | h_g3opsSub_ComPlex => (* g3opsSub_ComPlex.hpp *)
      [ D ["operator-(ComPlex,Scalar)"] ["ComPlex"; "Scalar"; "operator-(Scalar,ComPlex)";
          "operator-(ComPlex)"] (* 58-66 *)
      ; D ["operator-(ComPlex,TriVector)"] ["ComPlex"; "TriVector"; "operator-(TriVector,ComPlex)";
          "operator-(ComPlex)"] (* 73-81 *)
      ; D ["operator-(ComPlex,DirPlex)"] ["MultiVector"; "ComPlex"; "DirPlex"; "operator-(Vector)";
          "operator-(BiVector)"] (* 94-107 *)
      ; D ["operator-(ComPlex,MultiVector)"] ["MultiVector"; "ComPlex"; "operator-(Scalar,Scalar)";
          "operator-(Vector)"; "operator-(BiVector)"; "operator-(TriVector,TriVector)"] (* 110-123 *)
      ]
  | h_g3opsSub_DirPlex => (* g3opsSub_DirPlex.hpp *)
      [ D ["operator-(DirPlex,Vector)"] ["DirPlex"; "Vector"; "operator-(Vector,DirPlex)";
          "operator-(DirPlex)"] (* 61-69 *)
      ; D ["operator-(DirPlex,BiVector)"] ["DirPlex"; "BiVector"; "operator-(BiVector,DirPlex)";
          "operator-(DirPlex)"] (* 72-80 *)
      ; D ["operator-(DirPlex,ComPlex)"] ["MultiVector"; "DirPlex"; "ComPlex";
          "operator-(ComPlex,DirPlex)"; "operator-(MultiVector)"] (* 89-97 *)
      ; D ["operator-(DirPlex,MultiVector)"] ["MultiVector"; "DirPlex"; "operator-(Scalar)";
          "operator-(Vector,Vector)"; "operator-(BiVector,BiVector)"; "operator-(TriVector)"] (* 106-119 *)
      ]
  | h_g3opsSub_MultiVector => (* g3opsSub_MultiVector.hpp *)
      [ D ["operator-(MultiVector,Scalar)"] ["MultiVector"; "Scalar";
          "operator-(Scalar,MultiVector)"; "operator-(MultiVector)"] (* 64-72 *)
      ; D ["operator-(MultiVector,Vector)"] ["MultiVector"; "Vector";
          "operator-(Vector,MultiVector)"; "operator-(MultiVector)"] (* 75-83 *)
      ; D ["operator-(MultiVector,BiVector)"] ["MultiVector"; "BiVector";
          "operator-(BiVector,MultiVector)"; "operator-(MultiVector)"] (* 86-94 *)
      ; D ["operator-(MultiVector,TriVector)"] ["MultiVector"; "TriVector";
          "operator-(TriVector,MultiVector)"; "operator-(MultiVector)"] (* 97-105 *)
      ; D ["operator-(MultiVector,Spinor)"] ["MultiVector"; "Spinor";
          "operator-(Spinor,MultiVector)"; "operator-(MultiVector)"] (* 108-116 *)
      ; D ["operator-(MultiVector,ImSpin)"] ["MultiVector"; "ImSpin";
          "operator-(ImSpin,MultiVector)"; "operator-(MultiVector)"] (* 119-127 *)
      ; D ["operator-(MultiVector,ComPlex)"] ["MultiVector"; "ComPlex";
          "operator-(ComPlex,MultiVector)"; "operator-(MultiVector)"] (* 130-138 *)
      ; D ["operator-(MultiVector,DirPlex)"] ["MultiVector"; "DirPlex";
          "operator-(DirPlex,MultiVector)"; "operator-(MultiVector)"] (* 141-149 *)
      ]
  | h_g3opsSub => []
  | h_g3opsMul_double => (* g3opsMul_double.hpp *)
      [ D ["operator*(double,Scalar)"] ["Scalar"] (* 68-76 *)
      ; D ["operator*(double,Vector)"] ["Vector"] (* 84-96 *)
      ; D ["operator*(double,BiVector)"] ["BiVector"] (* 104-116 *)
      ; D ["operator*(double,TriVector)"] ["TriVector"] (* 124-132 *)
      ; D ["operator*(double,Spinor)"] ["Spinor"; "Scalar"; "BiVector"] (* 140-156 *)
      ; D ["operator*(double,ImSpin)"] ["ImSpin"; "Vector"; "TriVector"] (* 164-180 *)
      ; D ["operator*(double,ComPlex)"] ["ComPlex"] (* 188-199 *)
      ; D ["operator*(double,DirPlex)"] ["DirPlex"; "Vector"; "BiVector"] (* 207-226 *)
      ; D ["operator*(double,MultiVector)"] ["MultiVector"; "Scalar"; "Vector"; "BiVector";
          "TriVector"] (* 234-257 *)
      ]
  | h_g3opsMul_Scalar => (* g3opsMul_Scalar.hpp *)
      [ D ["operator*(Scalar,double)"] ["Scalar"; "operator*(double,Scalar)"] (* 60-68 *)
      ; D ["operator*(Scalar,Scalar)"] ["Scalar"] (* 80-88 *)
      ; D ["operator*(Scalar,Vector)"] ["Vector"; "Scalar"] (* 100-112 *)
      ; D ["operator*(Scalar,BiVector)"] ["BiVector"; "Scalar"] (* 120-132 *)
      ; D ["operator*(Scalar,TriVector)"] ["TriVector"; "Scalar"] (* 140-148 *)
      ; D ["operator*(Scalar,Spinor)"] ["Spinor"; "Scalar"; "BiVector"] (* 156-172 *)
      ; D ["operator*(Scalar,ImSpin)"] ["ImSpin"; "Scalar"; "Vector"; "TriVector"] (* 180-196 *)
      ; D ["operator*(Scalar,ComPlex)"] ["ComPlex"; "Scalar"] (* 204-215 *)
      ; D ["operator*(Scalar,DirPlex)"] ["DirPlex"; "Scalar"; "Vector"; "BiVector"] (* 223-242 *)
      ; D ["operator*(Scalar,MultiVector)"] ["MultiVector"; "Scalar"; "Vector"; "BiVector";
          "TriVector"] (* 250-273 *)
      ]
  | h_g3opsMul_Vector => (* g3opsMul_Vector.hpp *)
      [ D ["operator*(Vector,double)"] ["Vector"; "operator*(double,Vector)"] (* 65-73 *)
      ; D ["operator*(Vector,Scalar)"] ["Vector"; "Scalar"; "operator*(Scalar,Vector)"] (* 81-89 *)
      ; D ["operator*(Vector,Vector)"] ["Spinor"; "Vector"; "Scalar";
          "priv::prodComm(array3,array3)"; "BiVector"; "priv::prodAnti(array3,array3)"] (* 101-111 *)
      ; D ["operator*(Vector,BiVector)"] ["ImSpin"; "Vector"; "BiVector";
          "priv::prodAnti(array3,array3)"; "TriVector"; "priv::prodComm(array3,array3)";
          "operator-(Vector)"] (* 123-134 *)
      ; D ["operator*(Vector,TriVector)"] ["BiVector"; "Vector"; "TriVector"] (* 142-155 *)
      ; D ["operator*(Vector,Spinor)"] ["ImSpin"; "Vector"; "Spinor";
          "priv::prodAnti(array3,array3)"; "TriVector"; "priv::prodComm(array3,array3)";
          "operator-(Vector)"; "operator+(Vector,Vector)"] (* 163-180 *)
      ; D ["operator*(Vector,ImSpin)"] ["Spinor"; "Vector"; "ImSpin"; "TriVector"; "Scalar";
          "priv::prodComm(array3,array3)"; "BiVector"; "priv::prodAnti(array3,array3)"] (* 188-215 *)
      ; D ["operator*(Vector,ComPlex)"] ["DirPlex"; "Vector"; "ComPlex"; "BiVector"] (* 223-242 *)
      ; D ["operator*(Vector,DirPlex)"] ["MultiVector"; "Vector"; "DirPlex"; "BiVector"; "Scalar";
          "priv::prodComm(array3,array3)"; "priv::prodAnti(array3,array3)"; "TriVector";
          "operator-(Vector)"] (* 250-272 *)
      ; D ["operator*(Vector,MultiVector)"] ["MultiVector"; "Vector"; "BiVector"; "Spinor";
          "Scalar"; "priv::prodComm(array3,array3)"; "priv::prodAnti(array3,array3)"; "ImSpin";
          "TriVector"; "operator-(Vector)"; "operator+(Vector,Vector)";
          "operator+(BiVector,BiVector)"] (* 280-317 *)
      ]
  | h_g3opsMul_BiVector => (* g3opsMul_BiVector.hpp *)
      [ D ["operator*(BiVector,double)"] ["BiVector"; "operator*(double,BiVector)"] (* 66-74 *)
      ; D ["operator*(BiVector,Scalar)"] ["BiVector"; "Scalar"; "operator*(Scalar,BiVector)"] (* 82-90 *)
      ; D ["operator*(BiVector,Vector)"] ["ImSpin"; "BiVector"; "Vector";
          "priv::prodAnti(array3,array3)"; "TriVector"; "priv::prodComm(array3,array3)";
          "operator-(Vector)"] (* 98-109 *)
      ; D ["operator*(BiVector,BiVector)"] ["Spinor"; "BiVector"; "Scalar";
          "priv::prodComm(array3,array3)"; "priv::prodAnti(array3,array3)"] (* 121-140 *)
      ; D ["operator*(BiVector,TriVector)"] ["Vector"; "BiVector"; "TriVector"] (* 152-165 *)
      ; D ["operator*(BiVector,Spinor)"] ["Spinor"; "BiVector"; "Scalar";
          "priv::prodComm(array3,array3)"; "priv::prodAnti(array3,array3)"; "operator-(Scalar)"] (* 173-200 *)
      ; D ["operator*(BiVector,ImSpin)"] ["ImSpin"; "BiVector"; "Vector"; "TriVector";
          "priv::prodAnti(array3,array3)"; "priv::prodComm(array3,array3)"] (* 208-235 *)
      ; D ["operator*(BiVector,ComPlex)"] ["DirPlex"; "BiVector"; "ComPlex"; "Scalar"; "TriVector";
          "Vector"] (* 243-269 *)
      ; D ["operator*(BiVector,DirPlex)"] ["MultiVector"; "BiVector"; "DirPlex"; "Vector";
          "TriVector"; "priv::prodComm(array3,array3)"; "priv::prodAnti(array3,array3)"; "Scalar"] (* 277-309 *)
      ; D ["operator*(BiVector,MultiVector)"] ["MultiVector"; "BiVector"; "Scalar"; "Vector";
          "TriVector"; "priv::prodAnti(array3,array3)"; "priv::prodComm(array3,array3)"] (* 317-363 *)
      ]
  | h_g3opsMul_TriVector => (* g3opsMul_TriVector.hpp *)
      [ D ["operator*(TriVector,double)"] ["TriVector"] (* 67-75 *)
      ; D ["operator*(TriVector,Scalar)"] ["TriVector"; "Scalar"] (* 83-92 *)
      ; D ["operator*(TriVector,Vector)"] ["BiVector"; "TriVector"; "Vector";
          "operator*(Vector,TriVector)"] (* 100-109 *)
      ; D ["operator*(TriVector,BiVector)"] ["Vector"; "TriVector"; "BiVector";
          "operator*(BiVector,TriVector)"] (* 117-126 *)
      ; D ["operator*(TriVector,TriVector)"] ["Scalar"; "TriVector"] (* 138-150 *)
      ; D ["operator*(TriVector,Spinor)"] ["ImSpin"; "TriVector"; "Spinor"; "Vector"] (* 162-179 *)
      ; D ["operator*(TriVector,ImSpin)"] ["Spinor"; "TriVector"; "ImSpin"; "Scalar"; "BiVector"] (* 187-203 *)
      ; D ["operator*(TriVector,ComPlex)"] ["ComPlex"; "TriVector"] (* 211-222 *)
      ; D ["operator*(TriVector,DirPlex)"] ["DirPlex"; "TriVector"; "Vector"; "BiVector"] (* 230-249 *)
      ; D ["operator*(TriVector,MultiVector)"] ["MultiVector"; "TriVector"; "Scalar"; "Vector";
          "BiVector"] (* 257-281 *)
      ]
  | h_g3opsMul_Spinor => (* g3opsMul_Spinor.hpp *)
      [ D ["operator*(Spinor,double)"] ["Spinor"; "operator*(double,Scalar)";
          "operator*(double,BiVector)"] (* 69-77 *)
      ; D ["operator*(Spinor,Scalar)"] ["Spinor"; "Scalar"; "operator*(double,Scalar)";
          "operator*(double,BiVector)"] (* 84-95 *)
      ; D ["operator*(Spinor,Vector)"] ["ImSpin"; "Spinor"; "Vector"; "operator*(Scalar,Vector)";
          "priv::prodAnti(array3,array3)"; "TriVector"; "priv::prodComm(array3,array3)";
          "operator-(Vector,Vector)"] (* 102-120 *)
      ; D ["operator*(Spinor,BiVector)"] ["Spinor"; "BiVector"; "operator*(Scalar,BiVector)";
          "operator*(BiVector,BiVector)"; "operator+(BiVector,BiVector)"] (* 127-137 *)
      ; D ["operator*(Spinor,TriVector)"] ["ImSpin"; "Spinor"; "TriVector";
          "operator*(TriVector,BiVector)"; "operator*(TriVector,Scalar)"] (* 144-152 *)
      ; D ["operator*(Spinor,Spinor)"] ["Spinor"; "BiVector"; "priv::prodComm(array3,array3)";
          "priv::prodAnti(array3,array3)"; "Scalar"; "operator*(double,BiVector)";
          "operator+(BiVector,BiVector)"; "operator-(BiVector,BiVector)"] (* 163-187 *)
      ; D ["operator*(Spinor,ImSpin)"] ["ImSpin"; "Spinor"; "operator*(double,ImSpin)";
          "operator*(BiVector,ImSpin)"; "operator+(ImSpin,ImSpin)"] (* 198-208 *)
      ; D ["operator*(Spinor,ComPlex)"] ["MultiVector"; "Spinor"; "ComPlex"; "Scalar"; "Vector";
          "operator*(BiVector,TriVector)"; "BiVector"; "operator*(BiVector,double)"; "TriVector";
          "operator*(double,TriVector)"] (* 215-228 *)
      ; D ["operator*(Spinor,DirPlex)"] ["MultiVector"; "Spinor"; "DirPlex"; "Vector";
          "operator*(double,Vector)"; "BiVector"; "operator*(double,BiVector)"; "ImSpin";
          "operator*(BiVector,Vector)"; "operator*(BiVector,BiVector)"; "operator+(Vector,Vector)";
          "operator+(BiVector,BiVector)"] (* 235-252 *)
      ; D ["operator*(Spinor,MultiVector)"] ["MultiVector"; "Spinor";
          "operator*(double,MultiVector)"; "operator*(BiVector,MultiVector)";
          "operator+(MultiVector,MultiVector)"] (* 260-270 *)
      ]
  | h_g3opsMul_ImSpin => (* g3opsMul_ImSpin.hpp *)
      [ D ["operator*(ImSpin,double)"] ["ImSpin"; "operator*(double,Vector)";
          "operator*(double,TriVector)"] (* 70-78 *)
      ; D ["operator*(ImSpin,Scalar)"] ["ImSpin"; "Scalar"; "operator*(double,Vector)";
          "operator*(double,TriVector)"] (* 85-94 *)
      ; D ["operator*(ImSpin,Vector)"] ["Spinor"; "ImSpin"; "Vector"; "operator*(Vector,Vector)";
          "BiVector"; "operator*(TriVector,Vector)"; "operator+(BiVector,BiVector)"] (* 101-112 *)
      ; D ["operator*(ImSpin,BiVector)"] ["ImSpin"; "BiVector"; "operator*(Vector,BiVector)";
          "Vector"; "operator*(TriVector,BiVector)"; "operator+(Vector,Vector)"] (* 119-129 *)
      ; D ["operator*(ImSpin,TriVector)"] ["Spinor"; "ImSpin"; "TriVector";
          "operator*(TriVector,ImSpin)"] (* 137-145 *)
      ; D ["operator*(ImSpin,Spinor)"] ["ImSpin"; "Spinor"; "operator*(Vector,Spinor)";
          "operator*(TriVector,Spinor)"; "operator+(ImSpin,ImSpin)"] (* 152-162 *)
      ; D ["operator*(ImSpin,ImSpin)"] ["Spinor"; "ImSpin"; "operator*(Vector,ImSpin)";
          "operator*(TriVector,ImSpin)"; "operator+(Spinor,Spinor)"] (* 173-183 *)
      ; D ["operator*(ImSpin,ComPlex)"] ["MultiVector"; "ImSpin"; "ComPlex";
          "operator*(TriVector,TriVector)"; "operator*(Vector,Scalar)";
          "operator*(Vector,TriVector)"; "operator*(TriVector,Scalar)"] (* 194-207 *)
      ; D ["operator*(ImSpin,DirPlex)"] ["MultiVector"; "ImSpin"; "DirPlex"; "Spinor";
          "operator*(Vector,Vector)"; "operator*(Vector,BiVector)"; "operator*(TriVector,BiVector)";
          "operator+(Vector,Vector)"; "operator*(TriVector,Vector)"; "operator+(BiVector,BiVector)"] (* 214-229 *)
      ; D ["operator*(ImSpin,MultiVector)"] ["MultiVector"; "ImSpin";
          "operator*(Vector,MultiVector)"; "operator*(TriVector,MultiVector)";
          "operator+(MultiVector,MultiVector)"] (* 236-247 *)
      ]
  | h_g3opsMul_ComPlex => (* g3opsMul_ComPlex.hpp *)
      [ D ["operator*(ComPlex,double)"] ["ComPlex"; "operator*(double,ComPlex)"] (* 71-79 *)
      ; D ["operator*(ComPlex,Scalar)"] ["ComPlex"; "Scalar"; "operator*(Scalar,ComPlex)"] (* 86-94 *)
      ; D ["operator*(ComPlex,Vector)"] ["DirPlex"; "ComPlex"; "Vector";
          "operator*(Vector,ComPlex)"] (* 101-109 *)
      ; D ["operator*(ComPlex,BiVector)"] ["DirPlex"; "ComPlex"; "BiVector";
          "operator*(BiVector,ComPlex)"] (* 116-124 *)
      ; D ["operator*(ComPlex,TriVector)"] ["ComPlex"; "TriVector"; "operator*(TriVector,ComPlex)"] (* 131-139 *)
      ; D ["operator*(ComPlex,Spinor)"] ["MultiVector"; "ComPlex"; "Spinor";
          "operator*(Spinor,ComPlex)"] (* 146-154 *)
      ; D ["operator*(ComPlex,ImSpin)"] ["MultiVector"; "ComPlex"; "ImSpin";
          "operator*(ImSpin,ComPlex)"] (* 161-169 *)
      ; D ["operator*(ComPlex,ComPlex)"] ["ComPlex"; "Scalar"; "TriVector"] (* 180-197 *)
      ; D ["operator*(ComPlex,DirPlex)"] ["DirPlex"; "ComPlex"; "Vector";
          "operator*(Scalar,Vector)"; "operator*(BiVector,TriVector)"; "operator+(Vector,Vector)";
          "BiVector"; "operator*(Scalar,BiVector)"; "operator*(Vector,TriVector)";
          "operator+(BiVector,BiVector)"] (* 208-225 *)
      ; D ["operator*(ComPlex,MultiVector)"] ["MultiVector"; "ComPlex"; "operator*(Scalar,Scalar)";
          "operator*(TriVector,TriVector)"; "operator+(Scalar,Scalar)"; "operator*(Scalar,Vector)";
          "operator*(BiVector,TriVector)"; "operator+(Vector,Vector)"; "operator*(Scalar,BiVector)";
          "operator*(Vector,TriVector)"; "operator+(BiVector,BiVector)";
          "operator*(Scalar,TriVector)"; "operator+(TriVector,TriVector)"] (* 232-249 *)
      ]
  | h_g3opsMul_DirPlex => (* g3opsMul_DirPlex.hpp *)
      [ D ["operator*(DirPlex,double)"] ["DirPlex"; "operator*(double,DirPlex)"] (* 72-80 *)
      ; D ["operator*(DirPlex,Scalar)"] ["DirPlex"; "Scalar"; "operator*(Scalar,DirPlex)"] (* 87-95 *)
      ; D ["operator*(DirPlex,Vector)"] ["MultiVector"; "DirPlex"; "Vector"; "Spinor";
          "operator*(Vector,Vector)"; "ImSpin"; "reverse(BiVector)"; "operator*(Vector,BiVector)";
          "reverse(ImSpin)"] (* 102-118 *)
      ; D ["operator*(DirPlex,BiVector)"] ["MultiVector"; "DirPlex"; "BiVector"; "ImSpin";
          "operator*(Vector,BiVector)"; "Spinor"; "reverse(BiVector)";
          "operator*(BiVector,BiVector)"; "reverse(Spinor)"] (* 125-141 *)
      ; D ["operator*(DirPlex,TriVector)"] ["DirPlex"; "TriVector"; "operator*(BiVector,TriVector)";
          "operator*(Vector,TriVector)"] (* 148-159 *)
      ; D ["operator*(DirPlex,Spinor)"] ["MultiVector"; "DirPlex"; "Spinor"; "ImSpin";
          "operator*(Vector,BiVector)"; "operator*(BiVector,BiVector)"; "operator*(Scalar,Vector)";
          "operator+(Vector,Vector)"; "operator*(Scalar,BiVector)"; "operator+(BiVector,BiVector)"] (* 166-181 *)
      ; D ["operator*(DirPlex,ImSpin)"] ["MultiVector"; "DirPlex"; "ImSpin"; "Spinor";
          "operator*(Vector,Vector)"; "operator*(BiVector,Vector)"; "operator*(BiVector,TriVector)";
          "operator+(Vector,Vector)"; "operator*(Vector,TriVector)"; "operator+(BiVector,BiVector)"] (* 188-203 *)
      ; D ["operator*(DirPlex,ComPlex)"] ["DirPlex"; "ComPlex"; "operator*(Scalar,Vector)";
          "operator*(BiVector,TriVector)"; "operator+(Vector,Vector)"; "operator*(Scalar,BiVector)";
          "operator*(Vector,TriVector)"; "operator+(BiVector,BiVector)"] (* 210-223 *)
      ; D ["operator*(DirPlex,DirPlex)"] ["MultiVector"; "DirPlex"; "Spinor";
          "operator*(Vector,Vector)"; "ImSpin"; "operator*(BiVector,Vector)";
          "operator*(Vector,BiVector)"; "operator*(BiVector,BiVector)"; "operator+(Scalar,Scalar)";
          "operator+(Vector,Vector)"; "operator+(BiVector,BiVector)";
          "operator+(TriVector,TriVector)"] (* 234-251 *)
      ; D ["operator*(DirPlex,MultiVector)"] ["MultiVector"; "DirPlex"; "Spinor";
          "operator*(Vector,Vector)"; "ImSpin"; "operator*(Vector,BiVector)";
          "operator*(BiVector,BiVector)"; "reverse(BiVector)"; "reverse(ImSpin)";
          "operator+(Scalar,Scalar)"; "operator+(Vector,Vector)"; "operator*(Scalar,Vector)";
          "operator*(BiVector,TriVector)"; "operator+(BiVector,BiVector)";
          "operator*(Vector,TriVector)"; "operator*(Scalar,BiVector)";
          "operator+(TriVector,TriVector)"] (* 262-284 *)
      ]
  | h_g3opsMul_MultiVector => (* g3opsMul_MultiVector.hpp *)
      [ D ["operator*(MultiVector,double)"] ["MultiVector"; "operator*(double,Scalar)";
          "operator*(double,Vector)"; "operator*(double,BiVector)"; "operator*(double,TriVector)"] (* 73-86 *)
      ; D ["operator*(MultiVector,Scalar)"] ["MultiVector"; "Scalar"; "operator*(double,Scalar)";
          "operator*(double,Vector)"; "operator*(double,BiVector)"; "operator*(double,TriVector)"] (* 93-107 *)
      ; D ["operator*(MultiVector,Vector)"] ["MultiVector"; "Vector"; "operator*(Scalar,Vector)";
          "Spinor"; "operator*(Vector,Vector)"; "ImSpin"; "operator*(BiVector,Vector)"; "BiVector";
          "operator*(TriVector,Vector)"; "operator+(Vector,Vector)"; "operator+(BiVector,BiVector)"] (* 114-131 *)
      ; D ["operator*(MultiVector,BiVector)"] ["MultiVector"; "BiVector";
          "operator*(Scalar,BiVector)"; "ImSpin"; "operator*(Vector,BiVector)"; "Spinor";
          "operator*(BiVector,BiVector)"; "Vector"; "operator*(TriVector,BiVector)";
          "operator+(Vector,Vector)"; "operator+(BiVector,BiVector)"] (* 138-155 *)
      ; D ["operator*(MultiVector,TriVector)"] ["MultiVector"; "TriVector";
          "operator*(Scalar,TriVector)"; "BiVector"; "operator*(Vector,TriVector)"; "Vector";
          "operator*(BiVector,TriVector)"; "Scalar"; "operator*(TriVector,TriVector)"] (* 162-174 *)
      ; D ["operator*(MultiVector,Spinor)"] ["MultiVector"; "Spinor";
          "operator*(MultiVector,Scalar)"; "operator*(MultiVector,BiVector)";
          "operator+(MultiVector,MultiVector)"] (* 181-192 *)
      ; D ["operator*(MultiVector,ImSpin)"] ["MultiVector"; "ImSpin";
          "operator*(MultiVector,Vector)"; "operator*(MultiVector,TriVector)";
          "operator+(MultiVector,MultiVector)"] (* 199-210 *)
      ; D ["operator*(MultiVector,ComPlex)"] ["MultiVector"; "ComPlex";
          "operator*(ComPlex,MultiVector)"] (* 217-225 *)
      ; D ["operator*(MultiVector,DirPlex)"] ["MultiVector"; "DirPlex"; "Spinor";
          "operator*(Vector,Vector)"; "ImSpin"; "operator*(BiVector,Vector)";
          "operator*(Vector,BiVector)"; "operator*(BiVector,BiVector)"; "operator+(Scalar,Scalar)";
          "operator+(Vector,Vector)"; "operator*(Scalar,Vector)"; "operator*(TriVector,BiVector)";
          "operator+(BiVector,BiVector)"; "operator*(TriVector,Vector)";
          "operator*(Scalar,BiVector)"; "operator+(TriVector,TriVector)"] (* 232-253 *)
      ; D ["operator*(MultiVector,MultiVector)"] ["MultiVector"] (* 280-371 *)
      ]
  | h_g3opsMul => []
  | h_g3ops => []
  | h_g3func => (* g3func.hpp *)
      [ D ["sq(*)"] [] (* 106-114 *)
      ; D ["cube(*)"] [] (* 121-129 *)
      ; D ["magSq(double)"] ["sq(*)"] (* 137-144 *)
      ; D ["magSq(Scalar)"; "magSq(Vector)"; "magSq(BiVector)"; "magSq(TriVector)"] ["std";
          "is::blade"; "priv::prodComm(array1,array1)"; "priv::prodComm(array3,array3)"] (* 148-159 *)
      ; D ["magSq(Spinor)"] ["Spinor"; "sq(*)"; "magSq(BiVector)"] (* 162-171 *)
      ; D ["magSq(ImSpin)"] ["ImSpin"; "magSq(Vector)"; "sq(*)"] (* 174-183 *)
      ; D ["magSq(ComPlex)"] ["ComPlex"; "Scalar"; "TriVector"; "magSq(Scalar)"; "magSq(TriVector)"] (* 186-195 *)
      ; D ["magSq(DirPlex)"] ["DirPlex"; "Vector"; "BiVector"; "magSq(Vector)"; "magSq(BiVector)"] (* 198-207 *)
      ; D ["magSq(MultiVector)"] ["MultiVector"; "sq(*)"; "magSq(Vector)"; "magSq(BiVector)"] (* 210-221 *)
      ; D ["magnitude(*)"] ["std"] (* 224-232 *)
      ; D ["pairMagDirFrom(*)"] ["std"; "null"] (* 235-256 *)
      ; D ["ampSq(Scalar)"] ["ComPlex"; "Scalar"; "magSq(Scalar)"; "zero"] (* 263-270 *)
      ; D ["ampSq(Vector)"] ["ComPlex"; "Vector"; "Scalar"; "magSq(Vector)"; "zero"] (* 273-280 *)
      ; D ["ampSq(BiVector)"] ["ComPlex"; "BiVector"; "Scalar"; "magSq(BiVector)"; "zero"] (* 283-291 *)
      ; D ["ampSq(TriVector)"] ["ComPlex"; "TriVector"; "Scalar"; "magSq(TriVector)"; "zero"] (* 294-302 *)
      ; D ["ampSq(Spinor)"] ["ComPlex"; "Spinor"; "Scalar"; "BiVector"; "magSq(Scalar)";
          "magSq(BiVector)"; "zero"] (* 305-317 *)
      ; D ["ampSq(ImSpin)"] ["ComPlex"; "ImSpin"; "Vector"; "TriVector"; "magSq(Vector)";
          "magSq(TriVector)"; "Scalar"; "zero"] (* 320-332 *)
      ; D ["ampSq(ComPlex)"] ["ComPlex"; "Scalar"; "sq(*)"; "TriVector"] (* 335-348 *)
      ; D ["ampSq(DirPlex)"] ["ComPlex"; "DirPlex"; "Vector"; "BiVector"; "magSq(Vector)";
          "magSq(BiVector)"; "priv::prodComm(array3,array3)"; "Scalar"; "TriVector"] (* 351-371 *)
      ; D ["ampSq(MultiVector)"] ["ComPlex"; "MultiVector"; "Scalar"; "Vector"; "BiVector";
          "TriVector"; "magSq(Scalar)"; "magSq(Vector)"; "magSq(BiVector)"; "magSq(TriVector)";
          "priv::prodComm(array3,array3)"] (* 374-413 *)
      ; D ["amplitude(*)"] ["std"; "ComPlex"] (* 416-427 *)
      ; D ["direction(*)"] ["pairMagDirFrom(*)"] (* 434-445 *)
      ; D ["inverse(Scalar)"; "inverse(Vector)"; "inverse(BiVector)"; "inverse(TriVector)"] ["std";
          "is::blade"] (* 452-464 *)
      ; D ["inverse(ComPlex)"] ["std"; "is::ComPlex"; "ComPlex"; "null<ComPlex>"] (* 467-493 *)
      ; D ["inverse(MultiVector)"] ["std"; "is::MultiVector"; "MultiVector"; "ComPlex";
          "ampSq(MultiVector)"; "inverse(ComPlex)"; "dirverse(MultiVector)";
          "operator*(Scalar,MultiVector)"; "operator*(TriVector,MultiVector)";
          "operator+(MultiVector,MultiVector)"] (* 497-513 *)
      ; D ["exp(BiVector)"] ["std"; "Spinor"; "BiVector"; "null<Spinor>"; "isValid(BiVector)";
          "zero<BiVector>"; "pairMagDirFrom(*)"; "operator*(double,BiVector)"] (* 535-556 *)
      ; D ["exp(Spinor)"] ["std"; "Spinor"; "exp(BiVector)"; "operator*(double,Spinor)"] (* 559-566 *)
      ; D ["priv::sync(double)"] ["std"; "nan"; "sq(*)"] (* 572-595 *)
      ; D ["exp(MultiVector)"] ["std"; "MultiVector"; "null"; "isValid(MultiVector)"; "sq(*)";
          "priv::sync(double)"; "operator*(double,MultiVector)"] (* 612-702 *)
      ; D ["G2Item"] ["Spinor"] (* 709 *)
      ; D ["logG2(Spinor,BiVector)"] ["std"; "Spinor"; "BiVector"; "G2Item"; "e23"; "null<Spinor>";
          "isValid(Spinor)"; "magnitude(*)"; "operator*(double,Spinor)"; "zero<BiVector>";
          "direction(*)"; "turnHalf"; "operator*(double,BiVector)"; "pairMagDirFrom(*)"] (* 712-768 *)
      ; D ["sqrtG2(Spinor,BiVector)"] ["std"; "Spinor"; "BiVector"; "G2Item"; "e23"; "null<Spinor>";
          "isValid(Spinor)"; "magnitude(*)"; "zero<Spinor>"; "logG2(Spinor,BiVector)";
          "operator*(double,Spinor)"; "exp(Spinor)"] (* 771-795 *)
      ]
  | h_g3publish => (* g3publish.hpp *)
      [ D ["::operator-"] ["operator-(Spinor)"] (* 85 *)
      ; D ["::operator+"] ["operator+(Spinor,Spinor)"] (* 90 *)
      ; D ["::operator*"] ["operator*(Vector,Vector)"] (* 91 *)
      ]
  | h_engabra => (* engabra.hpp *)
      [ D ["projectVersion"] ["std"] (* 89-91 *)
      ; D ["sourceIdentity"] ["std"] (* 94-96 *)
      ]
  | h_Engabra => []
  end.
