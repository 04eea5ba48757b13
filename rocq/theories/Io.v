(** * Model of include/g3io.hpp : text output and input.

    Only the binary64 instance: text is that of doubles.  [digBefore],
    [digAfter], [numDigits] are [std::size_t] values, given as integers.
    [nanneg] is the sign printed for a NaN (see Stream.v). *)

Require Import ZArith List Bool Ascii.
From Flocq Require Import BinarySingleNaN.
Require Import Verif.Num Verif.Types Verif.B64 Verif.Validity Verif.Stream.
Import ListNotations.
Local Open Scope Z_scope.

(** ** Output *)
(** [priv::DoubleFormat], g3io.hpp:120-152 *)
Record DoubleFormat := mkFmt { theNumDigLead : Z; theNumDigFrac : Z }.
(** g3io.hpp:120-152, the default arguments *)
Definition fmt_default : DoubleFormat := mkFmt 3 6.
(** g3io.hpp:155-166 *)
Definition fieldWide (fmt : DoubleFormat) : Z :=
  to_size (to_size (to_size (1 + theNumDigLead fmt) + 1) + theNumDigFrac fmt).
(** g3io.hpp:177-189 *)
Definition prepareFixed (fmt : DoubleFormat) (ostrm : ostream) : ostream :=
  set_width (fieldWide fmt)
    (set_precision (theNumDigFrac fmt) (set_notation fixed_nt (put_text ostrm [c_space]))).
(** g3io.hpp:203-230 *)
Definition prepareEnote (ostrm : ostream) (numDigits : Z) : ostream :=
  set_precision numDigits (set_notation scientific (set_width (to_size (7 + numDigits)) ostrm)).

Section Print.
Context (nanneg : bool).

(** g3io.hpp:249-259, with the operator of 233-242 *)
Definition put_Dub (ostrm : ostream) (value : f64) (fmt : DoubleFormat) : ostream :=
  put_num nanneg (prepareFixed fmt ostrm) value.
(** g3io.hpp:262-278 *)
Definition put_arr (ostrm : ostream) (els : list f64) (fmt : DoubleFormat) : ostream :=
  put_text ostrm (os_out (fold_left (fun oss x => put_num nanneg (prepareFixed fmt oss) x) els os_new)).

(** g3io.hpp:305-317 *)
Definition fixed_Dub (dub : f64) (digBefore digAfter : Z) : text :=
  os_out (put_num nanneg (prepareFixed (mkFmt digBefore digAfter) os_new) dub).
(** g3io.hpp:320-340; the loop reads [blade[0]], [blade[1]], ... below the
    array size, that is the elements in order. *)
Definition fixed_blade (els : list f64) (digBefore digAfter : Z) : text :=
  os_out (fold_left (fun oss x => put_text oss (fixed_Dub x digBefore digAfter)) els os_new).

(** the string of two spaces in g3io.hpp:354-492 *)
Definition gap : text := [c_space; c_space].
(** Insertion of strings one after the other in a new stream. *)
(** the local string streams of g3io.hpp:343-497 *)
Definition join (l : list text) : text := os_out (fold_left put_text l os_new).

(** g3io.hpp:343-358 *)
Definition fixed_Spin (x : Spinor f64) (b a : Z) : text :=
  join [fixed_blade (elems TSca (spinSca x)) b a; gap; fixed_blade (elems TBiv (spinBiv x)) b a].
(** g3io.hpp:361-376 *)
Definition fixed_Imsp (x : ImSpin f64) (b a : Z) : text :=
  join [fixed_blade (elems TVec (imspVec x)) b a; gap; fixed_blade (elems TTri (imspTri x)) b a].
(** g3io.hpp:379-398 *)
Definition fixed_Mvec (x : MultiVector f64) (b a : Z) : text :=
  join [fixed_blade (elems TSca (mvSca x)) b a; gap; fixed_blade (elems TVec (mvVec x)) b a; gap;
        fixed_blade (elems TBiv (mvBiv x)) b a; gap; fixed_blade (elems TTri (mvTri x)) b a].
(** The overload set; there is none for ComPlex and DirPlex. *)
(** g3io.hpp:305-398 *)
Definition fixed (t : ty) : option (val f64 t -> Z -> Z -> text) :=
  match t with
  | TDub => Some fixed_Dub
  | TSca => Some (fun x => fixed_blade (elems TSca x))
  | TVec => Some (fun x => fixed_blade (elems TVec x))
  | TBiv => Some (fun x => fixed_blade (elems TBiv x))
  | TTri => Some (fun x => fixed_blade (elems TTri x))
  | TSpin => Some fixed_Spin
  | TImsp => Some fixed_Imsp
  | TCplx => None
  | TDplx => None
  | TMvec => Some fixed_Mvec
  end.

(** g3io.hpp:405-416 *)
Definition enote_Dub (dub : f64) (digAfter : Z) : text :=
  os_out (put_num nanneg (prepareEnote os_new digAfter) dub).
(** g3io.hpp:419-441: a blank before every element but the first *)
Definition enote_blade (els : list f64) (digAfter : Z) : text :=
  match els with
  | [] => []
  | x :: r =>
      os_out (fold_left
        (fun oss y => put_num nanneg (prepareEnote (put_text oss [c_space]) digAfter) y) r
        (put_num nanneg (prepareEnote os_new digAfter) x))
  end.
(** g3io.hpp:444-458 *)
Definition enote_Spin (x : Spinor f64) (a : Z) : text :=
  join [enote_blade (elems TSca (spinSca x)) a; gap; enote_blade (elems TBiv (spinBiv x)) a].
(** g3io.hpp:461-475 *)
Definition enote_Imsp (x : ImSpin f64) (a : Z) : text :=
  join [enote_blade (elems TVec (imspVec x)) a; gap; enote_blade (elems TTri (imspTri x)) a].
(** g3io.hpp:478-496 *)
Definition enote_Mvec (x : MultiVector f64) (a : Z) : text :=
  join [enote_blade (elems TSca (mvSca x)) a; gap; enote_blade (elems TVec (mvVec x)) a; gap;
        enote_blade (elems TBiv (mvBiv x)) a; gap; enote_blade (elems TTri (mvTri x)) a].
(** The overload set; there is none for ComPlex and DirPlex. *)
(** g3io.hpp:404-497 *)
Definition enote (t : ty) : option (val f64 t -> Z -> text) :=
  match t with
  | TDub => Some enote_Dub
  | TSca => Some (fun x => enote_blade (elems TSca x))
  | TVec => Some (fun x => enote_blade (elems TVec x))
  | TBiv => Some (fun x => enote_blade (elems TBiv x))
  | TTri => Some (fun x => enote_blade (elems TTri x))
  | TSpin => Some enote_Spin
  | TImsp => Some enote_Imsp
  | TCplx => None
  | TDplx => None
  | TMvec => Some enote_Mvec
  end.

(** [operator<<], g3io.hpp:513-558 (blades) *)
Definition out_blade (els : list f64) (os : ostream) : ostream := put_arr os els fmt_default.
(** the [" "] of g3io.hpp:563-623 *)
Definition blank (os : ostream) : ostream := put_text os [c_space].
(** g3io.hpp:513-522 *)
Definition out_Sca (x : Scalar f64) : ostream -> ostream := out_blade (elems TSca x).
(** g3io.hpp:525-534 *)
Definition out_Vec (x : Vector f64) : ostream -> ostream := out_blade (elems TVec x).
(** g3io.hpp:537-546 *)
Definition out_Biv (x : BiVector f64) : ostream -> ostream := out_blade (elems TBiv x).
(** g3io.hpp:549-558 *)
Definition out_Tri (x : TriVector f64) : ostream -> ostream := out_blade (elems TTri x).
(** g3io.hpp:561-570 *)
Definition out_Spin (x : Spinor f64) (os : ostream) : ostream :=
  out_Biv (spinBiv x) (blank (out_Sca (spinSca x) os)).
(** g3io.hpp:573-582 *)
Definition out_Imsp (x : ImSpin f64) (os : ostream) : ostream :=
  out_Tri (imspTri x) (blank (out_Vec (imspVec x) os)).
(** g3io.hpp:585-594 *)
Definition out_Cplx (x : ComPlex f64) (os : ostream) : ostream :=
  out_Tri (cplxTri x) (blank (out_Sca (cplxSca x) os)).
(** g3io.hpp:597-606 *)
Definition out_Dplx (x : DirPlex f64) (os : ostream) : ostream :=
  out_Biv (dplxBiv x) (blank (out_Vec (dplxVec x) os)).
(** g3io.hpp:609-623 *)
Definition out_Mvec (x : MultiVector f64) (os : ostream) : ostream :=
  out_Tri (mvTri x) (blank (out_Biv (mvBiv x) (blank (out_Vec (mvVec x) (blank (out_Sca (mvSca x) os)))))).
(** The overload set of the library; a [double] has the standard operator. *)
(** g3io.hpp:513-623 *)
Definition insert (t : ty) : option (val f64 t -> ostream -> ostream) :=
  match t with
  | TDub => None
  | TSca => Some out_Sca
  | TVec => Some out_Vec
  | TBiv => Some out_Biv
  | TTri => Some out_Tri
  | TSpin => Some out_Spin
  | TImsp => Some out_Imsp
  | TCplx => Some out_Cplx
  | TDplx => Some out_Dplx
  | TMvec => Some out_Mvec
  end.
End Print.

(** ** Input.

    Cells of the target object may be uninitialised ([None]).  Using the
    value of such a cell is undefined behaviour: the outcome [None]. *)
(** the components read at g3io.hpp:635-658 *)
Definition cell := option f64.

(** [priv::isInputOkay], g3io.hpp:285-296; [&&] does not look at the value of
    a failed stream. *)
Definition isInputOkay (istrm : istream) (value : cell) : option bool :=
  if is_fail istrm then Some false
  else match value with Some v => Some (isValid_Dub v) | None => None end.

(** g3io.hpp:645-652: the loop over the remaining elements; returns the
    cells, [okay] and the stream. *)
Fixpoint in_loop (istrm : istream) (okay : bool) (data : list cell) : option (list cell * bool * istream) :=
  match data with
  | [] => Some ([], okay, istrm)
  | d :: r =>
      if okay then
        let '(d', is') := get_num istrm d in
        match isInputOkay is' d' with
        | None => None
        | Some ok' =>
            match in_loop is' ok' r with
            | Some (r', ok, is'') => Some (d' :: r', ok, is'')
            | None => None
            end
        end
      else Some (data, false, istrm)
  end.
(** g3io.hpp:634-658.  The first element is read unconditionally; [data[0]]
    of an empty array is out of bounds. *)
Definition in_arr (istrm : istream) (data : list cell) : option (list cell * istream) :=
  match data with
  | [] => None
  | _ =>
      match in_loop istrm true data with
      | Some (data', okay, is') =>
          Some ((if okay then data' else map (fun _ => Some (nnan : f64)) data'), is')
      | None => None
      end
  end.
(** The arrays of the blades. *)
(** g3io.hpp:635-658 at size 1 *)
Definition in_arr1 (istrm : istream) (a : Arr1 cell) : option (Arr1 cell * istream) :=
  match in_arr istrm (arr1_list a) with
  | Some ([x], is') => Some (A1 x, is')
  | _ => None
  end.
(** g3io.hpp:635-658 at size 3 *)
Definition in_arr3 (istrm : istream) (a : Arr3 cell) : option (Arr3 cell * istream) :=
  match in_arr istrm (arr3_list a) with
  | Some ([x; y; z], is') => Some (A3 x y z, is')
  | _ => None
  end.
Definition bind {A B} (o : option A) (f : A -> option B) : option B :=
  match o with Some a => f a | None => None end.

(** [operator>>] of a blade, g3io.hpp:661-674 *)
Definition in_Sca (is : istream) (x : Scalar cell) : option (Scalar cell * istream) :=
  bind (in_arr1 is (scaData x)) (fun '(a, is') => Some (mkSca a, is')).
(** g3io.hpp:661-674 *)
Definition in_Vec (is : istream) (x : Vector cell) : option (Vector cell * istream) :=
  bind (in_arr3 is (vecData x)) (fun '(a, is') => Some (mkVec a, is')).
(** g3io.hpp:661-674 *)
Definition in_Biv (is : istream) (x : BiVector cell) : option (BiVector cell * istream) :=
  bind (in_arr3 is (bivData x)) (fun '(a, is') => Some (mkBiv a, is')).
(** g3io.hpp:661-674 *)
Definition in_Tri (is : istream) (x : TriVector cell) : option (TriVector cell * istream) :=
  bind (in_arr1 is (triData x)) (fun '(a, is') => Some (mkTri a, is')).
(** g3io.hpp:677-688 *)
Definition in_Spin (is : istream) (x : Spinor cell) : option (Spinor cell * istream) :=
  bind (in_Sca is (spinSca x)) (fun '(s, is) =>
  bind (in_Biv is (spinBiv x)) (fun '(b, is) => Some (mkSpin s b, is))).
(** g3io.hpp:691-702 *)
Definition in_Imsp (is : istream) (x : ImSpin cell) : option (ImSpin cell * istream) :=
  bind (in_Vec is (imspVec x)) (fun '(v, is) =>
  bind (in_Tri is (imspTri x)) (fun '(t, is) => Some (mkImsp v t, is))).
(** g3io.hpp:705-715 *)
Definition in_Cplx (is : istream) (x : ComPlex cell) : option (ComPlex cell * istream) :=
  bind (in_Sca is (cplxSca x)) (fun '(s, is) =>
  bind (in_Tri is (cplxTri x)) (fun '(t, is) => Some (mkCplx s t, is))).
(** g3io.hpp:718-729 *)
Definition in_Dplx (is : istream) (x : DirPlex cell) : option (DirPlex cell * istream) :=
  bind (in_Vec is (dplxVec x)) (fun '(v, is) =>
  bind (in_Biv is (dplxBiv x)) (fun '(b, is) => Some (mkDplx v b, is))).
(** g3io.hpp:732-745 *)
Definition in_Mvec (is : istream) (x : MultiVector cell) : option (MultiVector cell * istream) :=
  bind (in_Sca is (mvSca x)) (fun '(s, is) =>
  bind (in_Vec is (mvVec x)) (fun '(v, is) =>
  bind (in_Biv is (mvBiv x)) (fun '(b, is) =>
  bind (in_Tri is (mvTri x)) (fun '(t, is) => Some (mkMvec s v b t, is))))).
(** The overload set; a [double] has the standard operator. *)
(** g3io.hpp:661-750 *)
Definition extract (t : ty) : istream -> val cell t -> option (val cell t * istream) :=
  match t with
  | TDub => fun is x => let '(x', is') := get_num is x in Some (x', is')
  | TSca => in_Sca
  | TVec => in_Vec
  | TBiv => in_Biv
  | TTri => in_Tri
  | TSpin => in_Spin
  | TImsp => in_Imsp
  | TCplx => in_Cplx
  | TDplx => in_Dplx
  | TMvec => in_Mvec
  end.
