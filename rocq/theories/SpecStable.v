(** * Specification: copies of a text. *)

Require Import List Ascii.
Require Import Verif.Types Verif.B64 Verif.Stream Verif.Io.
Import ListNotations.

(** [s'] comes from [s] by reading an object and writing it any number of
    times: [T x; is >> x; os << write(x);], each time with what was written
    before.  [x0] is what the memory of the object contains before. *)
Inductive copied (t : ty) (write : val f64 t -> list ascii) : list ascii -> list ascii -> Prop :=
  | as_is : forall s, copied t write s s
  | once_more : forall s x0 y i s', extract t (mkIs s false false) x0 = Some (mapv Some t y, i) ->
      copied t write (write y) s' -> copied t write s s'.
