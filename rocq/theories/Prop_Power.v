(** * Squares and cubes; the state of output streams.

    Only statements; proofs are in PowerFacts.v. *)

Require Import Reals ZArith List Bool Ascii String.
From Flocq Require Import Core BinarySingleNaN.
Require Import Verif.Num Verif.Types Verif.OpsMul Verif.Const Verif.Func Verif.Power Verif.SpecCl Verif.RealInst Verif.SpecFunc Verif.SpecExp
  Verif.B64 Verif.SpecValid Verif.SpecRound Verif.SpecAcc Verif.Stream Verif.Io Verif.SpecText Verif.SpecIo Verif.SpecPower Verif.PowerFacts.
Import ListNotations.
Local Open Scope R_scope.

(** C64: [sq] and [cube] are the second and third power of the product. *)
Theorem C64_powers : forall t f g, sq t = Some f -> cube t = Some g -> forall x : val R t,
  ceq (den t (f x)) (gp (den t x) (den t x)) /\ ceq (den t (g x)) (gp (gp (den t x) (den t x)) (den t x)).
Proof. exact power_exact. Qed.
Print Assumptions C64_powers.
(** They exist for just those types whose values form an algebra. *)
Theorem C64_types : forall t, ((exists f : val R t -> val R t, sq t = Some f) <-> closed t) /\
  ((exists f : val R t -> val R t, cube t = Some f) <-> closed t).
Proof. exact power_closed. Qed.
Print Assumptions C64_types.
(** A rotor squared turns twice, cubed three times as far. *)
Theorem C64_rotor : forall B : BiVector R, nontiny B -> nontiny (scale TBiv 2 B) -> nontiny (scale TBiv 3 B) ->
  exists r, exp_Biv (exact TBiv B) = exact TSpin r /\
    exp_Biv (exact TBiv (scale TBiv 2 B)) = exact TSpin (sq_Spin r) /\
    exp_Biv (exact TBiv (scale TBiv 3 B)) = exact TSpin (cube_Spin r).
Proof. exact power_rotor. Qed.
Print Assumptions C64_rotor.
(** On binary64 numbers. *)
Theorem C64_rounding : forall t f g, sq t = Some f -> cube t = Some g -> forall x : val f64 t,
  let X := exactly t x in let N := cnorm X in
  (all_finite t (f x) -> cnorm (csub (exactly t (f x)) (gp X X)) <= 26 * unit_roundoff * N ^ 2 + 26 * underflow_unit) /\
  (all_finite t (g x) -> cnorm (csub (exactly t (g x)) (gp (gp X X) X)) <=
     105 * unit_roundoff * N ^ 3 + 53 * underflow_unit * (1 + N)).
Proof. exact power_error. Qed.
Print Assumptions C64_rounding.
Example C64_example : exists f g, sq TSpin = Some f /\ cube TSpin = Some g /\
  f (mkSpin (Sca (f64_lit 1 0)) (Biv (f64_lit 2 0) (f64_lit 3 0) (f64_lit 4 0))) =
    mkSpin (Sca (f64_lit (-28) 0)) (Biv (f64_lit 4 0) (f64_lit 6 0) (f64_lit 8 0)) /\
  g (mkSpin (Sca (f64_lit 1 0)) (Biv (f64_lit 2 0) (f64_lit 3 0) (f64_lit 4 0))) =
    mkSpin (Sca (f64_lit (-86) 0)) (Biv (f64_lit (-52) 0) (f64_lit (-78) 0) (f64_lit (-104) 0)).
Proof. exact power_example. Qed.
Example C64_example_rotor : let B := Biv 0 0 1 in nontiny B /\ nontiny (scale TBiv 2 B) /\ nontiny (scale TBiv 3 B).
Proof. exact rotor_example. Qed.

(** C65: inserting an object leaves notation, precision, fill and adjustment
    of the stream and uses up the width. *)
Theorem C65_state : forall nn t f, insert nn t = Some f -> forall x os,
  same_format (f x os) os /\ os_width (f x os) = 0%Z.
Proof. exact insert_state. Qed.
Print Assumptions C65_state.
(** The text does not depend on notation, precision or earlier output. *)
Theorem C65_text : forall nn t f, insert nn t = Some f -> forall x a b, same_padding a b ->
  exists s, os_out (f x a) = os_out a ++ s /\ os_out (f x b) = os_out b ++ s.
Proof. exact insert_text. Qed.
Print Assumptions C65_text.
(** Objects one after the other: the texts one after the other. *)
Theorem C65_sequence : forall nn t u f g, insert nn t = Some f -> insert nn u = Some g -> forall x y os, (os_width os <= 0)%Z ->
  os_out (g y (f x os)) = os_out os ++ os_out (f x os_new) ++ os_out (g y os_new).
Proof. exact insert_twice. Qed.
Print Assumptions C65_sequence.
(** [priv::put] of a double writes one number, but the stream stays in fixed
    notation with the precision of the format. *)
Theorem C65_put_double : forall nn os v fmt, (os_width os <= 0)%Z -> os_left os = false -> exists k tok,
  os_out (put_Dub nn os v fmt) = os_out os ++ c_space :: repeat (os_fill os) k ++ tok /\
  shows_fixed nn (Z.to_nat (if (to_int (theNumDigFrac fmt) <? 0)%Z then 6 else to_int (theNumDigFrac fmt))) v tok /\
  os_nt (put_Dub nn os v fmt) = fixed_nt /\ os_prec (put_Dub nn os v fmt) = to_int (theNumDigFrac fmt) /\ os_width (put_Dub nn os v fmt) = 0%Z.
Proof. exact put_double. Qed.
Print Assumptions C65_put_double.
Theorem C65_put_double_changes : forall nn v, ~ same_format (put_Dub nn os_new v fmt_default) os_new.
Proof. exact put_double_state. Qed.
Print Assumptions C65_put_double_changes.
Example C65_example : exists f g, insert false TSca = Some f /\ insert false TSca = Some g /\
  string_of_list_ascii (os_out (g (Sca (f64_lit (-3) (-1))) (f (Sca (f64_lit 1 0)) (mkOs [] fixed_nt 2 0 "*"%char true)))) =
  "    1.000000   -1.500000"%string.
Proof. do 2 eexists. repeat split. Qed.
