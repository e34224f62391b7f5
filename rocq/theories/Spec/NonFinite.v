(* Specification vocabulary: NaN and infinite samples, and which outputs they reach. *)
From Coq Require Import ZArith.
From Flocq Require Import IEEE754.BinarySingleNaN.
From Verif Require Import Model.Base.

(** [o x t]: the value returned by call t of an object called with the signal x.
    One bad sample spoils this output and every later one *)
Definition spoils {I O} (bad : I -> Prop) (bado : O -> Prop) (o : (nat -> I) -> nat -> O) : Prop :=
  forall x t0 t, bad (x t0) -> (t0 <= t)%nat -> bado (o x t).
(** the output is determined by the last [n] samples: after [n] samples any earlier one is forgotten *)
Definition remembers {I O} (n : nat) (o : (nat -> I) -> nat -> O) : Prop :=
  forall x y t, (forall k, (k <= t < k + n)%nat -> x k = y k) -> o x t = o y t.
(** the call succeeds with such a value *)
Definition returns {O} (P : O -> Prop) (r : outcome O) : Prop := exists v, r = Ok v /\ P v.

Section Ieee.
Context {prec emax : Z}.
Notation bf := (binary_float prec emax).
Definition nan (b : bf) : Prop := is_nan b = true.
(** NaN or an infinity *)
Definition nonfinite (b : bf) : Prop := is_finite b = false.
(** one of the parts is *)
Definition part (P : bf -> Prop) (z : bf * bf) : Prop := P (fst z) \/ P (snd z).
End Ieee.
