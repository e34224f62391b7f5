(* Specification vocabulary: rounding errors *)
From Coq Require Import Reals.
Open Scope R_scope.

(** rounding with relative error u, plus an absolute error e for results near zero *)
Definition rounding (u e : R) (rnd : R -> R) : Prop := forall x, Rabs (rnd x - x) <= u * Rabs x + e.
