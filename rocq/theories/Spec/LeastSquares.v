(* Specification vocabulary: fitting a straight line to points *)
From Coq Require Import Reals List.
From Verif Require Import Spec.Fir.
Open Scope R_scope.

(** sum of squared vertical distances of the first n points to the line a + b x *)
Definition sq_error (n : nat) (x y : nat -> R) (a b : R) : R := Rsumn n (fun i => (y i - (a + b * x i))²).
(** element i of a list *)
Definition el (l : list R) (i : nat) : R := nth i l 0.
