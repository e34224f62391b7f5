(* Specification vocabulary: Euclidean norm of finitely many complex numbers *)
From Coq Require Import Reals.
From Coquelicot Require Import Complex.
From Verif Require Import Spec.Fir.
Open Scope R_scope.

(** sqrt (|f 0|^2 + ... + |f (n-1)|^2) *)
Definition l2 (n : nat) (f : nat -> C) : R := sqrt (Rsumn n (fun k => Cmod (f k) ^ 2)).
