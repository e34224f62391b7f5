(* Specification vocabulary: convolution of sequences *)
From Coq Require Import Reals.
From Coquelicot Require Import Complex.
From Verif Require Import Spec.Dft.
Open Scope C_scope.

(** circular convolution of a and b *)
Definition circconv (N : nat) (a b : nat -> C) (n : nat) : C := Csum N (fun i => a i * b ((n + (N - i)) mod N)%nat).
(** linear convolution: coefficients of the product of two polynomials *)
Definition linconv (a b : nat -> C) (n : nat) : C := Csum (S n) (fun i => a i * b (n - i)%nat).
