(* Specification vocabulary: finite impulse response filters on signals that are zero before sample 0 *)
From Coq Require Import Reals ZArith.
From Coquelicot Require Import Complex.
From Verif Require Import Spec.Dft.
Open Scope R_scope.

(** f 0 + ... + f (n-1) *)
Fixpoint Rsumn (n : nat) (f : nat -> R) : R := match n with O => 0 | S n' => Rsumn n' f + f n' end.
(** the signal on all integers *)
Definition causal (x : nat -> R) (n : Z) : R := if (n <? 0)%Z then 0 else x (Z.to_nat n).
(** a_0, b_0, a_1, b_1, ... *)
Definition interleave (a b : nat -> R) (n : nat) : R := if Nat.even n then a (Nat.div2 n) else b (Nat.div2 n).
(** sum of h_j x_(m-j) for j < taps, for real and for complex signals *)
Definition rfir (taps : Z) (h : Z -> R) (x : Z -> R) (m : Z) : R :=
  Rsumn (Z.to_nat taps) (fun j => h (Z.of_nat j) * x (m - Z.of_nat j)%Z).
Definition cfir (taps : Z) (h : Z -> R) (x : Z -> C) (m : Z) : C :=
  Csum (Z.to_nat taps) (fun j => RtoC (h (Z.of_nat j)) * x (m - Z.of_nat j)%Z)%C.
