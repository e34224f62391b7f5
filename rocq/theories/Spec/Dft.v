(* Specification vocabulary: the discrete Fourier transform over the complex numbers of Coquelicot *)
From Coq Require Import Reals ZArith Znumtheory.
From Coquelicot Require Import Complex.
Open Scope R_scope.
Open Scope C_scope.

(** exp(i*t) *)
Definition cis (t : R) : C := (cos t, sin t).

(** f 0 + f 1 + ... + f (n-1) *)
Fixpoint Csum (n : nat) (f : nat -> C) : C :=
  match n with
  | O => 0
  | S n' => Csum n' f + f n'
  end.

(** k-th coefficient of the N-point transform of x_0 ... x_(N-1): the sum of x_n * exp(sign*2*pi*i*n*k/N) *)
Definition DFT (sign : Z) (N : nat) (x : nat -> C) (k : nat) : C :=
  Csum N (fun n => x n * cis (IZR sign * 2 * PI * (INR n * INR k) / INR N)).

(** all prime factors are at most 31 *)
Definition smooth31 (n : Z) : Prop := forall p, prime p -> (p | n)%Z -> (p <= 31)%Z.

(** trigonometric polynomial of period one: the sum of c_k * exp(2*pi*i*k*t) for -h <= k <= h *)
Definition trigpoly (h : nat) (c : Z -> C) (t : R) : C :=
  Csum (2 * h + 1) (fun j => c (Z.of_nat j - Z.of_nat h)%Z * cis (2 * PI * IZR (Z.of_nat j - Z.of_nat h) * t)).
