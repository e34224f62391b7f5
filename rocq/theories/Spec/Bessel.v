(* Specification vocabulary: the modified Bessel function I_0 as a series *)
From Coq Require Import Reals.
From Coquelicot Require Import Coquelicot.
Open Scope R_scope.

Definition bessel_term (x : R) (m : nat) : R := ((x / 2) ^ m / INR (fact m)) ^ 2.
(** v is I_0(x) *)
Definition is_I0 (x v : R) : Prop := is_series (bessel_term x) v.
