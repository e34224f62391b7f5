(* Specification vocabulary for recursive filters *)
From Coq Require Import Reals List.
From Coquelicot Require Import Coquelicot.
Open Scope R_scope.

(** the signal x delayed by one sample, with i in front *)
Definition dly {V : Type} (i : V) (x : nat -> V) (t : nat) : V := match t with O => i | S k => x k end.

(** transfer function (b0 + b1/z + b2/z^2) / (1 + a1/z + a2/z^2) *)
Definition tf (b0 b1 b2 a1 a2 : R) (z : C) : C :=
  ((RtoC b0 * (z * z) + RtoC b1 * z + RtoC b2) / (z * z + RtoC a1 * z + RtoC a2))%C.

(** the distance of two complex signals tends to zero *)
Definition approaches (y z : nat -> C) : Prop := is_lim_seq (fun t => Cmod (y t - z t)%C) 0.

Fixpoint Cpown (z : C) (n : nat) : C := match n with O => RtoC 1 | S k => (z * Cpown z k)%C end.

(** A system answers every complex exponential amp*w^t, eventually, with g times that exponential: its gain at w
    is g. *)
Definition gain_at (sys : (nat -> C) -> nat -> C) (w g : C) : Prop :=
  forall amp : C, approaches (sys (fun t => amp * Cpown w t)%C) (fun t => g * (amp * Cpown w t))%C.
