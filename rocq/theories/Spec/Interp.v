(* Interpolating curves: independent description of the splines of spline.hh.
   [u : nat -> R] are the knots, [y] the values, [n] the number of knots. *)
From Coq Require Import Reals.
From Coquelicot Require Import Coquelicot.
Open Scope R_scope.

(** x belongs to the piece between knots j and j+1; the first and the last piece reach to infinity *)
Definition on_piece (n : nat) (u : nat -> R) (j : nat) (x : R) : Prop :=
  (S j < n)%nat /\ (j = O \/ u j <= x) /\ (S (S j) = n \/ x <= u (S j)).
Definition is_cubic_on (D : R -> Prop) (F : R -> R) : Prop :=
  exists a b c d, forall x, D x -> F x = a + b * x + c * x ^ 2 + d * x ^ 3.
Definition interpolates (n : nat) (u y : nat -> R) (F : R -> R) : Prop := forall k, (k < n)%nat -> F (u k) = y k.
Definition piecewise_cubic (n : nat) (u : nat -> R) (F : R -> R) : Prop := forall j, (S j < n)%nat -> is_cubic_on (on_piece n u j) F.

(** the natural cubic spline: C2, piecewise cubic, interpolating, second derivative zero at both ends *)
Definition natural_spline (n : nat) (u y : nat -> R) (F : R -> R) : Prop :=
  interpolates n u y F /\ piecewise_cubic n u F /\
  exists F1 F2 : R -> R, (forall x, is_derive F x (F1 x)) /\ (forall x, is_derive F1 x (F2 x)) /\ (forall x, continuous F2 x) /\
    F2 (u O) = 0 /\ F2 (u (n - 1)%nat) = 0.

(** slope of the chord from knot k to knot k+1 *)
Definition chord (u y : nat -> R) (k : nat) : R := (y (S k) - y k) / (u (S k) - u k).
(** the cubic Hermite spline with finite difference tangents: C1, piecewise cubic, interpolating, with the
    chord slope at the end knots and the mean of the two adjacent chord slopes at the others *)
Definition hermite_spline (n : nat) (u y : nat -> R) (F : R -> R) : Prop :=
  interpolates n u y F /\ piecewise_cubic n u F /\
  exists F1 : R -> R, (forall x, is_derive F x (F1 x)) /\ (forall x, continuous F1 x) /\
    F1 (u O) = chord u y 0 /\ F1 (u (n - 1)%nat) = chord u y (n - 2) /\
    forall k, (0 < k < n - 1)%nat -> F1 (u k) = (chord u y (k - 1) + chord u y k) / 2.
