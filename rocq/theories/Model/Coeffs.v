(* Model of /repo/coeffs.hh *)
From Coq Require Import ZArith.
From Verif Require Export Model.Base Model.Num.
Open Scope Z_scope.

Section Coeffs.
Context {T : Type} (M : num T).
(** coeffs.hh:14  TYPE w[TAPS]; the array is a list of length TAPS *)
(** w[n] = f(n, TAPS) for n = 0 .. TAPS-1, calls in this order; k values remain *)
Fixpoint coeffs_fill (f : Z -> Z -> outcome T) (TAPS : Z) (k : nat) (n : Z) : outcome (list T) :=
  match k with
  | O => Ok []
  | S k' => v <- f n TAPS ;; r <- coeffs_fill f TAPS k' (n + 1) ;; Ok (v :: r)
  end.
(** coeffs.hh:32-39  sum += w[n]; w[n] /= divisor * abs(sum) *)
Definition coeffs_normalize (w : list T) (divisor : T) : list T :=
  let sum := fold_left (nadd M) w (n0 M) in
  map (fun v => ndiv M v (nmul M divisor (nabs M sum))) w.
(** coeffs.hh:16-23 *)
Definition coeffs_new (NORMALIZE : bool) (TAPS : nat) (func : Z -> Z -> outcome T) : outcome (list T) :=
  w <- coeffs_fill func (Z.of_nat TAPS) TAPS 0 ;; Ok (if NORMALIZE then coeffs_normalize w (n1 M) else w).
(** coeffs.hh:24-31 *)
Definition coeffs_new2 (NORMALIZE : bool) (TAPS : nat) (func0 func1 : Z -> Z -> outcome T) : outcome (list T) :=
  coeffs_new NORMALIZE TAPS (fun n N => a <- func0 n N ;; b <- func1 n N ;; Ok (nmul M a b)).
(** coeffs.hh:40 *)
Definition coeffs_at (w : list T) (n : Z) : outcome T := if (0 <=? n) && (n <? zlen w) then get w n else Ok (n0 M).
End Coeffs.
