(* Model of /repo/unit_circle.hh *)
From Coq Require Import Reals.
From Verif Require Export Model.Base Model.Num Model.Const Model.Fft.
Open Scope Z_scope.

(** unit_circle.hh:19-33  the coefficient literals *)
Definition uc_a1 : R := 1.0%R.
Definition uc_a2 : R := (-0.5)%R.
Definition uc_a3 : R := (-1.66666666666666307295E-1)%R.
Definition uc_a4 : R := 4.16666666666665929218E-2%R.
Definition uc_a5 : R := 8.33333333332211858878E-3%R.
Definition uc_a6 : R := (-1.38888888888730564116E-3)%R.
Definition uc_a7 : R := (-1.98412698295895385996E-4)%R.
Definition uc_a8 : R := 2.48015872888517045348E-5%R.
Definition uc_a9 : R := 2.75573136213857245213E-6%R.
Definition uc_a10 : R := (-2.75573141792967388112E-7)%R.
Definition uc_a11 : R := (-2.50507477628578072866E-8)%R.
Definition uc_a12 : R := 2.08757008419747316778E-9%R.
Definition uc_a13 : R := 1.58962301576546568060E-10%R.
Definition uc_a14 : R := (-1.13585365213876817300E-11)%R.

Declare Scope T_scope.
Delimit Scope T_scope with T.
Section UnitCircle.
Context {T : Type} (N : num T).
Notation "a + b" := (nadd N a b) : T_scope.
Notation "a * b" := (nmul N a b) : T_scope.
Notation l := (nlit N).

(** unit_circle.hh:35-38 *)
Definition cosine_kernel (xx : T) : T :=
  (l uc_a1 + xx * (xx * (xx * (xx * (xx * (xx * (xx * l uc_a14 + l uc_a12) + l uc_a10) + l uc_a8) + l uc_a6) + l uc_a4) + l uc_a2))%T.
(** unit_circle.hh:39-42 *)
Definition sine_kernel (x xx : T) : T :=
  (x * (xx * (xx * (xx * (xx * (xx * (xx * l uc_a13 + l uc_a11) + l uc_a9) + l uc_a7) + l uc_a5) + l uc_a3) + l uc_a1))%T.
(** unit_circle.hh:43-50 *)
Definition cosine_approx (x : T) : T := cosine_kernel (x * x)%T.
Definition sine_approx (x : T) : T := sine_kernel x (x * x)%T.
(** unit_circle.hh:52-55 *)
Definition uc_rad (n NN : Z) : T := ndiv N (nmul N (TwoPi N) (nofZ N n)) (nofZ N NN).

(** c1*n + c2*N and c3*N, computed in int, as arguments of rad; the literals c1 and c3 equal 1 stand for no
    multiplication *)
Definition uc_arg (f : T -> T) (c1 n c2 c3 NN : Z) : outcome T :=
  a <- ichk (c1 * n) ;; b <- ichk (c2 * NN) ;; s <- ichk (a + b) ;; d <- ichk (c3 * NN) ;;
  Ok (f (uc_rad s d)).

(** the comparison 8*n < c*N in int *)
Definition uc_lt (n c NN : Z) : outcome bool := a <- ichk (8 * n) ;; b <- ichk (c * NN) ;; Ok (a <? b).

Definition neg (f : T -> T) (x : T) : T := nopp N (f x).

(** unit_circle.hh:56-68  cos(n, N) *)
Definition uc_cos (n NN : Z) : outcome T :=
  c <- uc_lt n (-7) NN ;; if c then uc_arg cosine_approx 1 n 1 1 NN else
  c <- uc_lt n (-5) NN ;; if c then uc_arg (neg sine_approx) 4 n 3 4 NN else
  c <- uc_lt n (-3) NN ;; if c then uc_arg (neg cosine_approx) 2 n 1 2 NN else
  c <- uc_lt n (-1) NN ;; if c then uc_arg sine_approx 4 n 1 4 NN else
  c <- uc_lt n 1 NN ;; if c then uc_arg cosine_approx 1 n 0 1 NN else
  c <- uc_lt n 3 NN ;; if c then uc_arg (neg sine_approx) 4 n (-1) 4 NN else
  c <- uc_lt n 5 NN ;; if c then uc_arg (neg cosine_approx) 2 n (-1) 2 NN else
  c <- uc_lt n 7 NN ;; if c then uc_arg sine_approx 4 n (-3) 4 NN else
  uc_arg cosine_approx 1 n (-1) 1 NN.

(** unit_circle.hh:69-81  sin(n, N) *)
Definition uc_sin (n NN : Z) : outcome T :=
  c <- uc_lt n (-7) NN ;; if c then uc_arg sine_approx 1 n 1 1 NN else
  c <- uc_lt n (-5) NN ;; if c then uc_arg cosine_approx 4 n 3 4 NN else
  c <- uc_lt n (-3) NN ;; if c then uc_arg (neg sine_approx) 2 n 1 2 NN else
  c <- uc_lt n (-1) NN ;; if c then uc_arg (neg cosine_approx) 4 n 1 4 NN else
  c <- uc_lt n 1 NN ;; if c then uc_arg sine_approx 1 n 0 1 NN else
  c <- uc_lt n 3 NN ;; if c then uc_arg cosine_approx 4 n (-1) 4 NN else
  c <- uc_lt n 5 NN ;; if c then uc_arg (neg sine_approx) 2 n (-1) 2 NN else
  c <- uc_lt n 7 NN ;; if c then uc_arg (neg cosine_approx) 4 n (-3) 4 NN else
  uc_arg sine_approx 1 n (-1) 1 NN.

(** the table the FFT takes its factors from (fft.hh:15-31, 1117-1121); an undefined value is read as 0, which
    the theorems exclude by the range of n *)
Definition uc_trig : trig T := {|
  tcos := fun n NN => match uc_cos n NN with Ok v => v | _ => n0 N end;
  tsin := fun n NN => match uc_sin n NN with Ok v => v | _ => n0 N end;
  trsqrt2 := InvSqrtTwo N |}.
End UnitCircle.
