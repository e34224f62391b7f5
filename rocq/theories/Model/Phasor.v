(* Model of /repo/phasor.hh *)
From Coq Require Import ZArith Reals.
From Verif Require Export Model.Signal Model.Const Model.Fft.

Section Phasor.
Context {T : Type} (N : num T).
(** phasor.hh:18  complex_type prev, delta *)
Record phasor := mkPhasor { ph_prev : cplx T; ph_delta : cplx T }.
(** phasor.hh:20-22 *)
Definition phasor_new : phasor := mkPhasor (cmk (n1 N) (n0 N)) (cmk (n1 N) (n0 N)).
(** phasor.hh:23-28 *)
Definition phasor_omega (tr : trig T) (p : phasor) (n K : Z) : phasor := mkPhasor (ph_prev p) (cmk (tcos tr n K) (tsin tr n K)).
(** phasor.hh:29-32; [cosf], [sinf] are the library functions *)
Definition phasor_omega_rad (cosf sinf : T -> T) (p : phasor) (v : T) : phasor := mkPhasor (ph_prev p) (cmk (cosf v) (sinf v)).
(** phasor.hh:33-36 *)
Definition phasor_freq (cosf sinf : T -> T) (p : phasor) (v : T) : phasor := phasor_omega_rad cosf sinf p (nmul N (TwoPi N) v).
(** phasor.hh:37-40 *)
Definition phasor_reset (p : phasor) : phasor := mkPhasor (cmk (n1 N) (n0 N)) (ph_delta p).
(** phasor.hh:41-47 *)
Definition phasor_step (p : phasor) (_ : unit) : phasor * cplx T :=
  let tmp := ph_prev p in
  let prev := cmul_eq N (ph_prev p) (ph_delta p) in
  let prev := cdivr_eq N prev (cabs N prev) in
  (mkPhasor prev (ph_delta p), tmp).
End Phasor.
Arguments phasor T : clear implicits.
