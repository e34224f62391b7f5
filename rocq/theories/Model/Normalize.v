(* Model of /repo/normalize.hh *)
From Coq Require Import Reals ZArith.
From Verif Require Export Model.Ema.

Section Normalize.
Context {T : Type} (N : num T).
(** normalize.hh:17-18 *)
Record norm_sine := mkNs { ns_hpf : blockdc T T; ns_lpf : ema T T }.
(** normalize.hh:20-22  lpf(0.5): prev is 0.5, alpha the default 1 *)
Definition norm_new : norm_sine := mkNs (blockdc_new N (vreal N)) (mkEma (nlit N 0.5) (n1 N)).
(** normalize.hh:23-27 *)
Definition norm_samples (n : norm_sine) (s : Z) : norm_sine := mkNs (blockdc_samples N (ns_hpf n) s) (ema_samples N (ns_lpf n) s).
(** the divisor of a call *)
Definition norm_amp (n : norm_sine) (input : T) : T :=
  let '(_, tmp) := blockdc_step (vreal N) (ns_hpf n) input in
  let '(_, p) := ema_step N (vreal N) (ns_lpf n) (nmul N tmp tmp) in
  nsqrt N (nmul N (nofZ N 2) p).
(** normalize.hh:28-33 *)
Definition norm_step (n : norm_sine) (input : T) : norm_sine * T :=
  let '(hpf, tmp) := blockdc_step (vreal N) (ns_hpf n) input in
  let '(lpf, p) := ema_step N (vreal N) (ns_lpf n) (nmul N tmp tmp) in
  let amp := nsqrt N (nmul N (nofZ N 2) p) in
  (mkNs hpf lpf, ndiv N tmp amp).
(** normalize.hh:36-50 *)
Definition normiq_samples (n : norm_sine * norm_sine) (s : Z) : norm_sine * norm_sine := (norm_samples (fst n) s, norm_samples (snd n) s).
Definition normiq_step (n : norm_sine * norm_sine) (iq : cplx T) : (norm_sine * norm_sine) * cplx T :=
  let '(ni, i) := norm_step (fst n) (creal iq) in let '(nq, q) := norm_step (snd n) (cimag iq) in ((ni, nq), cmk i q).
End Normalize.
Arguments norm_sine T : clear implicits.
