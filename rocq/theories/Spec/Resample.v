(* Resampling: vocabulary *)
From Coq Require Import Reals ZArith List.
From Verif Require Import Model.Signal.
Open Scope R_scope.

(** f 0 + ... + f (n-1) in the sample type *)
Fixpoint vsum {T V} (VS : vsp T V) (n : nat) (f : nat -> V) : V :=
  match n with O => v0 VS | S n' => vadd VS (vsum VS n' f) (f n') end.
(** a signal that is zero before sample 0 *)
Definition from0 {T V} (VS : vsp T V) (x : nat -> V) (n : Z) : V := if (n <? 0)%Z then v0 VS else x (Z.to_nat n).
(** the value at position p of the signal x interpolated with the kernel h: x weighted with h around p,
    over the [taps] samples ending at sample t *)
Definition interp_at {V} (VS : vsp R V) (taps : nat) (h : R -> R) (x : Z -> V) (t : Z) (p : R) : V :=
  vsum VS taps (fun s => vscale VS (h (INR s + (IZR t - p))) (x (t - Z.of_nat taps + 1 + Z.of_nat s)%Z)).
