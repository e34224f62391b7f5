(* C77: phase error of the numerically controlled oscillator (phasor.hh) in floating point *)
From Coq Require Import Reals ZArith Lia Lra List.
From Coquelicot Require Import Complex.
From Flocq Require Import Core.
From Verif Require Import Proofs.BaseLemmas Spec.Dft Spec.Rounding Model.Phasor Model.UnitCircle Proofs.SignalLemmas Proofs.BiquadProofs Proofs.Butterworth Proofs.FftKernels Proofs.PhasorProofs Proofs.PhasorRound Proofs.UcRound Props.PFftRound.
Open Scope R_scope.

(** C77  Every operation rounded with relative error u: if delta is within eta of exp(i a), call t after reset() returns
    exp(i t a) with an error of at most t (20 u + 3 eta) — the phase error grows at most linearly. *)
Theorem C77_phase_error (u e eta a : R) (rnd : R -> R) (prev delta : C) (x : nat -> unit) (t : nat) :
  rounding u e rnd -> 0 <= u <= 1/100 -> 0 <= e <= u / 1000 -> Cmod (delta - cis a)%C <= eta -> eta <= 1/20 ->
  Cmod (out (phasor_step (Fn rnd)) (phasor_reset (Fn rnd) (mkPhasor prev delta)) x t - cis (INR t * a))%C <= INR t * (20 * u + 3 * eta).
Proof. intros. rewrite <- Cpown_cis. apply (phase_drift u e rnd); auto. apply Cmod_cis. Qed.
Print Assumptions C77_phase_error.

(** C77  omega(n, N) with UnitCircle computed in the same arithmetic: t calls later the oscillator is within 60 t u of
    the exact sample of the circle. *)
Theorem C77_omega (u e : R) (rnd : R -> R) (p : phasor R) (n N : Z) (x : nat -> unit) (t : nat) :
  1e-16 <= u <= 1e-7 -> 0 <= e <= u / 1000000 -> rounding u e rnd -> (1 <= N)%Z -> (Z.abs n <= N)%Z -> (8 * N <= INT_MAX)%Z ->
  Cmod (out (phasor_step (Fn rnd)) (phasor_reset (Fn rnd) (phasor_omega (uc_trig (Fn rnd)) p n N)) x t - cis (2 * PI * IZR n * INR t / IZR N))%C <= 60 * u * INR t.
Proof.
  intros Hu He Hr HN Hn HI. destruct (uc_round u e rnd ltac:(lra) He Hr n N HN Hn HI) as (c & s & E1 & E2 & A & B).
  assert (N0 : IZR N <> 0) by (apply not_0_IZR; lia).
  replace (2 * PI * IZR n * INR t / IZR N) with (INR t * (2 * PI * IZR n / IZR N)) by (field; auto).
  unfold phasor_omega, uc_trig. cbn [tcos tsin]. rewrite E1, E2.
  pose proof (pos_INR t). eapply Rle_trans; [apply (C77_phase_error u e (13 * u)); auto; try lra|nra].
  set (a := 2 * PI * IZR n / IZR N) in *. unfold cis.
  apply Rle_trans with (sqrt 2 * Rmax (Rabs (fst ((c, s) - (cos a, sin a))%C)) (Rabs (snd ((c, s) - (cos a, sin a))%C))); [apply Cmod_2Rmax|].
  assert (S2 : 0 <= sqrt 2 <= 1.5). { split; [apply sqrt_pos|]. apply Rsqr_incr_0_var; [|lra]. unfold Rsqr. rewrite sqrt_sqrt by lra. lra. }
  assert (M : 0 <= Rmax (Rabs (fst ((c, s) - (cos a, sin a))%C)) (Rabs (snd ((c, s) - (cos a, sin a))%C)) <= 8.5 * u).
  { split; [eapply Rle_trans; [apply Rabs_pos|apply Rmax_l]|]. cbn [fst snd Cminus Cplus Copp]. apply Rmax_lub; [change (Rabs (c - cos a) <= 8.5 * u)|change (Rabs (s - sin a) <= 8.5 * u)]; lra. }
  nra.
Qed.
Print Assumptions C77_omega.
(** one million samples at 1/44100 of a turn in double precision: still within 1e-8 of the exact oscillator *)
Example C77_example (p : phasor R) (x : nat -> unit) (t : nat) : (t <= 1000000)%nat ->
  Cmod (out (phasor_step (Fn rnd64)) (phasor_reset (Fn rnd64) (phasor_omega (uc_trig (Fn rnd64)) p 1 44100)) x t - cis (2 * PI * 1 * INR t / 44100))%C <= 1e-8.
Proof.
  intros Ht. destruct (fmt_range (-53) (-1075)) as [Hu He]; try lia. change (bpow radix2 (-53)) with (/ 9007199254740992) in *.
  eapply Rle_trans; [apply (C77_omega (/ 9007199254740992) (bpow radix2 (-1075)) rnd64 p 1 44100 x t); try lia; try lra; [exact fmt64|unfold INT_MAX; lia]|].
  apply le_INR in Ht. rewrite (INR_IZR_INZ 1000000) in Ht. replace (Z.of_nat 1000000) with 1000000%Z in Ht by (vm_compute; reflexivity). lra.
Qed.
