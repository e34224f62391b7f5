(* C105 Stability of the Biquad designs with rounded coefficients *)
From Coq Require Import Reals ZArith Lra Lia List.
From Coquelicot Require Import Coquelicot.
From Flocq Require Import Core.
From Interval Require Import Tactic.
From Verif Require Import Model.Biquad Model.UnitCircle Spec.Iir Proofs.BaseLemmas Proofs.SecondOrder Proofs.BiquadProofs Props.PFftRound Proofs.BqRound Proofs.BqBad.
Import ListNotations.
Open Scope R_scope.

(** The coefficients of the five designs computed in floating point: UnitCircle, alpha, the coefficients of the textbook formula and
    their quotients all rounded to nearest even (overflow is not modelled). *)
Definition rounded_designs (rnd : R -> R) (n N : Z) (Q : R) : list (coefs R) := let F := Fn rnd in let tr := uc_trig (Fn rnd) in
  [bq_lowpass F tr n N Q; bq_highpass F tr n N Q; bq_notch_Q F tr n N Q; bq_bandpass_Q F tr n N Q; bq_allpass_Q F tr n N Q].
(** What stability means: poles inside the unit circle, and a bounded answer of the (exact) recursion to bounded signals. *)
Definition stable_filter (c : coefs R) : Prop :=
  (forall z : C, (z * z + RtoC (a1a0 c) * z + RtoC (a2a0 c) = 0)%C -> Cmod z < 1) /\
  exists B, forall (x : nat -> R) X, (forall t, Rabs (x t) <= X) ->
    forall t, Rabs (out (biquad_step (vreal Rn)) (biquad_set (biquad_new Rn (vreal Rn)) c) x t) <= B * X.
Lemma stable_of (c : coefs R) : Rabs (a2a0 c) < 1 /\ Rabs (a1a0 c) < 1 + a2a0 c -> stable_filter c.
Proof.
  intros S. split; [apply (poles_inside _ _ S)|]. destruct (bibo c S) as (B & _ & H). exists B. exact H.
Qed.

(** C105  float: cutoff at least 1/4000 of the sampling rate away from 0 and from half the sampling rate, 0.49 <= Q <= 1000. *)
Theorem C105_float (n N : Z) (Q : R) (c : coefs R) : (0 < 2 * n < N)%Z -> (8 * N <= INT_MAX)%Z -> (N <= 4000 * n)%Z -> (N <= 2000 * (N - 2 * n))%Z ->
  0.49 <= Q <= 1000 -> In c (rounded_designs rnd32 n N Q) -> stable_filter c.
Proof. intros H1 H2 H3 H4 H5 I. apply stable_of. exact (proj1 (Forall_forall _ _) (designs_float n N Q H1 H2 H3 H4 H5) c I). Qed.
Print Assumptions C105_float.

(** C105  double: every cutoff 0 < n/N < 1/2 for sampling rates up to 50 MHz, 0.49 <= Q <= 1e6. *)
Theorem C105_double (n N : Z) (Q : R) (c : coefs R) : (0 < 2 * n < N)%Z -> (N <= 50000000)%Z -> 0.49 <= Q <= 1e6 ->
  In c (rounded_designs rnd64 n N Q) -> stable_filter c.
Proof. intros H1 H2 H3 I. apply stable_of. exact (proj1 (Forall_forall _ _) (designs_double n N Q H1 H2 H3) c I). Qed.
Print Assumptions C105_double.

(** C105  The claim for every cutoff is false in float: highpass(1, 48000) with the default Q has a real pole above 1, and its answer
    to a single 1 followed by zeros grows beyond every bound even if the recursion itself is computed without error. *)
Theorem C105_float_highpass_refuted : let c := bq_highpass (Fn rnd32) (uc_trig (Fn rnd32)) 1 48000 (InvSqrtTwo (Fn rnd32)) in
  (exists p : R, 1 < p /\ p * p + a1a0 c * p + a2a0 c = 0) /\
  forall K, exists t, K < Rabs (out (biquad_step (vreal Rn)) (biquad_set (biquad_new Rn (vreal Rn)) c) (fun t => match t with O => 1 | _ => 0 end) t).
Proof.
  cbv zeta. change (bq_highpass _ _ _ _ _) with hp. split.
  - destruct hp_root as (z1 & z2 & A & B & G). exists z1. split; [exact G|]. rewrite <- B. replace (a1a0 hp) with (- (z1 + z2)) by lra. ring.
  - exact hp_diverges.
Qed.
Print Assumptions C105_float_highpass_refuted.

(** C105  Stability is not enough: in float, lowpass(1, 48000) is silent for every Q, because the cosine is rounded to 1.  Its gain at
    zero frequency is 0 instead of 1 (compare C43_lowpass), even if the recursion itself is computed without error. *)
Theorem C105_float_lowpass_refuted (Q : R) (x : nat -> R) (t : nat) :
  out (biquad_step (vreal Rn)) (biquad_set (biquad_new Rn (vreal Rn)) (bq_lowpass (Fn rnd32) (uc_trig (Fn rnd32)) 1 48000 Q)) x t = 0.
Proof. destruct (lp_b Q) as (A & B & C0). apply zero_out; auto. Qed.
Print Assumptions C105_float_lowpass_refuted.

(** The coefficients of the unstable filter, exactly. *)
Example C105_bad_coefs : bq_highpass (Fn rnd32) (uc_trig (Fn rnd32)) 1 48000 (InvSqrtTwo (Fn rnd32)) =
  mkCoefs (16775664 / 16777216) (Ropp (16775664 / 8388608)) (16775664 / 16777216) (Ropp (16775664 / 8388608)) (16774111 / 16777216).
Proof. exact hp_coefs. Qed.
(** A low-pass at 1 kHz and 48 kHz, in float, meets the conditions; a cutoff of 1 Hz does in double. *)
Example C105_case : stable_filter (bq_lowpass (Fn rnd32) (uc_trig (Fn rnd32)) 1000 48000 0.7) /\ stable_filter (bq_highpass (Fn rnd64) (uc_trig (Fn rnd64)) 1 48000 0.7).
Proof.
  split.
  - apply (C105_float 1000 48000 0.7); [lia|unfold INT_MAX; lia|lia|lia|lra|left; reflexivity].
  - apply (C105_double 1 48000 0.7); [lia|lia|lra|right; left; reflexivity].
Qed.
