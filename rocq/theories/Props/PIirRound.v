(* C81: rounding errors of the recursive filters (biquad.hh, ema.hh, blockdc.hh, calculus.hh) *)
From Coq Require Import Reals Lra Lia ZArith List.
From Flocq Require Import Core.
From Verif Require Import Proofs.BaseLemmas Model.Biquad Model.Ema Spec.Rounding Proofs.SecondOrder Proofs.BiquadProofs Proofs.PhasorProofs Proofs.IirRound Proofs.IntegRound Props.PFftRound.
Import ListNotations.
Open Scope R_scope.

(** C81  A Biquad whose coefficients have their poles inside the unit circle, computed with rounded operations, stays for ever
    within K (u X + e) of the exact filter with the same coefficients, X bounding the input: K and the largest admissible
    u depend on the coefficients only. *)
Theorem C81_biquad (c : coefs R) : Rabs (a2a0 c) < 1 -> Rabs (a1a0 c) < 1 + a2a0 c ->
  exists u0 K, 0 < u0 /\ forall u e rnd, rounding u e rnd -> 0 <= u <= u0 -> 0 <= e -> forall (x : nat -> R) X, (forall t, Rabs (x t) <= X) ->
  forall t, Rabs (out (biquad_step (vreal (Fn rnd))) (biquad_set (biquad_new (Fn rnd) (vreal (Fn rnd))) c) x t -
                  out (biquad_step (vreal Rn)) (biquad_set (biquad_new Rn (vreal Rn)) c) x t) <= K * (u * X + e).
Proof. intros H1 H2. destruct (biquad_same c (conj H1 H2)) as (u0 & K & Hu & HK & H). exists u0, K. split; [lra|]. exact H. Qed.
Print Assumptions C81_biquad.
(** C81  The same for a cascade of any number of sections. *)
Theorem C81_cascade (cs : list (coefs R)) : Forall (fun c => Rabs (a2a0 c) < 1 /\ Rabs (a1a0 c) < 1 + a2a0 c) cs ->
  exists u0 K, 0 < u0 /\ forall u e rnd, rounding u e rnd -> 0 <= u <= u0 -> 0 <= e -> forall (x : nat -> R) X, (forall t, Rabs (x t) <= X) ->
  forall t, Rabs (out (bqc_step (vreal (Fn rnd))) (map (biquad_set (biquad_new (Fn rnd) (vreal (Fn rnd)))) cs) x t -
                  out (bqc_step (vreal Rn)) (map (biquad_set (biquad_new Rn (vreal Rn))) cs) x t) <= K * (u * X + e).
Proof.
  intros H. destruct (cascade_tracks cs H) as (u0 & K & B & Hu & HK & HB & _ & T). exists u0, K. split; [lra|]. intros u e rnd Hr Hu' He x X HX t.
  pose proof (T u e rnd Hr Hu' He x x X 0 HX ltac:(intros; rewrite Rminus_eq_0, Rabs_R0; lra) t) as G. rewrite Rplus_0_r, Rmult_0_r, Rplus_0_r in G. exact G.
Qed.
Print Assumptions C81_cascade.
(** C81  EMA, explicitly: the error never exceeds (10 u X + 8 e) / alpha. *)
Theorem C81_ema (u e alpha p0 X : R) (rnd : R -> R) (x : nat -> R) (t : nat) : rounding u e rnd -> 0 < alpha <= 1 -> 0 <= u <= alpha / 100 -> 0 <= e <= u / 1000 ->
  Rabs p0 <= X -> (forall t, Rabs (x t) <= X) ->
  Rabs (out (ema_step (Fn rnd) (vreal (Fn rnd))) (mkEma p0 alpha) x t - out (ema_step Rn (vreal Rn)) (mkEma p0 alpha) x t) <= (10 * u * X + 8 * e) / alpha.
Proof. intros. apply ema_round; auto. Qed.
Print Assumptions C81_ema.
(** C81  BlockDC, explicitly. *)
Theorem C81_blockdc (u e a b X : R) (rnd : R -> R) (x : nat -> R) (t : nat) : rounding u e rnd -> 0 <= a < 1 -> 0 <= b <= 1 -> 0 <= u <= (1 - a) / 100 -> 0 <= e ->
  (forall t, Rabs (x t) <= X) ->
  Rabs (out (blockdc_step (vreal (Fn rnd))) (mkBdc 0 0 a b) x t - out (blockdc_step (vreal Rn)) (mkBdc 0 0 a b) x t) <= (24 * u * X + 10 * e) / (1 - a).
Proof. intros. apply blockdc_round; auto. Qed.
Print Assumptions C81_blockdc.
(** C81  Integrator has no such bound: fed with ones it counts exactly up to 2^prec and stays there for ever. *)
Theorem C81_integrator_stops_refuted (emin prec : Z) (t : nat) : (1 < prec)%Z -> (emin <= 0)%Z ->
  out (integrator_step (fun a b => round radix2 (FLT_exp emin prec) ZnearestE (a + b))) 0 (fun _ => 1) t = IZR (Z.min (Z.of_nat t + 1) (2 ^ prec)).
Proof. intros H1 H2. apply ones; auto. Qed.
Print Assumptions C81_integrator_stops_refuted.
(** averaging over 1000 samples in double precision: never more than 1.2e-12 off for inputs in [-1, 1] *)
Example C81_example (x : nat -> R) (t : nat) : (forall t, Rabs (x t) <= 1) ->
  Rabs (out (ema_step (Fn rnd64) (vreal (Fn rnd64))) (mkEma 0 (1 / 1000)) x t - out (ema_step Rn (vreal Rn)) (mkEma 0 (1 / 1000)) x t) <= 1.2e-12.
Proof.
  intros Hx. destruct (fmt_range (-53) (-1075)) as [Hu He]; try lia. pose proof fmt64 as F. change (bpow radix2 (-53)) with (/ 9007199254740992) in *.
  eapply Rle_trans; [apply (C81_ema (/ 9007199254740992) (bpow radix2 (-1075)) (1/1000) 0 1); auto; try lra; rewrite Rabs_R0; lra|]. lra.
Qed.
(** a1 = -1.8, a2 = 0.9 is such a filter *)
Example C81_stable : Rabs 0.9 < 1 /\ Rabs (-1.8) < 1 + 0.9.
Proof. rewrite (Rabs_left (-1.8)), Rabs_pos_eq by lra. lra. Qed.
