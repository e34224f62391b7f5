(* C91: rounding errors of atan and atan2 (atan2.hh) *)
From Coq Require Import Reals ZArith Lia Lra.
From Flocq Require Import Core.
From Interval Require Import Tactic.
From Verif Require Import Spec.Rounding Model.Num Proofs.BaseLemmas Model.Atan2 Spec.Angle Proofs.Atan2Proofs Proofs.AtRound Props.PFftRound Props.PDbRound.
Open Scope R_scope.

(** atan(x), every operation and literal being rounded with relative error u *)
Theorem C91_atan (u e : R) (rnd : R -> R) (x : R) : 0 < u <= 1 / 10000000 -> 0 <= e <= u * 1e-36 -> rounding u e rnd ->
  Rabs (atan (Fn rnd) x - Ratan.atan x) <= 5.9 * u + 1e-16.
Proof. intros Hu He Hr. apply (atan_round u e); auto. lra. Qed.
Print Assumptions C91_atan.

(** atan2(y, x) is within 13 u of the angle of (x, y) - within 6.5 u on the right half plane -, possibly up to a
    whole turn; never a whole turn off unless the point lies within 1e-33 (as a slope) of the negative x axis. *)
Theorem C91_atan2 (u e : R) (rnd : R -> R) (sy : bool) (x y : R) :
  0 < u <= 1 / 10000000 -> 0 <= e <= u * 1e-36 -> rounding u e rnd ->
  ~ (x = 0 /\ y = 0) -> (y < 0 -> sy = true) -> (0 <= y -> sy = false) ->
  exists t, angle_of x y t /\ (forall t', angle_of x y t' -> t' = t) /\
  (0 <= x -> Rabs (atan2 (Fn rnd) sy y x - t) <= 6.5 * u + 1.1e-16) /\
  (y = 0 \/ 1e-33 <= Rabs (y / x) -> Rabs (atan2 (Fn rnd) sy y x - t) <= 13 * u + 1.1e-16) /\
  exists k, (k = -1 \/ k = 0 \/ k = 1) /\ Rabs (atan2 (Fn rnd) sy y x - (t + 2 * PI * k)) <= 13 * u + 1.1e-16.
Proof.
  intros Hu He Hr Hnz Hn Hp. destruct (atan2_round u e rnd Hu ltac:(lra) Hr sy x y) as (t & k & A & K & B & C & D); auto; try lra.
  exists t. split; auto. split; [intros t' A'; apply (angle_unique x y); auto|]. split; auto. split; [|exists k; auto].
  intros H. rewrite (C ltac:(tauto)), Rmult_0_r, Rplus_0_r in B. auto.
Qed.
Print Assumptions C91_atan2.

Lemma fmt_range3 p q : (-1080 <= q)%Z -> (q <= p - 126)%Z -> (p <= -24)%Z -> 0 < bpow radix2 p <= 1 / 10000000 /\ 0 <= bpow radix2 q <= bpow radix2 p * 1e-36.
Proof.
  intros H1 H2 H3. pose proof (bpow_gt_0 radix2 p). pose proof (bpow_gt_0 radix2 q).
  assert (bpow radix2 p <= bpow radix2 (-24)) by (apply bpow_le; lia). assert (bpow radix2 q <= bpow radix2 (p + -126)) by (apply bpow_le; lia).
  rewrite bpow_plus in H5. change (bpow radix2 (-24)) with (/ 16777216) in *. change (bpow radix2 (-126)) with (/ 85070591730234615865843651857942052864) in *. lra.
Qed.
(** atan2<double> and atan2<float> *)
Theorem C91_atan2_binary64 (sy : bool) (x y : R) : ~ (x = 0 /\ y = 0) -> (y < 0 -> sy = true) -> (0 <= y -> sy = false) -> 0 <= x \/ y = 0 \/ 1e-33 <= Rabs (y / x) ->
  exists t, angle_of x y t /\ Rabs (atan2 (Fn rnd64) sy y x - t) <= 1.6e-15.
Proof.
  intros Hnz Hn Hp H. destruct (fmt_range3 (-53) (-1075)) as [Hu He]; try lia. destruct (C91_atan2 _ _ _ sy x y Hu He fmt64 Hnz Hn Hp) as (t & A & _ & B & C & _).
  exists t. split; auto. change (bpow radix2 (-53)) with (/ 9007199254740992) in *. destruct H as [H|H]; [specialize (B H)|specialize (C H)]; lra.
Qed.
Print Assumptions C91_atan2_binary64.
Theorem C91_atan2_binary32 (sy : bool) (x y : R) : ~ (x = 0 /\ y = 0) -> (y < 0 -> sy = true) -> (0 <= y -> sy = false) -> 0 <= x \/ y = 0 \/ 1e-33 <= Rabs (y / x) ->
  exists t, angle_of x y t /\ Rabs (atan2 (Fn rnd32) sy y x - t) <= 7.8e-7.
Proof.
  intros Hnz Hn Hp H. destruct (fmt_range3 (-24) (-150)) as [Hu He]; try lia. destruct (C91_atan2 _ _ _ sy x y Hu He fmt32 Hnz Hn Hp) as (t & A & _ & B & C & _).
  exists t. split; auto. change (bpow radix2 (-24)) with (/ 16777216) in *. destruct H as [H|H]; [specialize (B H)|specialize (C H)]; lra.
Qed.
Print Assumptions C91_atan2_binary32.

(** C91  The point (-1, 1) in binary32 *)
Example C91_example : Rabs (atan2 (Fn rnd32) false 1 (-1) - 3 * (PI / 4)) <= 7.8e-7.
Proof.
  destruct (C91_atan2_binary32 false (-1) 1) as (t & A & B); try lra; auto.
  { right. right. replace (1 / -1) with (-1) by field. rewrite Rabs_left; lra. }
  assert (G : angle_of (-1) 1 (3 * (PI / 4))).
  { pose proof PI_RGT_0. split; [lra|]. replace (3 * (PI / 4)) with (PI - PI / 4) by field.
    rewrite Rtrigo_facts.cos_pi_minus, Rtrigo_facts.sin_pi_minus, cos_PI4, sin_PI4.
    replace (-1 * -1 + 1 * 1) with 2 by ring. assert (sqrt 2 <> 0) by (apply Rgt_not_eq, sqrt_lt_R0; lra). split; field; auto. }
  rewrite (angle_unique (-1) 1 (3 * (PI / 4)) t); auto. lra.
Qed.
