(* C106 The FM demodulators in floating point *)
From Coq Require Import Reals ZArith Lra Lia.
From Coquelicot Require Import Coquelicot.
From Flocq Require Import Core.
From Interval Require Import Tactic.
From Verif Require Import Model.Demod Spec.Rounding Spec.Angle Spec.Dft Proofs.SignalLemmas Proofs.DemodProofs Proofs.FmRound Props.PDemod Props.PCplxRound.
Open Scope R_scope.

(** Every operation is rounded with relative error u (overflow and underflow are not modelled).  [argf] is arg of the C++ library or
    any other argument function with an absolute error of at most d: *)
Definition arg_within (argf : C -> R) (d : R) : Prop := forall z : C, z <> 0%C -> exists a, angle_of (fst z) (snd z) a /\ Rabs (argf z - a) <= d.

(** C106  The input is r_t exp(i theta_t) with any positive amplitudes, phi the phase step; bandwidth and the first state are
    arbitrary.  FMD1 (difference of angles, wrapped), FMD2 (angle of the quotient), FMD3 (angle of the product with the conjugate):
    unless phi is within a few u of half a turn the output differs from phi / (pi bw) by a few u, plus once or twice the error of arg. *)
Theorem C106_angle (u d bw p1 s1 s2 : R) (p2 : C) (rnd : R -> R) (argf : C -> R) (x : nat -> C) (r theta : nat -> R) (t : nat) :
  rounding u 0 rnd -> 1e-20 <= u <= 1e-6 -> arg_within argf d -> 0 <= d <= 0.1 -> bw <> 0 ->
  (forall k, 0 < r k) -> (forall k, x k = RtoC (r k) * cis (theta k))%C ->
  let phi := theta (S t) - theta t in let F := Fn rnd in let ideal := phi / (PI * bw) in
  (Rabs phi <= PI - (2 * d + 10 * u) ->
    Rabs (out (fmd1_step F argf) (fmd_bandwidth F (mkFmd p1 s1) bw) x (S t) - ideal) <= (2.002 * d + 30 * u) / (PI * Rabs bw)) /\
  (Rabs phi <= PI - 8.2 * u ->
    Rabs (out (fmd2_step F argf) (fmd_bandwidth F (mkFmd p2 s2) bw) x (S t) - ideal) <= (1.001 * d + 22 * u) / (PI * Rabs bw)) /\
  (Rabs phi <= PI - 3.1 * u ->
    Rabs (out (fmd3_step F argf) (fmd_bandwidth F (mkFmd p2 s2) bw) x (S t) - ideal) <= (1.001 * d + 17 * u) / (PI * Rabs bw)).
Proof.
  intros HR Hu HA Hd HB Hr Hx phi F ideal. pose proof PI_RGT_0 as PP. assert (P3 : PI <= 3.1416) by interval. assert (B0 : 0 < Rabs bw) by (apply Rabs_pos_lt; auto).
  assert (I : ideal = phi / (bw * PI)) by (unfold ideal; field; split; lra). rewrite I.
  assert (Fin : forall A B y, Rabs phi <= PI -> y <= (A + 4.2 * u * Rabs phi) / (Rabs bw * PI) -> A + 13.2 * u <= B -> y <= B / (PI * Rabs bw)).
  { intros A B y Hp Hy HAB. eapply Rle_trans; [exact Hy|]. rewrite (Rmult_comm PI). apply Rmult_le_compat_r; [apply Rlt_le, Rinv_0_lt_compat, Rmult_lt_0_compat; lra|]. assert (u * Rabs phi <= u * 3.1416) by (apply Rmult_le_compat_l; lra). lra. }
  split; [|split]; intros HP.
  - eapply Fin; [|apply (fmd1_round u rnd HR Hu argf d HA Hd x r theta Hr Hx bw HB t (mkFmd p1 s1) HP)|]; lra.
  - eapply Fin; [|apply (fmd2_round u rnd HR Hu argf d HA x r theta Hr Hx bw HB t (mkFmd p2 s2) HP)|]; lra.
  - eapply Fin; [|apply (fmd3_round u rnd HR Hu argf d HA x r theta Hr Hx bw HB t (mkFmd p2 s2) HP)|]; lra.
Qed.
Print Assumptions C106_angle.

(** C106  FMD4 and FMD5 need no arg and no distance from half a turn.  FMD4 weighs the sine of the phase step with the ratio of the
    two amplitudes; FMD5 is stated for a constant amplitude. *)
Theorem C106_sine (u bw s1 s2 : R) (p : C) (q : C * C) (rnd : R -> R) (x : nat -> C) (r theta : nat -> R) (t : nat) :
  rounding u 0 rnd -> 1e-20 <= u <= 1e-6 -> bw <> 0 -> (forall k, 0 < r k) -> (forall k, x k = RtoC (r k) * cis (theta k))%C ->
  let F := Fn rnd in let step k := sin (theta (S k) - theta k) in
  (let w := r t / r (S t) in Rabs (out (fmd4_step F) (fmd_bandwidth F (mkFmd p s1) bw) x (S t) - w * step t / (PI * bw)) <= 9.5 * u * w / (PI * Rabs bw)) /\
  ((forall k, r k = r 0%nat) -> Rabs (out (fmd5_step F) (fmd5_bandwidth F (mkFmd q s2) bw) x (S (S t)) - (step (S t) + step t) / 2 / (PI * bw)) <= 12.3 * u / (PI * Rabs bw)).
Proof.
  intros HR Hu HB Hr Hx F step. pose proof PI_RGT_0 as PP. assert (B0 : 0 < Rabs bw) by (apply Rabs_pos_lt; auto). split.
  - intros w. pose proof (fmd4_round u rnd HR Hu x r theta Hr Hx bw HB t (mkFmd p s1)) as G. rewrite (Rmult_comm PI), (Rmult_comm PI). exact G.
  - intros Hc. pose proof (fmd5_round u rnd HR Hu x r theta Hr Hx bw HB t (mkFmd q s2) ltac:(rewrite (Hc t), (Hc (S t)); reflexivity) ltac:(rewrite (Hc (S (S t))), (Hc (S t)); reflexivity)) as G. cbv zeta in G.
    replace ((step (S t) + step t) / 2 / (PI * bw)) with ((step (S t) + step t) / (bw * (2 * PI))) by (field; split; lra). eapply Rle_trans; [exact G|]. replace (24.5 * u / (Rabs bw * (2 * PI))) with (24.5 * u / 2 / (PI * Rabs bw)) by (field; split; lra).
    apply Rmult_le_compat_r; [apply Rlt_le, Rinv_0_lt_compat, Rmult_lt_0_compat; lra|]. lra.
Qed.
Print Assumptions C106_sine.

(** A tone of an eighth of the sampling rate, 53 bits without limits on the exponent, an exact arg. *)
Example C106_case : exists argf, arg_within argf 0 /\
  Rabs (out (fmd3_step (Fn (round radix2 (FLX_exp 53) ZnearestE)) argf) (fmd_bandwidth (Fn (round radix2 (FLX_exp 53) ZnearestE)) (mkFmd (RtoC 1) 0) (1 / 2)) (fun k => RtoC 1 * cis (INR k * (PI / 4)))%C 5 - (1 / 2)) <= 2e-15.
Proof.
  destruct C52_arg_exists as (argf & A). assert (W : arg_within argf 0) by (intros z Hz; exists (argf z); split; [apply A; auto|rewrite Rminus_diag_eq, Rabs_R0 by reflexivity; lra]). exists argf. split; [exact W|].
  pose proof C83_flx as HR.
  assert (Eu : bpow radix2 (-53) = / 9007199254740992) by reflexivity. pose proof PI_RGT_0 as PP. assert (P3 : 3.1415 <= PI) by interval.
  destruct (C106_angle (bpow radix2 (-53)) 0 (1 / 2) 0 0 0 (RtoC 1) _ argf (fun k => RtoC 1 * cis (INR k * (PI / 4)))%C (fun _ => 1) (fun k => INR k * (PI / 4)) 4 HR ltac:(rewrite Eu; lra) W ltac:(lra) ltac:(lra) ltac:(intros; lra) ltac:(reflexivity)) as (_ & _ & G).
  cbv zeta in G. replace (INR 5 * (PI / 4) - INR 4 * (PI / 4)) with (PI / 4) in G by (cbn; field). replace (PI / 4 / (PI * (1 / 2))) with (1 / 2) in G by (field; lra). eapply Rle_trans; [apply G|].
  - rewrite Rabs_pos_eq by lra. rewrite Eu. lra.
  - rewrite Eu, (Rabs_pos_eq (1 / 2)) by lra. interval.
Qed.
