(** Sensitivity of the exponential moving average to its factor, and a lower bound of the exact factor (for C107). *)
From Coq Require Import Reals ZArith Lia Lra List Psatz.
From Flocq Require Import Core.
From Verif Require Import Model.UnitCircle Proofs.FftKernels Model.Ema Model.Signal Spec.Rounding Spec.Dft Proofs.BaseLemmas Proofs.KahanFloat Proofs.KaiserRound Proofs.UcRound Proofs.EmaRound.
Import ListNotations.
Open Scope R_scope.

(** two exact averages with different factors *)
Lemma ema_sens (a b p0 X : R) (x : nat -> R) : 0 < a <= 1 -> 0 < b <= 1 -> Rabs p0 <= X -> (forall t, Rabs (x t) <= X) -> forall t,
  let A := state_at (ema_step Rn (vreal Rn)) (mkEma p0 a) x t in let B := state_at (ema_step Rn (vreal Rn)) (mkEma p0 b) x t in
  em_alpha A = a /\ em_alpha B = b /\ Rabs (em_prev A) <= X /\ Rabs (em_prev B) <= X /\ Rabs (em_prev B - em_prev A) <= 2 * X * Rabs (b - a) / a.
Proof.
  intros Ha Hb Hp Hx. pose proof (Rabs_pos (b - a)) as D0. assert (X0 : 0 <= X) by (pose proof (Rabs_pos p0); lra).
  assert (Q0 : 0 <= 2 * X * Rabs (b - a) / a) by (apply Rmult_le_pos; [apply Rmult_le_pos; lra|apply Rlt_le, Rinv_0_lt_compat; lra]).
  induction t as [|t (E1 & E2 & P1 & P2 & D)]; cbn [state_at].
  - cbn [em_alpha em_prev]. rewrite Rminus_eq_0, Rabs_R0. repeat split; auto; lra.
  - set (sa := state_at (ema_step Rn (vreal Rn)) (mkEma p0 a) x t) in *. set (sb := state_at (ema_step Rn (vreal Rn)) (mkEma p0 b) x t) in *.
    unfold ema_step, lerp. cbn [fst em_alpha em_prev vadd vscale vreal nadd nmul nsub n1 Rn]. rewrite E1, E2. split; [auto|]. split; [auto|]. specialize (Hx t).
    assert (CV : forall c p, 0 < c <= 1 -> Rabs p <= X -> Rabs ((1 - c) * p + c * x t) <= X).
    { intros c p Hc HP. eapply Rle_trans; [apply Rabs_triang|]. rewrite !Rabs_mult, (Rabs_pos_eq (1 - c)), (Rabs_pos_eq c) by lra. assert ((1 - c) * Rabs p <= (1 - c) * X) by (apply Rmult_le_compat_l; lra). assert (c * Rabs (x t) <= c * X) by (apply Rmult_le_compat_l; lra). lra. }
    split; [auto|]. split; [auto|].
    replace ((1 - b) * em_prev sb + b * x t - ((1 - a) * em_prev sa + a * x t)) with ((1 - a) * (em_prev sb - em_prev sa) + (b - a) * (x t - em_prev sb)) by ring.
    eapply Rle_trans; [apply Rabs_triang|]. rewrite !Rabs_mult, (Rabs_pos_eq (1 - a)) by lra.
    assert (Rabs (x t - em_prev sb) <= 2 * X) by (unfold Rminus; eapply Rle_trans; [apply Rabs_triang|]; rewrite Rabs_Ropp; lra).
    assert (Rabs (b - a) * Rabs (x t - em_prev sb) <= Rabs (b - a) * (2 * X)) by (apply Rmult_le_compat_l; auto).
    set (K := 2 * X * Rabs (b - a) / a) in *. assert ((1 - a) * Rabs (em_prev sb - em_prev sa) <= (1 - a) * K) by (apply Rmult_le_compat_l; lra).
    assert (a * K = Rabs (b - a) * (2 * X)) by (unfold K; field; lra). lra.
Qed.

(** the exact factor is at least 4/5 of sin(pi n / N) *)
Lemma alpha_low n N : (0 < n < N)%Z -> let s := sin (PI * IZR n / IZR N) in 0 < s <= 1 /\ 4 / 5 * s <= cutoff_alpha Rn exact_trig n N <= 1.
Proof.
  intros Hn s. assert (n0 : 0 < IZR n < IZR N) by (split; apply IZR_lt; lia). pose proof PI_RGT_0 as PI0.
  assert (S : 0 < s). { apply sin_gt_0; [apply Rmult_lt_0_compat; [apply Rmult_lt_0_compat; lra|apply Rinv_0_lt_compat; lra]|]. apply (Rmult_lt_reg_r (IZR N)); [lra|]. unfold Rdiv. rewrite Rmult_assoc, Rinv_l by lra. rewrite Rmult_1_r. apply Rmult_lt_compat_l; lra. }
  assert (S1 : s <= 1) by apply SIN_bound. split; [lra|].
  unfold cutoff_alpha. cbn [tcos exact_trig nadd nsub nmul nsqrt nofZ n1 Rn].
  replace (cos (2 * PI * IZR n / IZR N)) with (1 - 2 * s * s). 2:{ replace (2 * PI * IZR n / IZR N) with (2 * (PI * IZR n / IZR N)) by (field; lra). symmetry. apply cos_2a_sin. }
  replace ((1 - 2 * s * s) * (1 - 2 * s * s - 4) + 3) with ((2 * s) ^ 2 * (1 + s * s)) by ring. rewrite sqrt_mult_alt by apply pow2_ge_0. rewrite sqrt_pow2 by lra.
  set (r := sqrt (1 + s * s)). assert (r0 : 0 <= r) by apply sqrt_pos. assert (rr : r * r = 1 + s * s) by (apply sqrt_sqrt; nra).
  assert (K : 2 / 5 <= r - s) by nra. assert (K2 : r <= 1 + s) by nra. assert (K3 : 2 * s * (r - s) <= 1) by nra. split; [|lra].
  replace (1 - 2 * s * s - 1 + 2 * s * r) with (2 * s * (r - s)) by ring. assert (2 * s * (2 / 5) <= 2 * s * (r - s)) by (apply Rmult_le_compat_l; lra). lra.
Qed.
