(* Theorems about BlockDC (blockdc.hh), EMA and EMACascade (ema.hh), Integrator and Differentiator (calculus.hh),
   Phasor (phasor.hh) *)
From Coq Require Import Reals ZArith Lia Lra List.
From Coquelicot Require Import Coquelicot.
From Interval Require Import Tactic.
From Flocq Require Import Core.
From Verif Require Import Proofs.BaseLemmas Model.Ema Model.Phasor Spec.Iir Spec.Dft Spec.Rounding Proofs.SignalLemmas Proofs.SecondOrder
  Proofs.FftKernels Proofs.BiquadProofs Proofs.Butterworth Proofs.EmaProofs Proofs.PhasorProofs.
Import ListNotations.
Open Scope R_scope.

Notation rblock := (blockdc_step (vreal Rn)).
Notation cblock := (blockdc_step (vcplx Rn)).
Notation rema := (ema_step Rn (vreal Rn)).
Notation cema := (ema_step Rn (vcplx Rn)).
Notation remac := (emac_step Rn (vreal Rn)).
Notation cemac := (emac_step Rn (vcplx Rn)).

(** C45  The answer of a fresh blocker with samples(s) to a constant decays geometrically to zero. *)
Theorem C45_constant (s : Z) (c : R) : (1 <= s)%Z ->
  let y := out rblock (blockdc_samples Rn (blockdc_new Rn (vreal Rn)) s) (fun _ => c) in
  (forall t, y t = c * ((1 + IZR (s - 1) / IZR s) / 2) * (IZR (s - 1) / IZR s) ^ t) /\ is_lim_seq y 0.
Proof.
  intros Hs y. assert (E : forall t, y t = c * ((1 + IZR (s - 1) / IZR s) / 2) * (IZR (s - 1) / IZR s) ^ t) by (intros t; apply (bd_constant s c t Hs)).
  split; auto. pose proof (bd_a_range s Hs) as A. apply (is_lim_seq_ext (fun t => c * ((1 + IZR (s - 1) / IZR s) / 2) * (IZR (s - 1) / IZR s) ^ t)); [intros; rewrite E; auto|].
  replace (Finite 0) with (Rbar_mult (c * ((1 + IZR (s - 1) / IZR s) / 2)) 0) by (cbn; f_equal; ring). apply is_lim_seq_scal_l, is_lim_seq_geom. rewrite Rabs_pos_eq; lra.
Qed.
Print Assumptions C45_constant.
(** C45  From every state: gain 0 at zero frequency, gain 1 at half the sampling rate. *)
Theorem C45_gains (st : blockdc R C) (s : Z) : (1 <= s)%Z ->
  gain_at (out cblock (blockdc_samples Rn st s)) 1 0 /\ gain_at (out cblock (blockdc_samples Rn st s)) (RtoC (-1)) 1.
Proof.
  intros Hs. pose proof (bd_a_range s Hs) as A. set (a := IZR (s - 1) / IZR s) in *. split.
  - pose proof (bd_gain st s 1 Hs (proj1 Cmod_pm1)) as G. cbv zeta in G. fold a in G.
    replace (RtoC ((1 + a) / 2) * (1 - 1) / (1 - RtoC a))%C with (RtoC 0) in G; auto. 
    replace (RtoC 1 - RtoC 1)%C with (RtoC 0) by ring. field. apply (w_minus a 1); [apply Rabs_def1; lra|apply Cmod_pm1].
  - pose proof (bd_gain st s (RtoC (-1)) Hs (proj2 Cmod_pm1)) as G. cbv zeta in G. fold a in G.
    replace (RtoC ((1 + a) / 2) * (RtoC (-1) - 1) / (RtoC (-1) - RtoC a))%C with (RtoC 1) in G; auto.
    rewrite <- !RtoC_minus, <- RtoC_mult, <- RtoC_div by lra. f_equal. field. lra.
Qed.
Print Assumptions C45_gains.
(** C45  The output never exceeds twice the largest input, for every s. *)
Theorem C45_bounded (s : Z) (x : nat -> R) (X : R) (t : nat) : (1 <= s)%Z -> (forall j, Rabs (x j) <= X) ->
  Rabs (out rblock (blockdc_samples Rn (blockdc_new Rn (vreal Rn)) s) x t) <= 2 * X.
Proof. intros. apply bd_bounded; auto. Qed.
Print Assumptions C45_bounded.
(** C45  In any arithmetic, from any state: the difference equation. *)
Theorem C45_equation {T V : Type} (M : vsp T V) (s : blockdc T V) (x : nat -> V) (t : nat) : let y := out (blockdc_step M) s x in
  y t = vadd M (vscale M (bd_b s) (vsub M (x t) (dly (bd_x1 s) x t))) (vscale M (bd_a s) (dly (bd_y1 s) y t)).
Proof. apply bd_equation. Qed.
Print Assumptions C45_equation.
Example C45_example : let y := out rblock (blockdc_samples Rn (blockdc_new Rn (vreal Rn)) 2) (fun _ => 8) in (y 0%nat = 6 /\ y 1%nat = 3 /\ y 2%nat = 3/2).
Proof. cbn. repeat split; field. Qed.

(** C46  Every interval containing the initial value and the inputs contains the outputs: EMA and cascades of any
    order. *)
Theorem C46_between (alpha lo hi : R) (prevs : list R) (x : nat -> R) (t : nat) : 0 <= alpha <= 1 ->
  Forall (fun p => lo <= p <= hi) prevs -> (forall j, (j <= t)%nat -> lo <= x j <= hi) ->
  lo <= out remac (mkEmac prevs alpha) x t <= hi /\ (forall p, lo <= p <= hi -> lo <= out rema (mkEma p alpha) x t <= hi).
Proof.
  intros A F X. assert (Cv : forall a b k, 0 <= k <= 1 -> lo <= a <= hi -> lo <= b <= hi -> lo <= (1 - k) * a + k * b <= hi) by (intros; nra).
  split; [apply (ec_convex (vreal Rn) (fun v => lo <= v <= hi)); auto|]. intros p P. apply (em_convex (vreal Rn) (fun v => lo <= v <= hi)); auto.
Qed.
Print Assumptions C46_between.
(** C46  The same for complex samples and every convex set, for example a disc. *)
Theorem C46_convex (alpha : R) (P : C -> Prop) (prevs : list C) (x : nat -> C) (t : nat) : 0 <= alpha <= 1 ->
  (forall a b k, 0 <= k <= 1 -> P a -> P b -> P (RtoC (1 - k) * a + RtoC k * b)%C) ->
  Forall P prevs -> (forall j, (j <= t)%nat -> P (x j)) ->
  P (out cemac (mkEmac prevs alpha) x t) /\ (forall p, P p -> P (out cema (mkEma p alpha) x t)).
Proof.
  intros A Cv F X. assert (Cv' : forall a b k, 0 <= k <= 1 -> P a -> P b -> P (vadd (vcplx Rn) (vscale (vcplx Rn) (1 - k) a) (vscale (vcplx Rn) k b))).
  { intros [a1 a2] [b1 b2] k K Pa Pb. specialize (Cv _ _ k K Pa Pb). eapply eq_ind; [exact Cv|]. apply injective_projections; cbn; ring. }
  split; [apply (ec_convex (vcplx Rn) P); auto|]. intros p Pp. apply (em_convex (vcplx Rn) P); auto.
Qed.
Print Assumptions C46_convex.
Example C46_disc : forall a b k, 0 <= k <= 1 -> Cmod a <= 1 -> Cmod b <= 1 -> Cmod (RtoC (1 - k) * a + RtoC k * b)%C <= 1.
Proof. intros a b k K A B. eapply Rle_trans; [apply Cmod_triangle|]. rewrite !Cmod_mult, !Cmod_R, !Rabs_pos_eq by lra. nra. Qed.

(** C46  closed form of the weighted average *)
Theorem C46_closed_form (p alpha : R) (x : nat -> R) (t : nat) :
  out rema (mkEma p alpha) x t = (1 - alpha) ^ (S t) * p + alpha * Rsum (S t) (fun j => (1 - alpha) ^ (t - j) * x j).
Proof. apply (em_closed (mkEma p alpha)). Qed.
Print Assumptions C46_closed_form.
(** C46  A cascade is the composition of single averages with the same alpha, in any arithmetic. *)
Theorem C46_cascade {T V : Type} (N : num T) (M : vsp T V) (alpha : T) (p : V) (ps : list V) (x : nat -> V) (t : nat) :
  out (emac_step N M) (mkEmac [] alpha) x t = x t /\
  out (emac_step N M) (mkEmac (p :: ps) alpha) x t = out (emac_step N M) (mkEmac ps alpha) (out (ema_step N M) (mkEma p alpha) x) t.
Proof. rewrite !ec_outs. split; reflexivity. Qed.
Print Assumptions C46_cascade.
(** C46  A constant input is approached from every state. *)
Theorem C46_constant (alpha : R) (prevs : list C) (p k : C) : 0 < alpha <= 1 ->
  approaches (out cemac (mkEmac prevs alpha) (fun _ => k)) (fun _ => k) /\ approaches (out cema (mkEma p alpha) (fun _ => k)) (fun _ => k).
Proof.
  intros A. assert (P : forall t, Cpown (RtoC 1) t = RtoC 1) by (induction t as [|t IH]; cbn; auto; rewrite IH; ring).
  assert (X : approaches (fun _ => k) (fun t => k * Cpown 1 t)%C).
  { unfold approaches. apply (is_lim_seq_ext (fun _ => 0)); [|apply is_lim_seq_const]. intros t. rewrite P. replace (k - k * 1)%C with (RtoC 0) by ring. rewrite Cmod_R, Rabs_R0. reflexivity. }
  assert (G : (RtoC alpha * 1 / (1 - RtoC (1 - alpha)) = 1)%C).
  { rewrite <- RtoC_minus, <- RtoC_mult, <- RtoC_div by lra. f_equal. field. lra. }
  assert (Nz : (1 - RtoC (1 - alpha))%C <> 0%C) by (apply w_minus; [apply Rabs_def1; lra|apply Cmod_pm1]).
  pose proof (ec_gain alpha ltac:(lra) prevs (fun _ => k) k 1 (proj1 Cmod_pm1) X) as G1.
  pose proof (em_gain (mkEma p alpha) (fun _ => k) k 1 ltac:(cbn; lra) (proj1 Cmod_pm1) X) as G2. unfold approaches in *. split.
  - eapply is_lim_seq_ext; [|exact G1]. intros t. cbv beta. rewrite G, !P. f_equal. f_equal. ring.
  - eapply is_lim_seq_ext; [|exact G2]. intros t. cbv beta. cbn [em_alpha]. rewrite G, !P. f_equal. f_equal. ring.
Qed.
Print Assumptions C46_constant.
Example C46_example : out rema (mkEma 0 (1/4)) (fun _ => 1) 1 = 7/16. Proof. cbn. field. Qed.

(** C47  cutoff(n, N) chooses an alpha in (0, 1) ... *)
Theorem C47_alpha (n N : Z) : (0 < 2 * n <= N)%Z -> 0 < cutoff_alpha Rn exact_trig n N < 1.
Proof.
  intros H. assert (A : -1 <= cos (2 * PI * IZR n / IZR N) < 1).
  { split; [apply COS_bound|]. destruct (Z.eq_dec (2 * n) N) as [E|E].
    - replace (2 * PI * IZR n / IZR N) with PI; [rewrite cos_PI; lra|]. rewrite <- E, mult_IZR. field. apply not_0_IZR. lia.
    - apply (exact_ok n N). lia. }
  apply (alpha_range _ A).
Qed.
Print Assumptions C47_alpha.
(** ... for which the power gain at n/N is exactly one half, from every state. *)
Theorem C47_half_power (n N : Z) (e : ema R C) : (0 < 2 * n <= N)%Z ->
  exists g, gain_at (out cema (ema_cutoff Rn exact_trig e n N)) (cis (2 * PI * IZR n / IZR N)) g /\ Cmod g ^ 2 = 1/2.
Proof.
  intros H. pose proof (C47_alpha n N H) as A. set (a := cutoff_alpha Rn exact_trig n N) in *. set (t := 2 * PI * IZR n / IZR N).
  exists (RtoC a * cis t / (cis t - RtoC (1 - a)))%C. split.
  - intros amp. assert (A' : 0 < em_alpha (ema_cutoff Rn exact_trig e n N) < 2) by (change (0 < a < 2); lra).
    pose proof (em_gain (ema_cutoff Rn exact_trig e n N) _ amp (cis t) A' (Cmod_cis t) (approaches_refl _)) as G.
    unfold approaches in *. eapply is_lim_seq_ext; [|exact G]. intros k. cbv beta. change (em_alpha (ema_cutoff Rn exact_trig e n N)) with a. f_equal. f_equal. ring.
  - rewrite ema_power by auto.
    assert (E : a * a + 2 * (1 - cos t) * a = 2 * (1 - cos t)).
    { apply (alpha_range (cos t)). split; [apply COS_bound|]. destruct (Z.eq_dec (2 * n) N) as [E|E].
      - unfold t. replace (2 * PI * IZR n / IZR N) with PI; [rewrite cos_PI; lra|]. rewrite <- E, mult_IZR. field. apply not_0_IZR. lia.
      - apply (exact_ok n N). lia. }
    replace (a * a + 2 * (1 - a) * (1 - cos t)) with (2 * (a * a)) by lra. field. lra.
Qed.
Print Assumptions C47_half_power.
(** C47  At every frequency t the average with alpha has power gain alpha^2 / (alpha^2 + 2 (1-alpha) (1 - cos t)), and
    a cascade its ORDER-th power. *)
Theorem C47_gain (alpha t : R) (prevs : list C) : 0 < alpha < 1 ->
  exists g, gain_at (out cemac (mkEmac prevs alpha)) (cis t) g /\
  Cmod g ^ 2 = (alpha * alpha / (alpha * alpha + 2 * (1 - alpha) * (1 - cos t))) ^ (length prevs).
Proof.
  intros A. exists (Cpown (RtoC alpha * cis t / (cis t - RtoC (1 - alpha)))%C (length prevs)). split.
  - intros amp. pose proof (ec_gain alpha ltac:(lra) prevs _ amp (cis t) (Cmod_cis t) (approaches_refl _)) as G.
    unfold approaches in *. eapply is_lim_seq_ext; [|exact G]. intros k. cbv beta. f_equal. f_equal. ring.
  - rewrite <- ema_power by auto. set (z := (RtoC alpha * cis t / (cis t - RtoC (1 - alpha)))%C).
    assert (E : forall m, Cmod (Cpown z m) = Cmod z ^ m) by (induction m as [|m IH]; cbn; [rewrite Cmod_R, Rabs_R1; auto|rewrite Cmod_mult, IH; auto]).
    rewrite E, <- !pow_mult, Nat.mul_comm. reflexivity.
Qed.
Print Assumptions C47_gain.
(** C47  The table used by EMACascade::cutoff is sqrt(2^(1/ORDER) - 1) *)
Theorem C47_factor (k : nat) : (2 <= k <= 16)%nat -> Rabs (cascade_factor Rn k - sqrt (Rpower 2 (1 / INR k) - 1)) <= 1e-60.
Proof.
  intros H. assert (E : exists j, (j < 15)%nat /\ k = (2 + j)%nat) by (exists (k - 2)%nat; lia). destruct E as (j & J & ->).
  do 15 (destruct j as [|j]; [unfold cascade_factor, Rpower; cbn [nlit Rn INR Nat.add]; interval with (i_prec 260)|]). lia.
Qed.
Print Assumptions C47_factor.
Theorem C47_factor_1 : cascade_factor Rn 1 = sqrt (Rpower 2 (1 / INR 1) - 1).
Proof. cbn. replace (1 / 1) with 1 by field. rewrite Rpower_1 by lra. replace (2 - 1) with 1 by ring. rewrite sqrt_1. reflexivity. Qed.
Print Assumptions C47_factor_1.
Example C47_applies : (0 < 2 * 4 <= 8)%Z. Proof. lia. Qed.

(** C48  Integrator returns the initial value plus the running sum, Differentiator the differences. *)
Theorem C48_sum {A : Type} (add : A -> A -> A) (s : A) (x : nat -> A) (t : nat) :
  out (integrator_step add) s x t = fold_left add (map x (seq 0 (S t))) s.
Proof.
  assert (P : state_at (integrator_step add) s x t = fold_left add (map x (seq 0 t)) s).
  { induction t as [|t IH]; auto. rewrite seq_S, map_app, fold_left_app. cbn [state_at]. rewrite IH. reflexivity. }
  unfold out. rewrite P, seq_S, map_app, fold_left_app. reflexivity.
Qed.
Print Assumptions C48_sum.
Theorem C48_difference {A : Type} (sub : A -> A -> A) (p : A) (x : nat -> A) (t : nat) :
  out (differentiator_step sub) p x t = sub (x t) (dly p x t).
Proof. unfold out. destruct t; reflexivity. Qed.
Print Assumptions C48_difference.
(** C48  Started from the same value, each undoes the other on every history, in every group. *)
Theorem C48_inverse {A : Type} (add sub : A -> A -> A) : (forall a b, sub (add a b) a = b) -> (forall a b, add a (sub b a) = b) ->
  forall (s : A) (x : nat -> A) (t : nat),
  out (differentiator_step sub) s (out (integrator_step add) s x) t = x t /\
  out (integrator_step add) s (out (differentiator_step sub) s x) t = x t.
Proof.
  intros H1 H2 s x t. split.
  - rewrite C48_difference. assert (E : out (integrator_step add) s x t = add (dly s (out (integrator_step add) s x) t) (x t)) by (unfold out at 1; destruct t; reflexivity).
    rewrite E. apply H1.
  - induction t as [|t IH].
    + unfold out at 1. cbn. apply H2.
    + assert (E : out (integrator_step add) s (out (differentiator_step sub) s x) (S t) = add (out (integrator_step add) s (out (differentiator_step sub) s x) t) (out (differentiator_step sub) s x (S t))) by reflexivity.
      rewrite E, IH, C48_difference. cbn [dly]. apply H2.
Qed.
Print Assumptions C48_inverse.
(** exact arithmetic, and unsigned integers of any width: the values 0 .. 2^w - 1 with wrap-around *)
Example C48_reals : (forall a b, Rminus (a + b) a = b) /\ (forall a b, a + Rminus b a = b). Proof. split; intros; ring. Qed.
Theorem C48_unsigned (w s : Z) (x : nat -> Z) (t : nat) : (0 <= w)%Z -> (0 <= s < 2 ^ w)%Z -> (forall j, 0 <= x j < 2 ^ w)%Z ->
  let add a b := ((a + b) mod 2 ^ w)%Z in let sub a b := ((a - b) mod 2 ^ w)%Z in
  out (differentiator_step sub) s (out (integrator_step add) s x) t = x t /\
  out (integrator_step add) s (out (differentiator_step sub) s x) t = x t.
Proof.
  intros Hw Hs Hx add sub. assert (P : (0 < 2 ^ w)%Z) by (apply Z.pow_pos_nonneg; lia). split.
  - rewrite C48_difference. assert (E : out (integrator_step add) s x t = add (dly s (out (integrator_step add) s x) t) (x t)) by (unfold out at 1; destruct t; reflexivity).
    rewrite E. set (d := dly s _ t). unfold sub, add. rewrite Zminus_mod_idemp_l. replace (d + x t - d)%Z with (x t) by ring. apply Z.mod_small. auto.
  - assert (A : forall a b, (0 <= b < 2 ^ w)%Z -> add a (sub b a) = b).
    { intros a b Hb. unfold add, sub. rewrite Zplus_mod_idemp_r. replace (a + (b - a))%Z with b by ring. apply Z.mod_small. auto. }
    induction t as [|t IH].
    + unfold out at 1. cbn. apply A. auto.
    + assert (E : out (integrator_step add) s (out (differentiator_step sub) s x) (S t) = add (out (integrator_step add) s (out (differentiator_step sub) s x) t) (out (differentiator_step sub) s x (S t))) by reflexivity.
      rewrite E, IH, C48_difference. cbn [dly]. apply A. auto.
Qed.
Print Assumptions C48_unsigned.
Example C48_example : out (integrator_step Z.add) 10%Z (fun t => Z.of_nat t) 4 = 20%Z. Proof. reflexivity. Qed.

(** C49  In exact arithmetic, after reset() call t returns exp(i t a), a the angle of delta, whatever positive modulus
    delta has. *)
Theorem C49_rotation (r a : R) (prev : C) (x : nat -> unit) (t : nat) : 0 < r ->
  out (phasor_step Rn) (phasor_reset Rn (mkPhasor prev (RtoC r * cis a)%C)) x t = cis (INR t * a).
Proof.
  intros Hr. assert (D : (RtoC r * cis a <> 0)%C).
  { intros E. apply (f_equal Cmod) in E. rewrite Cmod_mult, Cmod_cis, Cmod_R, Cmod_0, Rabs_pos_eq in E by lra. lra. }
  destruct (phasor_states (RtoC r * cis a)%C x t D) as [S _]. unfold phasor_reset. cbn [ph_delta]. unfold out. change (cmk (n1 Rn) (n0 Rn)) with (RtoC 1). rewrite S.
  cbn [phasor_step snd ph_prev]. rewrite <- Cpown_cis. f_equal. rewrite Cmod_mult, Cmod_cis, Cmod_R, Rabs_pos_eq by lra. rewrite Rmult_1_r. field.
  intros E. apply RtoC_inj in E. lra.
Qed.
Print Assumptions C49_rotation.
(** C49  omega(n, N) makes N-periodic samples of the circle, omega(v) and freq(f) advance by v and 2 pi f. *)
Theorem C49_omega (p : phasor R) (x : nat -> unit) (n N : Z) (t : nat) : (0 < N)%Z ->
  let y := out (phasor_step Rn) (phasor_reset Rn (phasor_omega exact_trig p n N)) x in
  y t = cis (2 * PI * IZR n * INR t / IZR N) /\ y (t + Z.to_nat N)%nat = y t.
Proof.
  intros HN y. assert (E : forall t, y t = cis (INR t * (2 * PI * IZR n / IZR N))).
  { intros k. rewrite <- (C49_rotation 1 (2 * PI * IZR n / IZR N) (ph_prev p) x k) by lra. unfold y. f_equal.
    unfold phasor_omega, phasor_reset. cbn [ph_delta ph_prev]. f_equal. unfold cis. apply injective_projections; cbn; ring. }
  assert (Np : IZR N <> 0) by (apply not_0_IZR; lia). split.
  - rewrite E. f_equal. field. auto.
  - rewrite !E. rewrite plus_INR, INR_IZR_INZ, (INR_IZR_INZ (Z.to_nat N)), Z2Nat.id by lia.
    replace ((IZR (Z.of_nat t) + IZR N) * (2 * PI * IZR n / IZR N)) with (IZR (Z.of_nat t) * (2 * PI * IZR n / IZR N) + 2 * IZR n * PI) by (field; auto).
    unfold cis. rewrite cos_period_Z, sin_period_Z || idtac.
    destruct (Z_le_gt_dec 0 n) as [Hn|Hn].
    + replace n with (Z.of_nat (Z.to_nat n)) by lia. rewrite <- (INR_IZR_INZ (Z.to_nat n)). rewrite cos_period, sin_period. reflexivity.
    + set (b := IZR (Z.of_nat t) * (2 * PI * IZR n / IZR N)). 
      rewrite <- (cos_period (b + 2 * IZR n * PI) (Z.to_nat (- n))), <- (sin_period (b + 2 * IZR n * PI) (Z.to_nat (- n))).
      rewrite INR_IZR_INZ, Z2Nat.id, opp_IZR by lia. replace (b + 2 * IZR n * PI + 2 * - IZR n * PI) with b by ring. reflexivity.
Qed.
Print Assumptions C49_omega.
Theorem C49_freq (p : phasor R) (x : nat -> unit) (v f : R) (t : nat) :
  out (phasor_step Rn) (phasor_reset Rn (phasor_omega_rad cos sin p v)) x t = cis (INR t * v) /\
  out (phasor_step Rn) (phasor_reset Rn (phasor_freq Rn cos sin p f)) x t = cis (INR t * (TwoPi Rn * f)).
Proof.
  assert (E : forall v, out (phasor_step Rn) (phasor_reset Rn (phasor_omega_rad cos sin p v)) x t = cis (INR t * v)).
  { intros k. rewrite <- (C49_rotation 1 k (ph_prev p) x t) by lra. f_equal. unfold phasor_omega_rad, phasor_reset. cbn [ph_delta]. f_equal. unfold cis. apply injective_projections; cbn; ring. }
  split; apply E.
Qed.
Print Assumptions C49_freq.
(** C49  With rounded arithmetic the modulus of the returned values never drifts: it stays within 4 u of one after any
    number of calls, u being the relative rounding error. *)
Theorem C49_no_drift (u e : R) (rnd : R -> R) (delta : C) (x : nat -> unit) (t : nat) :
  rounding u e rnd -> 0 <= u <= 1/100 -> 0 <= e <= u / 1000 -> 1/2 <= Cmod delta <= 2 ->
  1 - 4 * u <= Cmod (out (phasor_step (Fn rnd)) (mkPhasor (RtoC 1) delta) x t) <= 1 + 4 * u.
Proof. intros. eapply no_drift; eauto. Qed.
Print Assumptions C49_no_drift.
(** binary32, rounding to nearest even with gradual underflow *)
Example C49_no_drift_float (delta : C) (x : nat -> unit) (t : nat) : 1/2 <= Cmod delta <= 2 ->
  Rabs (Cmod (out (phasor_step (Fn (round radix2 (FLT_exp (-149) 24) ZnearestE))) (mkPhasor (RtoC 1) delta) x t) - 1) <= bpow radix2 (-22).
Proof.
  intros D. pose proof (flt_rounding (-149) 24 (fun x => negb (Z.even x)) ltac:(lia) ltac:(lia)) as R.
  pose proof (C49_no_drift _ _ _ delta x t R) as H. 
  assert (U : bpow radix2 (- (24)) = / 16777216) by (cbn; lra).
  assert (E : 0 <= bpow radix2 (-149 - 1) <= bpow radix2 (-40)) by (split; [apply bpow_ge_0|apply bpow_le; lia]).
  assert (E' : bpow radix2 (-40) = / 1099511627776) by (cbn; lra). assert (U2 : bpow radix2 (-22) = / 4194304) by (cbn; lra).
  rewrite U, E' in *. rewrite U2. specialize (H ltac:(lra) ltac:(lra) D). apply Rabs_le. lra.
Qed.
