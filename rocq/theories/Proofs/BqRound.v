(* Stability of the Biquad designs with rounded coefficients *)
From Coq Require Import Reals ZArith Lia Lra List Psatz.
From Coquelicot Require Import Coquelicot.
From Flocq Require Import Core.
From Interval Require Import Tactic.
From Verif Require Import Model.Biquad Model.UnitCircle Spec.Rounding Spec.ExactConst Proofs.BaseLemmas Proofs.KahanFloat Proofs.SecondOrder Proofs.BiquadProofs Proofs.UcRound Props.PFftRound.
Import ListNotations.
Open Scope R_scope.

Section Gen.
Context (u e : R) (rnd : R -> R) (HR : rounding u e rnd) (Hu : 0 < u <= 1e-5) (He : 0 <= e <= 1e-6 * u).
Lemma re x B : Rabs x <= B -> Rabs (rnd x - x) <= u * B + e.
Proof. intros H. eapply Rle_trans; [apply HR|]. assert (u * Rabs x <= u * B) by (apply Rmult_le_compat_l; lra). lra. Qed.
(** alpha, c' = -2 cn, and what the divisions by a0 leave *)
Lemma tri_round (c s Q : R) : rnd 2 = 2 -> Rabs c <= 1 - 5 * u -> 0.49 <= Q -> 4 * u * Q <= s <= 1.001 ->
  let alpha := rnd (s / rnd (rnd 2 * Q)) in let a0 := rnd (1 + alpha) in
  let A1 := rnd (rnd (- rnd 2 * c) / a0) in let A2 := rnd (rnd (1 - alpha) / a0) in Rabs A2 < 1 /\ Rabs A1 < 1 + A2.
Proof.
  intros R2 Hc HQ Hs. rewrite R2. cbv zeta.
  (* alpha *)
  assert (UQ : 0 <= u * Q <= 1e-5 * Q) by (split; [apply Rmult_le_pos; lra|apply Rmult_le_compat_r; lra]).
  pose proof (re (2 * Q) (2 * Q) ltac:(rewrite Rabs_pos_eq; lra)) as E1. set (q := rnd (2 * Q)) in *. apply Rabs_le_inv in E1.
  assert (Pq : 0.9799 <= q) by lra. assert (Bs : 1.9999 * u <= s / q <= 1.03).
  { split; apply (Rmult_le_reg_r q); try lra; replace (s / q * q) with s by (field; lra).
    - assert (T : 1.9999 * u * q <= 1.9999 * u * (2 * Q + (u * (2 * Q) + e))) by (apply Rmult_le_compat_l; lra).
      assert (u * (u * Q) <= 1e-5 * (u * Q)) by (apply Rmult_le_compat_r; lra). assert (0 <= u * e <= 1e-5 * e) by (split; [apply Rmult_le_pos; lra|apply Rmult_le_compat_r; lra]).
      assert (0.49 * u <= Q * u) by (apply Rmult_le_compat_r; lra). lra.
    - assert (1.03 * 0.9799 <= 1.03 * q) by (apply Rmult_le_compat_l; lra). lra. }
  pose proof (re (s / q) (s / q) ltac:(rewrite Rabs_pos_eq; lra)) as E2. set (sq := s / q) in *. set (al := rnd sq) in *. apply Rabs_le_inv in E2.
  assert (Us : 0 <= u * sq <= 1e-5 * sq) by (split; [apply Rmult_le_pos; lra|apply Rmult_le_compat_r; lra]).
  assert (Bal : 1.9 * u <= al <= 1.031) by lra.
  (* a0, a2, a1 *)
  pose proof (re (1 + al) (1 + al) ltac:(rewrite Rabs_pos_eq; lra)) as E3. set (a0 := rnd (1 + al)) in *. apply Rabs_le_inv in E3.
  pose proof (re (1 - al) 1 ltac:(apply Rabs_le; lra)) as E4. set (a2 := rnd (1 - al)) in *. apply Rabs_le_inv in E4.
  pose proof (Rabs_pos c) as C0. pose proof (re (Ropp 2 * c) 2 ltac:(rewrite Rabs_mult, Rabs_Ropp, (Rabs_pos_eq 2) by lra; lra)) as E5. set (a1 := rnd (Ropp 2 * c)) in *.
  assert (B1 : Rabs a1 <= 2 * Rabs c + (u * 2 + e)) by (replace a1 with (Ropp 2 * c + (a1 - Ropp 2 * c)) by ring; eapply Rle_trans; [apply Rabs_triang|]; rewrite (Rabs_mult (Ropp 2)), Rabs_Ropp, (Rabs_pos_eq 2) by lra; lra).
  assert (Ua : 0 <= u * al <= u * 1.031) by (split; [apply Rmult_le_pos; lra|apply Rmult_le_compat_l; lra]).
  assert (Ub : u * al <= 1e-5 * al) by (apply Rmult_le_compat_r; lra).
  assert (P0 : 0.999 <= a0 <= 2.04) by lra. assert (P2 : -0.04 <= a2 <= 1.0001) by lra. pose proof (Rabs_pos a1) as P1.
  assert (I0 : 0 < / a0) by (apply Rinv_0_lt_compat; lra).
  (* quotients *)
  pose proof (HR (a1 / a0)) as E6. pose proof (HR (a2 / a0)) as E7. set (A1 := rnd (a1 / a0)) in *. set (A2 := rnd (a2 / a0)) in *.
  assert (Q1 : Rabs (a1 / a0) = Rabs a1 / a0) by (unfold Rdiv; rewrite Rabs_mult, Rabs_inv, (Rabs_pos_eq a0) by lra; reflexivity).
  assert (Q2 : Rabs (a2 / a0) <= 1.0001 / a0) by (unfold Rdiv; rewrite Rabs_mult, Rabs_inv, (Rabs_pos_eq a0) by lra; apply Rmult_le_compat_r; [lra|apply Rabs_le; lra]).
  assert (D1 : Rabs A1 <= (1 + u) * (Rabs a1 / a0) + e) by (replace A1 with (a1 / a0 + (A1 - a1 / a0)) by ring; eapply Rle_trans; [apply Rabs_triang|]; rewrite Q1 in *; lra).
  assert (D2 : Rabs (A2 - a2 / a0) <= u * (1.0001 / a0) + e) by (eapply Rle_trans; [exact E7|]; assert (u * Rabs (a2 / a0) <= u * (1.0001 / a0)) by (apply Rmult_le_compat_l; lra); lra).
  apply Rabs_le_inv in D2.
  assert (M1 : (1 + u) * (Rabs a1 / a0) * a0 = (1 + u) * Rabs a1) by (field; lra).
  assert (M2 : a2 / a0 * a0 = a2) by (field; lra). assert (M3 : u * (1.0001 / a0) * a0 = u * 1.0001) by (field; lra).
  assert (Ue : 0 <= u * e <= 1e-5 * e) by (split; [apply Rmult_le_pos; lra|apply Rmult_le_compat_r; lra]). assert (Ea : 0 <= e * a0 <= e * 2.04) by (split; [apply Rmult_le_pos; lra|apply Rmult_le_compat_l; lra]).
  assert (U1 : u * Rabs a1 <= u * 2.001) by (apply Rmult_le_compat_l; lra).
  split.
  - apply Rabs_def1.
    + apply (Rmult_lt_reg_r a0); [lra|]. apply Rle_lt_trans with ((a2 / a0 + (u * (1.0001 / a0) + e)) * a0); [apply Rmult_le_compat_r; lra|].
      replace ((a2 / a0 + (u * (1.0001 / a0) + e)) * a0) with (a2 / a0 * a0 + u * (1.0001 / a0) * a0 + e * a0) by ring. rewrite M2, M3. lra.
    + apply (Rmult_lt_reg_r a0); [lra|]. apply Rlt_le_trans with ((a2 / a0 - (u * (1.0001 / a0) + e)) * a0); [|apply Rmult_le_compat_r; lra].
      replace ((a2 / a0 - (u * (1.0001 / a0) + e)) * a0) with (a2 / a0 * a0 - u * (1.0001 / a0) * a0 - e * a0) by ring. rewrite M2, M3. lra.
  - apply (Rmult_lt_reg_r a0); [lra|]. apply Rle_lt_trans with (((1 + u) * (Rabs a1 / a0) + e) * a0); [apply Rmult_le_compat_r; lra|].
    apply Rlt_le_trans with ((1 + (a2 / a0 - (u * (1.0001 / a0) + e))) * a0); [|apply Rmult_le_compat_r; lra].
    replace (((1 + u) * (Rabs a1 / a0) + e) * a0) with ((1 + u) * (Rabs a1 / a0) * a0 + e * a0) by ring. replace ((1 + (a2 / a0 - (u * (1.0001 / a0) + e))) * a0) with (a0 + a2 / a0 * a0 - u * (1.0001 / a0) * a0 - e * a0) by ring.
    rewrite M1, M2, M3. lra.
Qed.
Definition designs (tr : trig R) (n N : Z) (Q : R) : list (coefs R) := let F := Fn rnd in
  [bq_lowpass F tr n N Q; bq_highpass F tr n N Q; bq_notch_Q F tr n N Q; bq_bandpass_Q F tr n N Q; bq_allpass_Q F tr n N Q].
Lemma designs_stable (tr : trig R) n N Q : rnd 2 = 2 -> Rabs (tcos tr n N) <= 1 - 5 * u -> 0.49 <= Q -> 4 * u * Q <= tsin tr n N <= 1.001 ->
  Forall (fun c => Rabs (a2a0 c) < 1 /\ Rabs (a1a0 c) < 1 + a2a0 c) (designs tr n N Q).
Proof. intros H1 H2 H3 H4. pose proof (tri_round _ _ Q H1 H2 H3 H4) as T. cbv zeta in T. unfold designs. cbv zeta. repeat (apply Forall_cons; [exact T|]). apply Forall_nil. Qed.
End Gen.

Lemma angle_range (y0 t : R) : 0 < y0 < PI / 2 -> y0 <= t <= PI - y0 -> Rabs (cos t) <= cos y0 /\ sin y0 <= sin t.
Proof.
  intros H0 H. pose proof PI_RGT_0. split.
  - apply Rabs_le. split; [rewrite <- Rtrigo_facts.cos_pi_minus|]; apply cos_decr_1; lra.
  - destruct (Rle_dec t (PI / 2)).
    + apply sin_incr_1; lra.
    + replace (sin t) with (sin (PI - t)) by apply Rtrigo_facts.sin_pi_minus. apply sin_incr_1; lra.
Qed.
Lemma designs_uc (u e : R) (rnd : R -> R) (n N : Z) (Q y0 : R) : 0 < u <= 1 / 10000000 -> 0 <= e <= u / 1000000 -> rounding u e rnd -> rnd 2 = 2 ->
  (0 < 2 * n < N)%Z -> (8 * N <= INT_MAX)%Z -> 0.49 <= Q -> 0 < y0 < PI / 2 -> y0 <= 2 * PI * IZR n / IZR N <= PI - y0 ->
  cos y0 <= 1 - (13 * u + 3e-17) -> 4 * u * Q + 8 * u + 3e-17 <= sin y0 ->
  Forall (fun c => Rabs (a2a0 c) < 1 /\ Rabs (a1a0 c) < 1 + a2a0 c) (designs rnd (uc_trig (Fn rnd)) n N Q).
Proof.
  intros Hu He HR R2 Hn HI HQ Hy Ht Hc Hs. destruct (C75_rounded_accuracy u e rnd n N ltac:(lra) He HR ltac:(lia) ltac:(lia) HI) as (c & s & E1 & E2 & A & B).
  destruct (angle_range y0 _ Hy Ht) as (C1 & S1). set (t := 2 * PI * IZR n / IZR N) in *.
  apply (designs_stable u e rnd HR ltac:(lra) ltac:(lra)); auto; cbn [uc_trig tcos tsin]; rewrite ?E1, ?E2.
  - replace c with (cos t + (c - cos t)) by ring. eapply Rle_trans; [apply Rabs_triang|]. lra.
  - apply Rabs_le_inv in B. pose proof (SIN_bound t). lra.
Qed.
Lemma designs_float (n N : Z) (Q : R) : (0 < 2 * n < N)%Z -> (8 * N <= INT_MAX)%Z -> (N <= 4000 * n)%Z -> (N <= 2000 * (N - 2 * n))%Z -> 0.49 <= Q <= 1000 ->
  Forall (fun c => Rabs (a2a0 c) < 1 /\ Rabs (a1a0 c) < 1 + a2a0 c) (designs rnd32 (uc_trig (Fn rnd32)) n N Q).
Proof.
  intros Hn HI H1 H2 HQ. destruct (fmt_range (-24) (-150)) as [Hu He]; try lia. assert (Eu : bpow radix2 (-24) = / 16777216) by reflexivity.
  assert (P3 : 3.1415 <= PI <= 3.1416) by (split; interval).
  apply (designs_uc (bpow radix2 (-24)) (bpow radix2 (-150)) rnd32 n N Q (PI / 2000) ltac:(rewrite Eu; lra) He fmt32); auto; try lra.
  - apply round_generic; auto with typeclass_instances. apply generic_format_FLT. exists (Float radix2 1 1); [unfold F2R; cbn; lra|cbn; lia|cbn; lia].
  - assert (PN : 0 < IZR N) by (apply IZR_lt; lia). apply IZR_le in H1, H2. rewrite mult_IZR in H1. rewrite mult_IZR, minus_IZR, mult_IZR in H2. split; apply (Rmult_le_reg_r (IZR N)); auto; replace (2 * PI * IZR n / IZR N * IZR N) with (2 * PI * IZR n) by (field; lra).
    + assert (PI * IZR N <= PI * (4000 * IZR n)) by (apply Rmult_le_compat_l; lra). lra.
    + assert (PI * IZR N <= PI * (2000 * (IZR N - 2 * IZR n))) by (apply Rmult_le_compat_l; lra). lra.
  - rewrite Eu. interval with (i_prec 100).
  - rewrite Eu. apply Rle_trans with (4 * / 16777216 * 1000 + 8 * / 16777216 + 3e-17); [lra|]. interval with (i_prec 60).
Qed.
Lemma designs_double (n N : Z) (Q : R) : (0 < 2 * n < N)%Z -> (N <= 50000000)%Z -> 0.49 <= Q <= 1e6 ->
  Forall (fun c => Rabs (a2a0 c) < 1 /\ Rabs (a1a0 c) < 1 + a2a0 c) (designs rnd64 (uc_trig (Fn rnd64)) n N Q).
Proof.
  intros Hn HN HQ. destruct (fmt_range (-53) (-1075)) as [Hu He]; try lia. assert (Eu : bpow radix2 (-53) = / 9007199254740992) by reflexivity.
  assert (P3 : 3.1415 <= PI <= 3.1416) by (split; interval).
  apply (designs_uc (bpow radix2 (-53)) (bpow radix2 (-1075)) rnd64 n N Q (PI / 50000000) ltac:(rewrite Eu; lra) He fmt64); auto; try lra.
  - apply round_generic; auto with typeclass_instances. apply generic_format_FLT. exists (Float radix2 1 1); [unfold F2R; cbn; lra|cbn; lia|cbn; lia].
  - unfold INT_MAX. lia.
  - assert (PN : 0 < IZR N) by (apply IZR_lt; lia). assert (N1 : IZR N <= 50000000) by (apply IZR_le; lia). assert (n1 : 1 <= IZR n) by (apply IZR_le; lia).
    assert (n2 : 2 * IZR n + 1 <= IZR N) by (rewrite <- mult_IZR, <- plus_IZR; apply IZR_le; lia).
    split; apply (Rmult_le_reg_r (IZR N)); auto; replace (2 * PI * IZR n / IZR N * IZR N) with (2 * PI * IZR n) by (field; lra).
    + assert (PI * IZR N <= PI * 50000000) by (apply Rmult_le_compat_l; lra). assert (PI * 1 <= PI * IZR n) by (apply Rmult_le_compat_l; lra). lra.
    + assert (PI * IZR N <= PI * 50000000) by (apply Rmult_le_compat_l; lra). assert (PI * (2 * IZR n + 1) <= PI * IZR N) by (apply Rmult_le_compat_l; lra). lra.
  - rewrite Eu. interval with (i_prec 140).
  - rewrite Eu. apply Rle_trans with (4 * / 9007199254740992 * 1e6 + 8 * / 9007199254740992 + 3e-17); [lra|]. interval with (i_prec 80).
Qed.
