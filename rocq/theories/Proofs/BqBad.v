(* highpass(1, 48000) with the coefficients of float *)
From Coq Require Import Reals ZArith Lia Lra List Psatz.
From Coquelicot Require Import Coquelicot.
From Flocq Require Import Core.
From Interval Require Import Tactic.
From Verif Require Import Model.Biquad Model.UnitCircle Spec.Rounding Spec.Iir Proofs.BaseLemmas Proofs.SecondOrder Proofs.BiquadProofs Props.PFftRound.
Import ListNotations.
Open Scope R_scope.

(** the binary32 number next to x is m / 2^k *)
Lemma rnd32_eq (m p k : Z) (x : R) : (0 <= k <= 149)%Z -> p = (2 ^ k)%Z -> 8388608 <= x * IZR p < 16777216 -> Rabs (x * IZR p - IZR m) < / 2 -> rnd32 x = IZR m / IZR p.
Proof.
  intros Hk -> HB HM. assert (P : IZR (2 ^ k) = bpow radix2 k) by (apply (IZR_Zpower radix2); lia). rewrite P in *. pose proof (bpow_gt_0 radix2 k) as K0.
  assert (I : bpow radix2 k * bpow radix2 (- k) = 1) by (rewrite <- bpow_plus; replace (k + - k)%Z with 0%Z by lia; reflexivity). pose proof (bpow_gt_0 radix2 (- k)) as K1.
  assert (M : mag radix2 x = (24 - k)%Z :> Z).
  { apply mag_unique_pos. replace (24 - k - 1)%Z with (23 + - k)%Z by lia. replace (24 - k)%Z with (24 + - k)%Z by lia. rewrite !bpow_plus. change (bpow radix2 23) with 8388608. change (bpow radix2 24) with 16777216.
    replace x with (x * bpow radix2 k * bpow radix2 (- k)) by (rewrite Rmult_assoc, I; ring). split; [apply Rmult_le_compat_r; lra|apply Rmult_lt_compat_r; lra]. }
  unfold rnd32, round, scaled_mantissa, cexp, FLT_exp, F2R. rewrite M. replace (Z.max (24 - k - 24) (-149)) with (- k)%Z by lia. cbn [Fnum Fexp]. rewrite Z.opp_involutive, (Znearest_imp _ _ m HM).
  unfold Rdiv. f_equal. rewrite <- (Rmult_1_l (/ _)), <- I. field. lra.
Qed.
Lemma u32 : rounding (/ 16777216) (bpow radix2 (-150)) rnd32. Proof. exact fmt32. Qed.
Lemma e32 : 0 <= bpow radix2 (-150) <= 1e-30.
Proof. split; [apply bpow_ge_0|]. apply Rle_trans with (bpow radix2 (-100)); [apply bpow_le; lia|]. replace (bpow radix2 (-100)) with (/ IZR 1267650600228229401496703205376) by reflexivity. interval. Qed.
(** a step of the Horner scheme stays below 1 *)
Lemma horner_step xx v a : 0 <= xx <= 1e-3 -> Rabs v <= 1 -> Rabs a <= 0.9 -> Rabs (rnd32 (rnd32 (xx * v) + rnd32 a)) <= 1.
Proof.
  intros Hx Hv Ha. pose proof e32 as E. assert (X : Rabs (xx * v) <= 1e-3 * 1) by (rewrite Rabs_mult, (Rabs_pos_eq xx) by lra; apply Rmult_le_compat; try apply Rabs_pos; lra).
  pose proof (u32 (xx * v)) as E1. pose proof (u32 a) as E2. set (p := rnd32 (xx * v)) in *. set (b := rnd32 a) in *. pose proof (u32 (p + b)) as E3.
  assert (Rabs p <= 1.1e-3) by (replace p with (xx * v + (p - xx * v)) by ring; eapply Rle_trans; [apply Rabs_triang|]; lra).
  assert (Rabs b <= 0.91) by (replace b with (a + (b - a)) by ring; eapply Rle_trans; [apply Rabs_triang|]; lra). pose proof (Rabs_triang p b).
  replace (rnd32 (p + b)) with ((p + b) + (rnd32 (p + b) - (p + b))) by ring. eapply Rle_trans; [apply Rabs_triang|]. lra.
Qed.
Lemma rnd32_1 : rnd32 1 = 1. Proof. rewrite (rnd32_eq 8388608 8388608 23); try lia; try reflexivity; try (rewrite Rabs_pos_eq; lra); lra. Qed.
(** numbers next to 1 *)
Lemma rnd32_near1 p : - 2.9e-8 <= p <= 5.9e-8 -> rnd32 (1 + p) = 1.
Proof.
  intros H. destruct (Rle_dec 0 p).
  - rewrite (rnd32_eq 8388608 8388608 23); try lia; try reflexivity; [lra|lra|apply Rabs_def1; lra].
  - rewrite (rnd32_eq 16777216 16777216 24); try lia; try reflexivity; [lra|lra|apply Rabs_def1; lra].
Qed.
Lemma lit1 : rnd32 uc_a1 = 1. Proof. unfold uc_a1. replace 1.0 with 1 by lra. apply rnd32_1. Qed.
Definition th : R := 8995359 / 68719476736.
Lemma rad_th : uc_rad (Fn rnd32) 1 48000 = th.
Proof.
  unfold uc_rad, TwoPi. cbn [nlit nmul ndiv nofZ Fn]. rewrite rnd32_1, Rmult_1_r. unfold th.
  rewrite (rnd32_eq 13176795 2097152 21 TwoPi_lit); try lia; try reflexivity; [|unfold TwoPi_lit; lra|unfold TwoPi_lit; apply Rabs_def1; lra].
  rewrite (rnd32_eq 12288000 256 8 48000); try lia; try reflexivity; [|lra|apply Rabs_def1; lra].
  rewrite (rnd32_eq 13176795 2097152 21 (13176795 / 2097152)); try lia; try reflexivity; [|lra|apply Rabs_def1; lra].
  replace (12288000 / 256) with 48000 by lra.
  apply (rnd32_eq 8995359 68719476736 36); [lia|reflexivity|lra|apply Rabs_def1; lra].
Qed.
Lemma th_range : 1.3e-4 <= th <= 1.31e-4. Proof. unfold th; lra. Qed.
Definition xx0 : R := rnd32 (th * th).
Lemma xx_range : 1.6e-8 <= xx0 <= 1.8e-8.
Proof. pose proof th_range as T. pose proof e32. pose proof (u32 (th * th)) as E. assert (X : 1.69e-8 <= th * th <= 1.7161e-8) by (split; [apply Rle_trans with (1.3e-4 * 1.3e-4); [lra|apply Rmult_le_compat; lra]|apply Rle_trans with (1.31e-4 * 1.31e-4); [apply Rmult_le_compat; lra|lra]]).
  rewrite (Rabs_pos_eq (th * th)) in E by lra. apply Rabs_le_inv in E. unfold xx0. lra. Qed.
Lemma prod_small v : Rabs v <= 1 -> Rabs (rnd32 (xx0 * v)) <= 1.9e-8.
Proof.
  intros Hv. pose proof xx_range as X. pose proof e32. assert (P : Rabs (xx0 * v) <= 1.8e-8 * 1) by (rewrite Rabs_mult, (Rabs_pos_eq xx0) by lra; apply Rmult_le_compat; try apply Rabs_pos; lra).
  pose proof (u32 (xx0 * v)) as E1. replace (rnd32 (xx0 * v)) with ((xx0 * v) + (rnd32 (xx0 * v) - xx0 * v)) by ring. eapply Rle_trans; [apply Rabs_triang|]. lra.
Qed.
Ltac hs := apply horner_step; [pose proof xx_range; lra| |apply Rabs_le; unfold uc_a2, uc_a4, uc_a6, uc_a8, uc_a10, uc_a12, uc_a3, uc_a5, uc_a7, uc_a9, uc_a11; lra].
Lemma lit_small a : Rabs a <= 0.9 -> Rabs (rnd32 a) <= 1.
Proof. intros H. pose proof (u32 a) as E. pose proof e32. replace (rnd32 a) with (a + (rnd32 a - a)) by ring. eapply Rle_trans; [apply Rabs_triang|]. lra. Qed.
Lemma cos_1 : cosine_approx (Fn rnd32) th = 1.
Proof.
  unfold cosine_approx, cosine_kernel. cbn [nmul nadd nlit Fn]. fold xx0. rewrite lit1. apply rnd32_near1. set (v := rnd32 (_ + rnd32 uc_a2)). assert (V : Rabs v <= 1) by (unfold v; hs; hs; hs; hs; hs; hs; apply lit_small, Rabs_le; unfold uc_a14; lra).
  pose proof (prod_small v V) as P. apply Rabs_le_inv in P. lra.
Qed.
Lemma sin_th : sine_approx (Fn rnd32) th = th.
Proof.
  unfold sine_approx, sine_kernel. cbn [nmul nadd nlit Fn]. fold xx0. rewrite lit1. set (v := rnd32 (_ + rnd32 uc_a3)). assert (V : Rabs v <= 1) by (unfold v; hs; hs; hs; hs; hs; apply lit_small, Rabs_le; unfold uc_a13; lra).
  pose proof (prod_small v V) as P. apply Rabs_le_inv in P. rewrite Rplus_comm, rnd32_near1, Rmult_1_r by lra. unfold th. apply (rnd32_eq 8995359 68719476736 36); try lia; try reflexivity; [lra|apply Rabs_def1; lra].
Qed.
Lemma uc_1_48000 : uc_cos (Fn rnd32) 1 48000 = Ok 1 /\ uc_sin (Fn rnd32) 1 48000 = Ok th.
Proof. split; (unfold uc_cos + unfold uc_sin); unfold uc_lt, uc_arg; cbn [Z.mul]; repeat (rewrite ichk_ok by (unfold INT_MIN, INT_MAX; lia); cbn [bind]); cbn -[cosine_approx sine_approx Fn uc_rad]; rewrite rad_th, ?cos_1, ?sin_th; reflexivity. Qed.

Lemma rnd32_opp x : rnd32 (- x) = - rnd32 x. Proof. apply round_NE_opp. Qed.
Definition hp : coefs R := bq_highpass (Fn rnd32) (uc_trig (Fn rnd32)) 1 48000 (InvSqrtTwo (Fn rnd32)).
Ltac r32 m p k := rewrite (rnd32_eq m p k); [|lia|reflexivity|lra|apply Rabs_def1; lra].
Lemma hp_coefs : hp = mkCoefs (16775664 / 16777216) (Ropp (16775664 / 8388608)) (16775664 / 16777216) (Ropp (16775664 / 8388608)) (16774111 / 16777216).
Proof.
  unfold hp, bq_highpass, bq_div. cbn [uc_trig tcos tsin]. destruct uc_1_48000 as [-> ->]. unfold InvSqrtTwo. cbn [nlit nadd nsub nmul ndiv nofZ nopp n1 n0 Fn].
  assert (L : rnd32 InvSqrtTwo_lit = 11863283 / 16777216) by (unfold InvSqrtTwo_lit; r32 11863283%Z 16777216%Z 24%Z; reflexivity). rewrite L. clear L.
  assert (R2 : rnd32 2 = 2) by (r32 8388608%Z 4194304%Z 22%Z; lra). rewrite R2.
  assert (A1 : rnd32 (2 * (11863283 / 16777216)) = 11863283 / 8388608) by (r32 11863283%Z 8388608%Z 23%Z; reflexivity). rewrite A1. clear A1.
  assert (A2 : rnd32 (th / (11863283 / 8388608)) = 12721359 / 137438953472).
  { unfold th. replace (8995359 / 68719476736 / (11863283 / 8388608)) with (8995359 / (11863283 * 8192)) by field. r32 12721359%Z 137438953472%Z 37%Z. reflexivity. }
  rewrite A2. clear A2.
  assert (A3 : rnd32 (1 + 12721359 / 137438953472) = 8389384 / 8388608) by (r32 8389384%Z 8388608%Z 23%Z; reflexivity). rewrite A3. clear A3.
  assert (A4 : rnd32 (1 - 12721359 / 137438953472) = 16775663 / 16777216) by (r32 16775663%Z 16777216%Z 24%Z; reflexivity). rewrite A4. clear A4.
  replace (1 + 1) with 2 by ring. rewrite ?R2. replace (2 / 2) with 1 by field. rewrite ?Rmult_1_r, ?rnd32_opp, ?R2, ?rnd32_1.
  assert (D1 : rnd32 (1 / (8389384 / 8388608)) = 16775664 / 16777216).
  { replace (1 / (8389384 / 8388608)) with (8388608 / 8389384) by field. r32 16775664%Z 16777216%Z 24%Z. reflexivity. }
  assert (D2 : rnd32 (Ropp 2 / (8389384 / 8388608)) = Ropp (16775664 / 8388608)).
  { replace (Ropp 2 / (8389384 / 8388608)) with (Ropp (16777216 / 8389384)) by field. rewrite rnd32_opp. r32 16775664%Z 8388608%Z 23%Z. reflexivity. }
  assert (D3 : rnd32 (16775663 / 16777216 / (8389384 / 8388608)) = 16774111 / 16777216).
  { replace (16775663 / 16777216 / (8389384 / 8388608)) with (16775663 / (2 * 8389384)) by field. r32 16774111%Z 16777216%Z 24%Z. reflexivity. }
  rewrite D1, D3. f_equal; exact D2.
Qed.

(** a second-order recursion with a root above 1 has an unbounded impulse response *)
Definition pulse (t : nat) : R := match t with O => 1 | _ => 0 end.
Section Diverge.
Variables (c : coefs R) (z1 z2 : R).
Hypothesis (S1 : z1 + z2 = - a1a0 c) (P1 : z1 * z2 = a2a0 c) (G : 1 < z1).
Hypothesis (B : b0a0 c * z1 * z1 + b1a0 c * z1 + b2a0 c <> 0).
Let y := out (biquad_step (vreal Rn)) (biquad_set (biquad_new Rn (vreal Rn)) c) pulse.
Let eq t : y t = b0a0 c * pulse t + b1a0 c * dly 0 pulse t + b2a0 c * dly 0 (dly 0 pulse) t - a1a0 c * dly 0 y t - a2a0 c * dly 0 (dly 0 y) t.
Proof. apply (bq_equation (vreal Rn) (biquad_set (biquad_new Rn (vreal Rn)) c) pulse t). Qed.
Lemma mode t : y (2 + t)%nat - z2 * y (1 + t)%nat = (b0a0 c * z1 * z1 + b1a0 c * z1 + b2a0 c) * z1 ^ t.
Proof.
  pose proof (eq 0) as E0. pose proof (eq 1) as E1. pose proof (eq 2) as E2. cbn [dly pulse] in E0, E1, E2.
  replace (a1a0 c) with (- (z1 + z2)) in E0, E1, E2 by lra. rewrite <- P1 in E0, E1, E2.
  induction t as [|t IH].
  - cbn [Nat.add pow]. rewrite E2, E1, E0. ring.
  - pose proof (eq (3 + t)%nat) as E3. cbn [dly pulse Nat.add] in E3. cbn [Nat.add pow] in *. replace (a1a0 c) with (- (z1 + z2)) in E3 by lra. rewrite <- P1 in E3. rewrite E3.
    replace ((b0a0 c * z1 * z1 + b1a0 c * z1 + b2a0 c) * (z1 * z1 ^ t)) with (z1 * ((b0a0 c * z1 * z1 + b1a0 c * z1 + b2a0 c) * z1 ^ t)) by ring. rewrite <- IH. ring.
Qed.
Lemma diverges (K : R) : exists t, K < Rabs (y t).
Proof.
  set (b := b0a0 c * z1 * z1 + b1a0 c * z1 + b2a0 c) in *. pose proof (Rabs_pos_lt b B) as Hb. pose proof (Rabs_pos z2) as Z0.
  destruct (Pow_x_infinity z1 ltac:(rewrite Rabs_pos_eq; lra) ((1 + Rabs z2) * (Rabs K + 1) / Rabs b)) as (n & Hn). specialize (Hn n (le_n n)).
  assert (L : (1 + Rabs z2) * (Rabs K + 1) <= Rabs (y (2 + n)%nat - z2 * y (1 + n)%nat)).
  { rewrite mode. fold b. rewrite Rabs_mult. apply Rge_le in Hn. apply (Rmult_le_compat_l (Rabs b)) in Hn; [|lra]. replace (Rabs b * ((1 + Rabs z2) * (Rabs K + 1) / Rabs b)) with ((1 + Rabs z2) * (Rabs K + 1)) in Hn by (field; lra). exact Hn. }
  pose proof (Rle_abs K) as K0.
  destruct (Rlt_dec K (Rabs (y (2 + n)%nat))) as [|A]; [eexists; eassumption|]. destruct (Rlt_dec K (Rabs (y (1 + n)%nat))) as [|A']; [eexists; eassumption|]. exfalso.
  assert (Rabs (y (2 + n)%nat - z2 * y (1 + n)%nat) <= Rabs K + Rabs z2 * Rabs K).
  { replace (y (2 + n)%nat - z2 * y (1 + n)%nat) with (y (2 + n)%nat + - (z2 * y (1 + n)%nat)) by ring. eapply Rle_trans; [apply Rabs_triang|]. rewrite Rabs_Ropp, Rabs_mult. apply Rplus_le_compat; [lra|]. apply Rmult_le_compat_l; lra. }
  lra.
Qed.
End Diverge.
Lemma hp_root : exists z1 z2, z1 + z2 = - a1a0 hp /\ z1 * z2 = a2a0 hp /\ 1 < z1.
Proof.
  rewrite hp_coefs. cbn [a1a0 a2a0]. set (p := 16775664 / 16777216). set (D := p * p - 16774111 / 16777216).
  assert (D0 : (1 - p) * (1 - p) < D) by (unfold D, p; lra). assert (P : p < 1) by (unfold p; lra).
  assert (Q : 1 - p < sqrt D). { rewrite <- (sqrt_square (1 - p)) by lra. apply sqrt_lt_1; [apply Rle_0_sqr| |exact D0]. pose proof (Rle_0_sqr (1 - p)) as S0. unfold Rsqr in S0. lra. }
  assert (SS : sqrt D * sqrt D = D) by (apply sqrt_sqrt; pose proof (Rle_0_sqr (1 - p)) as S0; unfold Rsqr in S0; lra).
  exists (p + sqrt D), (p - sqrt D). split; [unfold p; lra|]. split; [|lra].
  replace ((p + sqrt D) * (p - sqrt D)) with (p * p - sqrt D * sqrt D) by ring. rewrite SS. unfold D. ring.
Qed.
Lemma hp_diverges (K : R) : exists t, K < Rabs (out (biquad_step (vreal Rn)) (biquad_set (biquad_new Rn (vreal Rn)) hp) pulse t).
Proof.
  destruct hp_root as (z1 & z2 & A & B & G). apply (diverges hp z1 z2 A B G). rewrite hp_coefs. cbn [b0a0 b1a0 b2a0].
  replace (16775664 / 16777216 * z1 * z1 + Ropp (16775664 / 8388608) * z1 + 16775664 / 16777216) with (16775664 / 16777216 * ((z1 - 1) * (z1 - 1))) by field.
  apply Rmult_integral_contrapositive_currified; [lra|]. apply Rmult_integral_contrapositive_currified; lra.
Qed.

(** lowpass(1, 48000): 1 - cos is zero *)
Lemma lp_b (Q : R) : let c := bq_lowpass (Fn rnd32) (uc_trig (Fn rnd32)) 1 48000 Q in b0a0 c = 0 /\ b1a0 c = 0 /\ b2a0 c = 0.
Proof.
  unfold bq_lowpass, bq_div. cbn [uc_trig tcos tsin b0a0 b1a0 b2a0]. destruct uc_1_48000 as [-> ->]. cbn [nadd nsub nmul ndiv nofZ nopp n1 n0 Fn].
  assert (Z : rnd32 0 = 0) by (apply round_0; auto with typeclass_instances). replace (1 - 1) with 0 by ring. rewrite Z. unfold Rdiv. rewrite !Rmult_0_l, Z, !Rmult_0_l, Z. auto.
Qed.
Lemma zero_out (c : coefs R) (x : nat -> R) : b0a0 c = 0 -> b1a0 c = 0 -> b2a0 c = 0 -> forall t, out (biquad_step (vreal Rn)) (biquad_set (biquad_new Rn (vreal Rn)) c) x t = 0.
Proof.
  intros B0 B1 B2. set (s := biquad_set (biquad_new Rn (vreal Rn)) c). set (y := out (biquad_step (vreal Rn)) s x).
  assert (eq : forall t, y t = b0a0 c * x t + b1a0 c * dly 0 x t + b2a0 c * dly 0 (dly 0 x) t - a1a0 c * dly 0 y t - a2a0 c * dly 0 (dly 0 y) t) by (intros t; apply (bq_equation (vreal Rn) s x t)).
  assert (G : forall t, y t = 0 /\ dly 0 y t = 0).
  { induction t as [|t [IH1 IH2]].
    - split; [|reflexivity]. rewrite eq, B0, B1, B2. cbn [dly]. ring.
    - split; [|exact IH1]. rewrite eq, B0, B1, B2. change (dly 0 y (S t)) with (y t). change (dly 0 (dly 0 y) (S t)) with (dly 0 y t). rewrite IH1, IH2. ring. }
  intros t. apply G.
Qed.
