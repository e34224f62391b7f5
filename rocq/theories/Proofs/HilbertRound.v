(* Rounding errors of the Hilbert transformer *)
From Coq Require Import Reals ZArith Lia Lra List Psatz.
From Coquelicot Require Import Coquelicot.
From Flocq Require Import Core Relative.
From Interval Require Import Tactic.
From Verif Require Import Model.Cdc Spec.Fir Spec.Bessel Spec.ExactConst Proofs.BaseLemmas Proofs.ShiftProofs Proofs.KahanFloat Proofs.WinProofs Proofs.FirProofs Proofs.CdcProofs Proofs.KaiserRound.
Import ListNotations.
Open Scope R_scope.

(** summation from left to right with errors *)
Lemma Rsumn_abs n f : Rabs (Rsumn n f) <= Rsumn n (fun i => Rabs (f i)).
Proof. induction n as [|n IH]; cbn [Rsumn]; [rewrite Rabs_R0; lra|]. eapply Rle_trans; [apply Rabs_triang|]. lra. Qed.
Lemma Rsumn_le' n f g : (forall i, (i < n)%nat -> f i <= g i) -> Rsumn n f <= Rsumn n g.
Proof. induction n as [|n IH]; intros H; cbn [Rsumn]; [lra|]. assert (Rsumn n f <= Rsumn n g) by (apply IH; intros; apply H; lia). pose proof (H n ltac:(lia)). lra. Qed.
Lemma Rsumn_lin n (f : nat -> R) a b : Rsumn n (fun i => a * f i + b) = a * Rsumn n f + INR n * b.
Proof. induction n as [|n IH]; [cbn; ring|]. rewrite S_INR. cbn [Rsumn]. rewrite IH. ring. Qed.
Lemma Rsumn_sub n (f g : nat -> R) : Rsumn n (fun i => f i - g i) = Rsumn n f - Rsumn n g.
Proof. induction n as [|n IH]; cbn [Rsumn]; [ring|]. rewrite IH. ring. Qed.
Lemma grow u n : 0 <= u -> INR n * u <= 1 / 4 -> (1 + u) ^ n <= 1 + 4 / 3 * (INR n * u).
Proof.
  intros Hu H. assert (P : 0 <= INR n) by apply pos_INR. assert (Q : (1 + u) ^ n * (1 - INR n * u) <= 1).
  { clear H. induction n as [|n IH]; [cbn; lra|]. specialize (IH (pos_INR n)). rewrite S_INR in *. cbn [pow]. pose proof (pos_INR n).
    assert (G : 0 <= (1 + u) ^ n) by (apply pow_le; lra).
    apply Rle_trans with ((1 + u) ^ n * (1 - INR n * u)); [|exact IH].
    replace ((1 + u) * (1 + u) ^ n * (1 - (INR n + 1) * u)) with ((1 + u) ^ n * ((1 + u) * (1 - (INR n + 1) * u))) by ring. apply Rmult_le_compat_l; [exact G|].
    assert (0 <= INR n * u * u) by (apply Rmult_le_pos; [apply Rmult_le_pos|]; lra). assert (0 <= u * u) by (apply Rmult_le_pos; lra). lra. }
  set (y := INR n * u) in *. assert (0 <= y) by (apply Rmult_le_pos; lra). apply (Rmult_le_reg_r (1 - y)); [lra|]. eapply Rle_trans; [exact Q|]. assert (0 <= y * (1 / 4 - y)) by (apply Rmult_le_pos; lra). lra.
Qed.
Lemma acc_err (rnd : R -> R) u e (f : Z -> R) : 0 <= u -> 0 <= e -> (forall x, Rabs (rnd x - x) <= u * Rabs x + e) -> forall n, let A := Rsumn (S n) (fun i => Rabs (f (Z.of_nat i))) in
  Rabs (acc (Fn rnd) f n - Rsumn (S n) (fun i => f (Z.of_nat i))) <= ((1 + u) ^ n - 1) * A + INR n * ((1 + u) ^ n * e).
Proof.
  intros Hu He HR n. cbv zeta. induction n as [|n IH].
  - unfold acc. cbn. replace (f 0%Z - (0 + f 0%Z)) with 0 by ring. rewrite Rabs_R0. lra.
  - assert (E : acc (Fn rnd) f (S n) = rnd (acc (Fn rnd) f n + f (Z.of_nat (S n)))).
    { unfold acc. rewrite seq_S, map_app, fold_left_app. cbn [map fold_left Nat.add nadd Fn]. replace (1 + Z.of_nat n)%Z with (Z.of_nat (S n)) by lia. reflexivity. }
    rewrite E. clear E. set (s := acc (Fn rnd) f n) in *. rewrite S_INR.
    set (N := S n) in *. change (Rsumn (S N) (fun i => f (Z.of_nat i))) with (Rsumn N (fun i => f (Z.of_nat i)) + f (Z.of_nat N)). change (Rsumn (S N) (fun i => Rabs (f (Z.of_nat i)))) with (Rsumn N (fun i => Rabs (f (Z.of_nat i))) + Rabs (f (Z.of_nat N))).
    pose proof (Rsumn_abs N (fun i => f (Z.of_nat i))) as AB. cbv beta in AB. set (S0 := Rsumn N (fun i => f (Z.of_nat i))) in *. set (A := Rsumn N (fun i => Rabs (f (Z.of_nat i)))) in *. set (g := f (Z.of_nat N)). change ((1 + u) ^ N) with ((1 + u) * (1 + u) ^ n).
    assert (G : 1 <= (1 + u) ^ n) by (apply pow_R1_Rle; lra). set (q := (1 + u) ^ n) in *. pose proof (HR (s + g)) as R.
    assert (B : Rabs (s + g) <= Rabs (s - S0) + (A + Rabs g)) by (replace (s + g) with ((s - S0) + (S0 + g)) by ring; eapply Rle_trans; [apply Rabs_triang|]; pose proof (Rabs_triang S0 g); lra).
    assert (UB : u * Rabs (s + g) <= u * (Rabs (s - S0) + (A + Rabs g))) by (apply Rmult_le_compat_l; lra).
    replace (rnd (s + g) - (S0 + g)) with ((rnd (s + g) - (s + g)) + (s - S0)) by ring. eapply Rle_trans; [apply Rabs_triang|].
    assert (UI : u * Rabs (s - S0) <= u * ((q - 1) * A + INR n * (q * e))) by (apply Rmult_le_compat_l; lra).
    pose proof (Rabs_pos g). assert (0 <= (q - 1) * Rabs g) by (apply Rmult_le_pos; lra). assert (0 <= u * ((q - 1) * Rabs g)) by (apply Rmult_le_pos; lra).
    assert (e * 1 <= e * q) by (apply Rmult_le_compat_l; lra). assert (0 <= u * (q * e)) by (apply Rmult_le_pos; [lra|apply Rmult_le_pos; lra]). lra.
Qed.

Section HR.
Context (emin prec : Z) (Hp : (20 <= prec)%Z) (He : (emin <= - prec - 110)%Z) (H64 : (prec <= 64)%Z).
Notation rnd := (FLTrnd emin prec).
Notation u := (ulp_u prec).
Notation e := (bpow radix2 (emin - 1)).
Notation F := (FLTfmt emin prec).
Lemma u_low : 5e-20 <= u.
Proof. unfold ulp_u. apply Rle_trans with (bpow radix2 (-64)); [|apply bpow_le; lia]. replace (bpow radix2 (-64)) with (/ IZR 18446744073709551616) by reflexivity. interval. Qed.

(** the middle of the window is exactly 1 *)
Lemma kaiser_mid a (K : nat) : Rabs a <= 3 -> (1 <= K)%nat -> let TAPS := (4 * Z.of_nat K + 1)%Z in (TAPS <= 2 ^ prec)%Z -> (16 * TAPS <= INT_MAX)%Z ->
  win_kaiser (Fn rnd) a (2 * Z.of_nat K) TAPS = Ok 1.
Proof.
  intros Ha HK TAPS H1 H2. pose proof (u_range prec Hp) as U. pose proof (e_range emin prec He) as E0. unfold win_kaiser. rewrite !ichk_ok by (unfold INT_MIN, INT_MAX, TAPS in *; lia). cbn [bind].
  assert (A : kaiser_arg (Fn rnd) (2 * Z.of_nat K) TAPS = 1).
  { unfold kaiser_arg. cbn [nsub ndiv nmul nofZ n1 Fn]. replace (TAPS - 1)%Z with (2 * (2 * Z.of_nat K))%Z by (unfold TAPS; lia). set (z := (2 * (2 * Z.of_nat K))%Z).
    assert (Z1 : 1 <= IZR z) by (apply IZR_le; unfold z; lia). rewrite (fmt_id emin prec (IZR z)) by (apply fmt_Z; auto; unfold z, TAPS in *; lia). replace (IZR z / IZR z) with 1 by (field; lra).
    rewrite (rnd_1 emin prec Hp He). replace (1 - 1) with 0 by ring. rewrite (rnd_0 emin prec), Rmult_0_r, (rnd_0 emin prec), Rminus_0_r. apply rnd_1; auto. }
  rewrite A. cbn [nmul ndiv nsqrt Fn]. rewrite sqrt_1, (rnd_1 emin prec Hp He), Rmult_1_r, (fmt_id emin prec (rnd _)) by (apply rnd_fmt; exact Hp).
  set (x := rnd (Pi (Fn rnd) * a)). f_equal. pose proof (pi_rnd emin prec Hp He H64) as PE. set (p := Pi (Fn rnd)) in *. assert (P3 : 3.1415 <= PI <= 3.1416) by (split; interval).
  assert (Bp : Rabs p <= 3.142) by (replace p with (PI + (p - PI)) by ring; eapply Rle_trans; [apply Rabs_triang|]; rewrite (Rabs_pos_eq PI); lra).
  assert (Bpa : Rabs (p * a) <= 3.142 * 3) by (rewrite Rabs_mult; apply Rmult_le_compat; try apply Rabs_pos; lra). pose proof (rnd_err emin prec Hp (p * a)) as E. fold x in E.
  assert (u * Rabs (p * a) <= 1e-6 * (3.142 * 3)) by (apply Rmult_le_compat; try apply Rabs_pos; lra).
  assert (Bx : Rabs x <= 9.5) by (replace x with (p * a + (x - p * a)) by ring; eapply Rle_trans; [apply Rabs_triang|]; lra).
  destruct (i0_round emin prec Hp He x Bx) as (v & V & EV). pose proof (I0_ge1 _ _ V). assert (u * v <= 1e-6 * v) by (apply Rmult_le_compat_r; lra). apply Rabs_le_inv in EV.
  set (i := i0 (Fn rnd) x) in *. replace (i / i) with 1 by (field; lra). apply rnd_1; auto.
Qed.

(** a coefficient: a window value w within 530 u, times 2 / ((2i+1) Pi) *)
Lemma co_err (z : Z) (v w : R) : (1 <= z <= 2 ^ prec)%Z -> 0 <= w <= 1 -> Rabs (v - w) <= 530 * u -> let C := 2 / (PI * IZR z) in
  Rabs (rnd (rnd (v * rnd 2) / rnd (rnd (IZR z) * Pi (Fn rnd))) - w * C) <= 540 * u * C /\ 1e-22 <= C.
Proof.
  intros Hz Hw Hv C. pose proof (u_range prec Hp) as U. pose proof (e_range emin prec He) as E0. pose proof u_low as UL. pose proof (pi_rnd emin prec Hp He H64) as PE. set (p := Pi (Fn rnd)) in *.
  assert (P3 : 3.1415 <= PI <= 3.1416) by (split; interval). rewrite (fmt_id emin prec (IZR z)) by (apply fmt_Z; auto; lia). rewrite (fmt_id emin prec 2) by (apply (fZ emin prec Hp He 2); lia).
  assert (Z1 : 1 <= IZR z) by (apply IZR_le; lia).
  assert (Z2 : IZR z <= 2e19). { apply Rle_trans with (IZR (2 ^ 64)); [apply IZR_le|change (2 ^ 64)%Z with 18446744073709551616%Z; lra]. pose proof (Z.pow_le_mono_r 2 prec 64). lia. }
  set (Z0 := IZR z) in *. set (D0 := PI * Z0). assert (PD : 3.1415 * Z0 <= D0 <= 3.1416 * Z0) by (unfold D0; split; apply Rmult_le_compat_r; lra).
  assert (CL : 1e-22 <= C). { unfold C. fold D0. apply (Rmult_le_reg_r D0); [lra|]. replace (2 / D0 * D0) with 2 by (field; lra). lra. }
  assert (CD : C * D0 = 2) by (unfold C; fold D0; field; lra).
  (* denominator *)
  pose proof (rnd_err emin prec Hp (Z0 * p)) as ED. set (D := rnd (Z0 * p)) in *.
  assert (B1 : Rabs (Z0 * p - D0) <= Z0 * (3.15 * u)) by (unfold D0; replace (Z0 * p - PI * Z0) with (Z0 * (p - PI)) by ring; rewrite Rabs_mult, (Rabs_pos_eq Z0) by lra; apply Rmult_le_compat_l; lra).
  assert (UZ : 0 <= u * Z0 <= 1e-6 * Z0) by (split; [apply Rmult_le_pos; lra|apply Rmult_le_compat_r; lra]). assert (U1 : u * 1 <= u * Z0) by (apply Rmult_le_compat_l; lra).
  assert (B2 : Rabs (Z0 * p) <= 3.142 * Z0) by (replace (Z0 * p) with (D0 + (Z0 * p - D0)) by ring; eapply Rle_trans; [apply Rabs_triang|]; rewrite (Rabs_pos_eq D0); lra).
  assert (u * Rabs (Z0 * p) <= u * (3.142 * Z0)) by (apply Rmult_le_compat_l; lra).
  assert (BD : Rabs (D - D0) <= 6.3 * (u * Z0)) by (replace (D - D0) with ((D - Z0 * p) + (Z0 * p - D0)) by ring; eapply Rle_trans; [apply Rabs_triang|]; lra).
  assert (PD' : 3.141 * Z0 <= D) by (apply Rabs_le_inv in BD; lra).
  (* numerator *)
  pose proof (rnd_err emin prec Hp (v * 2)) as EN. set (n := rnd (v * 2)) in *.
  assert (B3 : Rabs v <= 1.001) by (replace v with (w + (v - w)) by ring; eapply Rle_trans; [apply Rabs_triang|]; rewrite (Rabs_pos_eq w) by lra; lra).
  assert (u * Rabs (v * 2) <= u * 2.002) by (apply Rmult_le_compat_l; [lra|]; rewrite Rabs_mult, (Rabs_pos_eq 2); lra).
  assert (BN : Rabs (n - 2 * w) <= 1062.01 * u) by (replace (n - 2 * w) with ((n - v * 2) + 2 * (v - w)) by ring; eapply Rle_trans; [apply Rabs_triang|]; rewrite (Rabs_mult 2), (Rabs_pos_eq 2) by lra; lra).
  (* quotient *)
  pose proof (rnd_err emin prec Hp (n / D)) as EQ. set (q := n / D) in *.
  assert (PC : 0 < C) by lra.
  assert (UC : 0 <= u * C <= 1e-6 * C) by (split; [apply Rmult_le_pos; lra|apply Rmult_le_compat_r; lra]).
  assert (BQ : Rabs (q - w * C) <= 538 * (u * C)).
  { replace (q - w * C) with (((n - 2 * w) - w * C * (D - D0)) * / D) by (unfold q, C, D0; field; unfold D0 in *; split; [|split]; lra).
    rewrite Rabs_mult, Rabs_inv, (Rabs_pos_eq D) by lra. apply (Rmult_le_reg_r D); [lra|]. rewrite Rmult_assoc, Rinv_l, Rmult_1_r by lra.
    eapply Rle_trans; [apply Rabs_triang|]. rewrite Rabs_Ropp, Rabs_mult, (Rabs_mult w), (Rabs_pos_eq w), (Rabs_pos_eq C) by lra.
    assert (W1 : w * C * Rabs (D - D0) <= 1 * C * (6.3 * (u * Z0))) by (apply Rmult_le_compat; try apply Rabs_pos; [apply Rmult_le_pos; lra|apply Rmult_le_compat_r; lra|exact BD]).
    assert (CZ : C * Z0 <= 0.6367) by (apply (Rmult_le_reg_l PI); [lra|]; replace (PI * (C * Z0)) with (C * D0) by (unfold D0; ring); rewrite CD; lra).
    assert (CZ' : 0.6366 <= C * Z0) by (apply (Rmult_le_reg_l PI); [lra|]; replace (PI * (C * Z0)) with (C * D0) by (unfold D0; ring); rewrite CD; lra).
    assert (W2 : 1 * C * (6.3 * (u * Z0)) <= 6.3 * u * 0.6367) by (replace (1 * C * (6.3 * (u * Z0))) with (6.3 * u * (C * Z0)) by ring; apply Rmult_le_compat_l; lra).
    assert (W3 : 538 * (u * C) * (3.141 * Z0) <= 538 * (u * C) * D) by (apply Rmult_le_compat_l; lra).
    assert (W4 : 538 * 3.141 * u * 0.6366 <= 538 * (u * C) * (3.141 * Z0)) by (replace (538 * (u * C) * (3.141 * Z0)) with (538 * 3.141 * u * (C * Z0)) by ring; apply Rmult_le_compat_l; lra). lra. }
  assert (WC : 0 <= w * C <= 1 * C) by (split; [apply Rmult_le_pos; lra|apply Rmult_le_compat_r; lra]).
  assert (Bq : Rabs q <= 1.001 * C) by (replace q with (w * C + (q - w * C)) by ring; eapply Rle_trans; [apply Rabs_triang|]; rewrite (Rabs_pos_eq (w * C)) by lra; lra).
  assert (u * Rabs q <= u * (1.001 * C)) by (apply Rmult_le_compat_l; lra).
  assert (Ee : e <= 1e-11 * (u * C)). { assert (1e-22 * u <= C * u) by (apply Rmult_le_compat_r; lra). lra. }
  split; [|exact CL]. replace (rnd q - w * C) with ((rnd q - q) + (q - w * C)) by ring. eapply Rle_trans; [apply Rabs_triang|]. lra.
Qed.
(** a product of the sum *)
Lemma prod_err (C c cr xa xb B : R) : 0 < C <= 1 -> 1e-22 <= C -> Rabs cr <= C -> Rabs (c - cr) <= 540 * u * C -> Rabs xa <= B -> Rabs xb <= B ->
  let p := rnd (c * rnd (xa - xb)) in Rabs (p - cr * (xa - xb)) <= 1090 * (u * B) * C + 2.1 * e /\ Rabs p <= 2.01 * B * C + 2.1 * e.
Proof.
  intros HC CL Hcr Hc Ha Hb p. pose proof (u_range prec Hp) as U. pose proof (e_range emin prec He) as E0. pose proof (Rabs_pos xa) as B0. set (s := xa - xb) in *.
  assert (Bs : Rabs s <= 2 * B) by (unfold s, Rminus; eapply Rle_trans; [apply Rabs_triang|]; rewrite Rabs_Ropp; lra).
  assert (HB : 0 <= B) by lra. pose proof (rnd_err emin prec Hp s) as E1. assert (u * Rabs s <= u * (2 * B)) by (apply Rmult_le_compat_l; lra).
  assert (UB : 0 <= u * B <= 1e-6 * B) by (split; [apply Rmult_le_pos; lra|apply Rmult_le_compat_r; lra]).
  assert (BC : 0 <= B * C) by (apply Rmult_le_pos; lra). assert (UBC : 0 <= u * B * C <= 1e-6 * (B * C)) by (split; [apply Rmult_le_pos; lra|replace (u * B * C) with (u * (B * C)) by ring; apply Rmult_le_compat_r; lra]).
  set (sh := rnd s) in *. assert (Bsh : Rabs sh <= 2.0001 * B + e) by (replace sh with (s + (sh - s)) by ring; eapply Rle_trans; [apply Rabs_triang|]; lra).
  assert (UC : 0 <= u * C <= 1e-6 * C) by (split; [apply Rmult_le_pos; lra|apply Rmult_le_compat_r; lra]).
  assert (Bc : Rabs c <= 1.001 * C) by (replace c with (cr + (c - cr)) by ring; eapply Rle_trans; [apply Rabs_triang|]; lra).
  assert (eC : 0 <= e * C <= e * 1) by (split; [apply Rmult_le_pos; lra|apply Rmult_le_compat_l; lra]).
  assert (D : Rabs (c * sh - cr * s) <= 1083 * (u * B) * C + 1.01 * e).
  { replace (c * sh - cr * s) with ((c - cr) * sh + cr * (sh - s)) by ring. eapply Rle_trans; [apply Rabs_triang|]. rewrite !Rabs_mult.
    assert (T1 : Rabs (c - cr) * Rabs sh <= 540 * u * C * (2.0001 * B + e)) by (apply Rmult_le_compat; try apply Rabs_pos; lra).
    assert (T2 : Rabs cr * Rabs (sh - s) <= C * (2 * (u * B) + e)) by (apply Rmult_le_compat; try apply Rabs_pos; lra).
    assert (T3 : u * C * e <= 1e-6 * e) by (apply Rmult_le_compat_r; lra). lra. }
  assert (M : Rabs (c * sh) <= 2.003 * (B * C) + 1.001 * e).
  { rewrite Rabs_mult. apply Rle_trans with (1.001 * C * (2.0001 * B + e)); [apply Rmult_le_compat; try apply Rabs_pos; lra|]. lra. }
  pose proof (rnd_err emin prec Hp (c * sh)) as E2. fold p in E2. assert (u * Rabs (c * sh) <= u * (2.003 * (B * C) + 1.001 * e)) by (apply Rmult_le_compat_l; lra).
  assert (u * e <= 1e-6 * e) by (apply Rmult_le_compat_r; lra). split.
  - replace (p - cr * s) with ((p - c * sh) + (c * sh - cr * s)) by ring. eapply Rle_trans; [apply Rabs_triang|]. lra.
  - replace p with (c * sh + (p - c * sh)) by ring. eapply Rle_trans; [apply Rabs_triang|]. lra.
Qed.
(** the kernel: Kaiser window times 2 / (Pi d) for odd distances d from the middle *)
Definition kaiser_at (a : R) (n N : Z) : R := Series (bessel_term (PI * a * sqrt (1 - kq n N * kq n N))) / Series (bessel_term (PI * a)).
Definition kernel (a : R) (K : nat) (n : Z) : R := let d := (n - 2 * Z.of_nat K)%Z in if Z.odd d then kaiser_at a n (4 * Z.of_nat K + 1) * (2 / (PI * IZR d)) else 0.
Lemma kaiser_at_spec a n N : Rabs a <= 3 -> wdom n N -> exists x m, is_I0 (PI * a * sqrt (1 - kq n N * kq n N)) x /\ is_I0 (PI * a) m /\ kaiser_at a n N = x / m /\ 0 <= x / m <= 1.
Proof.
  intros Ha Hd. pose proof (kq_range n N Hd) as KQ. assert (P3 : 3.1415 <= PI <= 3.1416) by (split; interval). set (s := sqrt (1 - kq n N * kq n N)).
  assert (S1 : 0 <= s <= 1) by (split; [apply sqrt_pos|rewrite <- sqrt_1; apply sqrt_le_1_alt; nra]).
  assert (BA : Rabs (PI * a) <= 9.5) by (rewrite Rabs_mult, (Rabs_pos_eq PI) by lra; pose proof (Rabs_pos a); assert (PI * Rabs a <= 3.1416 * 3) by (apply Rmult_le_compat; lra); lra).
  assert (BX : Rabs (PI * a * s) <= Rabs (PI * a)) by (rewrite Rabs_mult, (Rabs_pos_eq s) by lra; pose proof (Rabs_pos (PI * a)); rewrite <- (Rmult_1_r (Rabs (PI * a))) at 2; apply Rmult_le_compat_l; lra).
  destruct (I0_ex emin prec Hp He (PI * a * s) ltac:(lra)) as (x & X). destruct (I0_ex emin prec Hp He (PI * a) BA) as (m & M). exists x, m. split; [exact X|]. split; [exact M|].
  pose proof (I0_ge1 _ _ X). pose proof (I0_ge1 _ _ M). pose proof (I0_mono _ _ _ _ BX X M). split.
  - unfold kaiser_at. fold s. rewrite (is_series_unique _ _ X), (is_series_unique _ _ M). reflexivity.
  - split; [apply Rlt_le, Rdiv_lt_0_compat; lra|]. apply (Rmult_le_reg_r m); [lra|]. replace (x / m * m) with x by (field; lra). lra.
Qed.
Lemma Ku (K : nat) : (4 * Z.of_nat K + 1 <= 2 ^ prec)%Z -> INR K * u <= 1 / 4.
Proof.
  intros H. assert (E : u * IZR (2 ^ prec) = 1). { unfold ulp_u. replace (IZR (2 ^ prec)) with (bpow radix2 prec) by (symmetry; apply (IZR_Zpower radix2); lia). rewrite <- bpow_plus. replace (- prec + prec)%Z with 0%Z by lia. reflexivity. }
  pose proof (u_range prec Hp) as U. apply IZR_le in H. rewrite plus_IZR, mult_IZR, <- INR_IZR_INZ in H. assert (u * (4 * INR K + 1) <= u * IZR (2 ^ prec)) by (apply Rmult_le_compat_l; lra). lra.
Qed.
Lemma hilbert_round (a : R) (K : nat) : let TAPS := (4 * Z.of_nat K + 1)%Z in Rabs a <= 3 -> (1 <= K)%nat -> (TAPS <= 2 ^ prec)%Z -> (16 * TAPS <= INT_MAX)%Z ->
  forall x B t, (forall k, F (x k) /\ Rabs (x k) <= B) ->
  exists im, oout (hilbert_step (Fn rnd) TAPS) (hilbert_new (Fn rnd) TAPS a) x t = Ok (causal x (Z.of_nat t - 1 - 2 * Z.of_nat K), im) /\
  Rabs (im - rfir TAPS (kernel a K) (causal x) (Z.of_nat t - 1)) <= (1090 + 3 * INR K) * u * B * Rsumn K (fun i => 2 / (PI * IZR (2 * Z.of_nat i + 1))) + 5 * INR K * e.
Proof.
  intros TAPS Ha HK H1 H2 x B t Hx. pose proof (u_range prec Hp) as U. pose proof (e_range emin prec He) as E0. assert (P3 : 3.1415 <= PI <= 3.1416) by (split; interval).
  assert (HB : 0 <= B) by (pose proof (Rabs_pos (x O)); pose proof (proj2 (Hx O)); lra).
  assert (Fx : forall z, F (causal x z)) by (intros z; unfold causal; destruct (z <? 0)%Z; [apply generic_format_0|apply Hx]).
  assert (Bx : forall z, Rabs (causal x z) <= B) by (intros z; unfold causal; destruct (z <? 0)%Z; [rewrite Rabs_R0; exact HB|apply Hx]).
  set (v := fun i => match win_kaiser (Fn rnd) a (2 * i + 1 + 2 * Z.of_nat K) TAPS with Ok v => v | _ => 0 end).
  assert (V : forall i, (0 <= i < Z.of_nat K)%Z -> win_kaiser (Fn rnd) a (2 * i + 1 + 2 * Z.of_nat K) TAPS = Ok (v i) /\ let w := kaiser_at a (2 * i + 1 + 2 * Z.of_nat K) TAPS in 0 <= w <= 1 /\ Rabs (v i - w) <= 530 * u).
  { intros i Hi. assert (D : wdom (2 * i + 1 + 2 * Z.of_nat K) TAPS) by (unfold TAPS in *; repeat split; lia). destruct (kaiser_round emin prec Hp He a _ TAPS H64 Ha D H1) as (v0 & x0 & m0 & E & X & M & Bd).
    destruct (kaiser_at_spec a _ TAPS Ha D) as (x1 & m1 & X1 & M1 & K1 & R1). rewrite (I0_unique _ _ _ X X1), (I0_unique _ _ _ M M1), <- K1 in Bd. unfold v. rewrite E. rewrite <- K1 in R1. split; [reflexivity|]. cbv zeta. split; [exact R1|exact Bd]. }
  set (C := fun i : nat => 2 / (PI * IZR (2 * Z.of_nat i + 1))).
  set (g := fun i => rnd (rnd (v i * rnd 2) / rnd (rnd (IZR (2 * i + 1)) * Pi (Fn rnd)))).
  unfold hilbert_new. pose proof (quarter_eq K HK : quarter TAPS = _) as Qe. pose proof (half_eq K HK : half TAPS = _) as Hf. rewrite Qe, Hf. pose proof (kaiser_mid a K Ha HK H1 H2) as Km. fold TAPS in Km. rewrite Km. cbn [bind].
  rewrite (ofill_spec _ g) by (intros j Hj; unfold hilbert_co; rewrite Hf; rewrite (proj1 (V j ltac:(lia))); reflexivity). cbn [bind]. rewrite !Nat2Z.id.
  replace (Z.to_nat TAPS) with (4 * K + 1)%nat by (unfold TAPS; lia). set (imco := wind _ 0 K).
  assert (HL : length imco = K) by apply wind_length.
  assert (Ic : forall i, (0 <= i < Z.of_nat K)%Z -> ico (Fn rnd) imco i = g i).
  { intros i Hi. pose proof (ico_get (Fn rnd) K HK imco HL i Hi) as Q. unfold imco in Q at 1. rewrite wind_get in Q by auto. injection Q as Q. rewrite <- Q. f_equal. }
  destruct (hilbert_state (Fn rnd) K HK imco 1 HL x t) as [_ E]. cbv zeta in E. change (zext (Fn rnd) x) with (causal x) in E. set (c := (Z.of_nat t - 1 - 2 * Z.of_nat K)%Z) in *.
  set (f := fun i : Z => nmul (Fn rnd) (ico (Fn rnd) imco i) (nsub (Fn rnd) (causal x (c - (2 * i + 1))) (causal x (c + (2 * i + 1))))) in E.
  exists (acc (Fn rnd) f (K - 1)). split.
  { etransitivity; [exact E|]. do 2 f_equal. cbn [nmul Fn]. rewrite Rmult_1_l. apply fmt_id. apply Fx. }
  set (cr := fun i => kernel a K (2 * Z.of_nat K + (2 * i + 1))).
  assert (O : forall z, Z.odd (2 * z + 1) = true) by (intros z; rewrite Z.odd_add, Z.odd_mul; reflexivity).
  assert (Rf : rfir TAPS (kernel a K) (causal x) (Z.of_nat t - 1) = Rsumn K (fun i => cr (Z.of_nat i) * (causal x (c - (2 * Z.of_nat i + 1))%Z - causal x (c + (2 * Z.of_nat i + 1))%Z))).
  { rewrite <- (hilbert_fold K (kernel a K) cr (causal x) c HK); [unfold TAPS, c; f_equal; lia| |].
    - intros i Hi. split; [reflexivity|]. unfold cr, kernel. replace (2 * Z.of_nat K + (2 * i + 1) - 2 * Z.of_nat K)%Z with (2 * i + 1)%Z by lia. replace (2 * Z.of_nat K - (2 * i + 1) - 2 * Z.of_nat K)%Z with (- (2 * i + 1))%Z by lia.
      rewrite Z.odd_opp, O, opp_IZR. unfold kaiser_at. assert (Nz : IZR (2 * i + 1) <> 0) by (apply not_0_IZR; lia).
      rewrite (kq_sym (2 * Z.of_nat K + (2 * i + 1)) (2 * Z.of_nat K - (2 * i + 1)) (4 * Z.of_nat K + 1)) by (unfold TAPS in *; repeat split; lia).
      replace (- kq (2 * Z.of_nat K + (2 * i + 1)) (4 * Z.of_nat K + 1) * - kq (2 * Z.of_nat K + (2 * i + 1)) (4 * Z.of_nat K + 1)) with (kq (2 * Z.of_nat K + (2 * i + 1)) (4 * Z.of_nat K + 1) * kq (2 * Z.of_nat K + (2 * i + 1)) (4 * Z.of_nat K + 1)) by ring.
      set (W := _ / _). replace (PI * - IZR (2 * i + 1)) with (- (PI * IZR (2 * i + 1))) by ring. unfold Rdiv. rewrite Rinv_opp. ring.
    - intros d Hd Ev. unfold kernel. assert (A : Z.odd (d - 2 * Z.of_nat K) = false) by (rewrite <- Z.negb_even, Z.even_sub, Ev, Z.even_mul; reflexivity). rewrite A. reflexivity. }
  rewrite Rf. clear Rf E.
  assert (CB : forall i, (i < K)%nat -> 0 < C i <= 1).
  { intros i Hi. unfold C. assert (Z1 : 1 <= IZR (2 * Z.of_nat i + 1)) by (apply IZR_le; lia). assert (3.1415 <= PI * IZR (2 * Z.of_nat i + 1)) by (apply Rle_trans with (PI * 1); [lra|apply Rmult_le_compat_l; lra]).
    split; [apply Rdiv_lt_0_compat; lra|]. set (D := PI * IZR (2 * Z.of_nat i + 1)) in *. apply (Rmult_le_reg_r D); [lra|]. replace (2 / D * D) with 2 by (field; lra). lra. }
  assert (PB : forall i, (i < K)%nat -> Rabs (f (Z.of_nat i) - cr (Z.of_nat i) * (causal x (c - (2 * Z.of_nat i + 1))%Z - causal x (c + (2 * Z.of_nat i + 1))%Z)) <= 1090 * (u * B) * C i + 2.1 * e /\ Rabs (f (Z.of_nat i)) <= 2.01 * B * C i + 2.1 * e).
  { intros i Hi. unfold f. rewrite Ic by lia. cbn [nmul nsub Fn]. destruct (V (Z.of_nat i) ltac:(lia)) as (_ & W0 & W1). cbv zeta in W0, W1. destruct (co_err (2 * Z.of_nat i + 1) _ _ ltac:(unfold TAPS in *; lia) W0 W1) as (Ce & Cl). cbv zeta in Ce, Cl.
    assert (Ecr : cr (Z.of_nat i) = kaiser_at a (2 * Z.of_nat i + 1 + 2 * Z.of_nat K) TAPS * C i).
    { unfold cr, kernel. replace (2 * Z.of_nat K + (2 * Z.of_nat i + 1) - 2 * Z.of_nat K)%Z with (2 * Z.of_nat i + 1)%Z by lia. rewrite O. replace (2 * Z.of_nat K + (2 * Z.of_nat i + 1))%Z with (2 * Z.of_nat i + 1 + 2 * Z.of_nat K)%Z by lia. reflexivity. }
    pose proof (CB i Hi) as Ci. apply (prod_err (C i)); try apply Bx; [exact Ci|exact Cl| |rewrite Ecr; exact Ce].
    rewrite Ecr, Rabs_pos_eq by (apply Rmult_le_pos; lra). rewrite <- (Rmult_1_l (C i)) at 2. apply Rmult_le_compat_r; lra. }
  pose proof (acc_err rnd u e f ltac:(lra) ltac:(lra) (rnd_err emin prec Hp) (K - 1)) as AE. cbv zeta in AE. replace (S (K - 1)) with K in AE by lia.
  pose proof (Ku K H1) as KU. assert (K1 : INR (K - 1) <= INR K) by (apply le_INR; lia). pose proof (pos_INR (K - 1)) as K0. assert (KP : 1 <= INR K) by (change 1 with (INR 1); apply le_INR; lia).
  assert (KU1 : 0 <= INR (K - 1) * u <= INR K * u) by (split; [apply Rmult_le_pos; lra|apply Rmult_le_compat_r; lra]).
  pose proof (grow u (K - 1) ltac:(lra) ltac:(lra)) as G. assert (G1 : 1 <= (1 + u) ^ (K - 1)) by (apply pow_R1_Rle; lra). set (q := (1 + u) ^ (K - 1)) in *.
  set (H := Rsumn K C) in *. assert (H0 : 0 <= H). { replace 0 with (Rsumn K (fun _ => 0)) by (clear; induction K as [|k IH]; cbn [Rsumn]; lra). apply Rsumn_le'. intros i Hi. pose proof (CB i Hi). lra. }
  assert (A1 : Rsumn K (fun i => Rabs (f (Z.of_nat i))) <= 2.01 * B * H + INR K * (2.1 * e)) by (unfold H; rewrite <- Rsumn_lin; apply Rsumn_le'; intros i Hi; apply (PB i Hi)).
  set (A := Rsumn K (fun i => Rabs (f (Z.of_nat i)))) in *.
  assert (A0 : 0 <= A) by (eapply Rle_trans; [apply Rabs_pos|apply (Rsumn_abs K (fun i => f (Z.of_nat i)))]).
  set (S0 := Rsumn K (fun i => f (Z.of_nat i))) in *. set (Sr := Rsumn K (fun i => cr _ * _)).
  assert (D : Rabs (S0 - Sr) <= 1090 * (u * B) * H + INR K * (2.1 * e)).
  { unfold S0, Sr. rewrite <- Rsumn_sub. eapply Rle_trans; [apply Rsumn_abs|]. unfold H. rewrite <- Rsumn_lin. apply Rsumn_le'. intros i Hi. apply (PB i Hi). }
  assert (BH : 0 <= B * H) by (apply Rmult_le_pos; lra). assert (KE : 0 <= INR K * e) by (apply Rmult_le_pos; lra).
  assert (T1 : (q - 1) * A <= 4 / 3 * (INR K * u) * (2.01 * B * H + INR K * (2.1 * e))) by (apply Rmult_le_compat; lra).
  assert (T2 : INR (K - 1) * (q * e) <= INR K * (4 / 3 * e)) by (apply Rmult_le_compat; try lra; [apply Rmult_le_pos; lra|apply Rmult_le_compat_r; lra]).
  assert (T3 : INR K * u * (INR K * e) <= 1 / 4 * (INR K * e)) by (apply Rmult_le_compat_r; lra).
  assert (T4 : 0 <= INR K * u * (B * H)) by (apply Rmult_le_pos; lra). assert (T5 : 0 <= u * (B * H)) by (apply Rmult_le_pos; lra).
  replace (acc (Fn rnd) f (K - 1) - Sr) with ((acc (Fn rnd) f (K - 1) - S0) + (S0 - Sr)) by ring. eapply Rle_trans; [apply Rabs_triang|]. lra.
Qed.
End HR.
