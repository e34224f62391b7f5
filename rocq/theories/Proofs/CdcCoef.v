(** The coefficients of the down-converter in floating point (for C112). *)
From Coq Require Import Reals ZArith Lia Lra List Psatz.
From Coquelicot Require Import Coquelicot.
From Flocq Require Import Core Mult_error.
From Interval Require Import Tactic.
From Verif Require Import Model.Cdc Spec.Fir Spec.Bessel Spec.ExactConst Proofs.BaseLemmas Proofs.ShiftProofs Proofs.FftAlg Proofs.Atan2Proofs Proofs.ConstProofs Proofs.KahanFloat Proofs.WinProofs Proofs.FirProofs Proofs.CdcProofs Proofs.KaiserRound Proofs.HilbertRound Proofs.Rs2Round.
Import ListNotations.
Open Scope R_scope.

Section Flt.
Context (emin prec : Z).
Hypothesis Hp : (20 <= prec)%Z.
Hypothesis He : (emin <= - prec - 110)%Z.
Hypothesis H64 : (prec <= 64)%Z.
Notation rnd := (FLTrnd emin prec).
Notation u := (ulp_u prec).
Notation e := (bpow radix2 (emin - 1)).
Notation F := (FLTfmt emin prec).

Lemma r0 : rnd 0 = 0. Proof. apply KaiserRound.rnd_0. Qed.
Lemma rZ k : (Z.abs k <= 2 ^ prec)%Z -> rnd (IZR k) = IZR k. Proof. intros. apply (KaiserRound.fmt_id emin prec), fmt_Z; auto. Qed.
Lemma p20 : (2 ^ 20 <= 2 ^ prec)%Z. Proof. apply Z.pow_le_mono_r; lia. Qed.
Lemma rhalf : rnd (/ 2) = / 2. Proof. apply (KaiserRound.fmt_id emin prec). apply fmt_half; lia. Qed.
Lemma rmhalf : rnd (- / 2) = - / 2. Proof. apply (KaiserRound.fmt_id emin prec). apply fmt_opp, fmt_half; lia. Qed.
Lemma rad_0 d : uc_rad (Fn rnd) 0 d = 0.
Proof. unfold uc_rad. cbn [ndiv nmul nofZ Fn]. rewrite r0, Rmult_0_r, r0. unfold Rdiv. rewrite Rmult_0_l. apply r0. Qed.
Lemma cosine_0 : cosine_approx (Fn rnd) 0 = 1.
Proof. pose proof p20. unfold cosine_approx, cosine_kernel. cbn [nmul nadd nlit Fn]. rewrite Rmult_0_l, r0, Rmult_0_l, r0, Rplus_0_r. replace uc_a1 with 1 by (unfold uc_a1; lra). rewrite !(rZ 1) by lia. reflexivity. Qed.
(** the sine of the quarter turns is exact *)
Lemma sin_quarter (i : Z) : (0 <= i)%Z -> uc_sin (Fn rnd) (Z.rem (4 * i + 2) 8) 8 = Ok (if Z.even i then 1 else -1).
Proof.
  intros Hi. assert (Ev : Z.rem (4 * i + 2) 8 = if Z.even i then 2%Z else 6%Z).
  { rewrite Z.rem_mod_nonneg by lia. destruct (Z.even i) eqn:E; [apply Z.even_spec in E|rewrite <- Z.negb_odd in E; apply Bool.negb_false_iff, Z.odd_spec in E]; destruct E as [j ->].
    - replace (4 * (2 * j) + 2)%Z with (2 + j * 8)%Z by ring. rewrite Z.mod_add by lia. reflexivity.
    - replace (4 * (2 * j + 1) + 2)%Z with (6 + j * 8)%Z by ring. rewrite Z.mod_add by lia. reflexivity. }
  rewrite Ev. destruct (Z.even i); unfold uc_sin, uc_lt, uc_arg; cbn [Z.mul]; repeat (rewrite ichk_ok by (unfold INT_MIN, INT_MAX; lia); cbn [bind]); cbn -[cosine_approx sine_approx Fn uc_rad]; unfold neg; rewrite rad_0, cosine_0; reflexivity.
Qed.
Lemma halfpi_rnd : Rabs (HalfPi (Fn rnd) - PI / 2) <= 1.58 * u.
Proof.
  pose proof (u_range prec Hp) as U. pose proof (e_range emin prec He) as E0. pose proof (u_low prec H64) as UL.
  unfold HalfPi. cbn [nlit Fn]. pose proof (rnd_err emin prec Hp HalfPi_lit) as E.
  assert (L : Rabs (HalfPi_lit - PI / 2) <= 1e-30) by (unfold HalfPi_lit; interval with (i_prec 200)).
  assert (P : Rabs HalfPi_lit <= 1.5708) by (unfold HalfPi_lit; interval).
  replace (rnd HalfPi_lit - PI / 2) with ((rnd HalfPi_lit - HalfPi_lit) + (HalfPi_lit - PI / 2)) by ring. eapply Rle_trans; [apply Rabs_triang|]. assert (u * Rabs HalfPi_lit <= u * 1.5708) by (apply Rmult_le_compat_l; lra). lra.
Qed.
(** one coefficient *)
Lemma hb_err (z : Z) (sg v w : R) : (2 <= z <= 2 ^ prec)%Z -> (sg = 1 \/ sg = -1) -> 0 <= w <= 1 -> Rabs (v - w) <= 530 * u -> let C := 2 / (PI * IZR z) in
  Rabs (rnd (v * rnd (rnd (/ 2 * sg) / rnd (rnd (HalfPi (Fn rnd) * / 2) * rnd (IZR z)))) - w * (sg * C)) <= 540 * u * C /\ 1e-22 <= C.
Proof.
  intros Hz Hs Hw Hv C. pose proof (u_range prec Hp) as U. pose proof (e_range emin prec He) as E0. pose proof (u_low prec H64) as UL. pose proof halfpi_rnd as PE. set (p := HalfPi (Fn rnd)) in *.
  assert (P3 : 3.1415 <= PI <= 3.1416) by (split; interval). rewrite (rZ z) by lia.
  assert (Sg : Rabs sg = 1) by (destruct Hs as [-> | ->]; [apply Rabs_R1|rewrite Rabs_left; lra]).
  assert (N0 : rnd (/ 2 * sg) = sg / 2). { destruct Hs as [-> | ->]; [rewrite Rmult_1_r, rhalf; lra|]. replace (/ 2 * -1) with (- / 2) by lra. rewrite rmhalf. lra. } rewrite N0.
  assert (Z1 : 2 <= IZR z) by (apply IZR_le; lia).
  assert (Z2 : IZR z <= 2e19). { apply Rle_trans with (IZR (2 ^ 64)); [apply IZR_le|change (2 ^ 64)%Z with 18446744073709551616%Z; lra]. pose proof (Z.pow_le_mono_r 2 prec 64). lia. }
  set (Z0 := IZR z) in *. set (D0 := PI / 4 * Z0). assert (PD : 0.785 * Z0 <= D0 <= 0.7855 * Z0) by (unfold D0; split; apply Rmult_le_compat_r; lra).
  assert (CE : C = / 2 / D0) by (unfold C, D0; field; lra).
  assert (CL : 1e-22 <= C). { rewrite CE. apply (Rmult_le_reg_r D0); [lra|]. replace (/ 2 / D0 * D0) with (/ 2) by (field; lra). lra. }
  (* denominator *)
  assert (A1 : Rabs (p * / 2) <= 0.786) by (apply Rabs_le; apply Rabs_le_inv in PE; lra).
  pose proof (rnd_err emin prec Hp (p * / 2)) as E1. set (q := rnd (p * / 2)) in *. assert (u * Rabs (p * / 2) <= u * 0.786) by (apply Rmult_le_compat_l; lra).
  assert (BQ : Rabs (q - PI / 4) <= 1.58 * u). { replace (q - PI / 4) with ((q - p * / 2) + (p - PI / 2) * / 2) by lra. eapply Rle_trans; [apply Rabs_triang|]. rewrite Rabs_mult, (Rabs_pos_eq (/ 2)) by lra. lra. }
  assert (Bq : Rabs q <= 0.786) by (apply Rabs_le; apply Rabs_le_inv in BQ; lra).
  pose proof (rnd_err emin prec Hp (q * Z0)) as ED. set (D := rnd (q * Z0)) in *.
  assert (B1 : Rabs (q * Z0 - D0) <= Z0 * (1.58 * u)) by (unfold D0; rewrite <- Rmult_minus_distr_r, Rabs_mult, (Rabs_pos_eq Z0), Rmult_comm by lra; apply Rmult_le_compat_l; lra).
  assert (UZ : 0 <= u * Z0 <= 1e-6 * Z0) by (split; [apply Rmult_le_pos; lra|apply Rmult_le_compat_r; lra]). assert (U1 : u * 1 <= u * Z0) by (apply Rmult_le_compat_l; lra).
  assert (B2 : Rabs (q * Z0) <= 0.786 * Z0) by (rewrite Rabs_mult, (Rabs_pos_eq Z0) by lra; apply Rmult_le_compat_r; lra).
  assert (u * Rabs (q * Z0) <= u * (0.786 * Z0)) by (apply Rmult_le_compat_l; lra).
  assert (BD : Rabs (D - D0) <= 2.4 * (u * Z0)) by (replace (D - D0) with ((D - q * Z0) + (q * Z0 - D0)) by ring; eapply Rle_trans; [apply Rabs_triang|]; lra).
  assert (PD' : 0.784 * Z0 <= D) by (apply Rabs_le_inv in BD; lra).
  assert (UC : 0 <= u * C <= 1e-6 * C) by (split; [apply Rmult_le_pos; lra|apply Rmult_le_compat_r; lra]).
  assert (Ee : e <= 1e-11 * (u * C)). { assert (1e-22 * u <= C * u) by (apply Rmult_le_compat_r; lra). lra. }
  (* quotient *)
  assert (BH : Rabs (sg / 2 / D - sg * C) <= 3.1 * (u * C)).
  { replace (sg / 2 / D - sg * C) with (- sg * C * ((D - D0) * / D)) by (rewrite CE; field; lra). rewrite !Rabs_mult, Rabs_Ropp, Sg, (Rabs_pos_eq C), Rabs_inv, (Rabs_pos_eq D) by lra.
    replace (3.1 * (u * C)) with (1 * C * (3.1 * u)) by ring. apply Rmult_le_compat_l; [lra|]. apply (Rmult_le_reg_r D); [lra|]. rewrite Rmult_assoc, Rinv_l, Rmult_1_r by lra.
    assert (3.1 * u * (0.784 * Z0) <= 3.1 * u * D) by (apply Rmult_le_compat_l; lra). lra. }
  assert (SC : Rabs (sg * C) = C) by (rewrite Rabs_mult, Sg, (Rabs_pos_eq C) by lra; ring).
  assert (Bh0 : Rabs (sg / 2 / D) <= 1.0001 * C) by (replace (sg / 2 / D) with (sg * C + (sg / 2 / D - sg * C)) by ring; eapply Rle_trans; [apply Rabs_triang|]; lra).
  pose proof (rnd_err emin prec Hp (sg / 2 / D)) as EH. set (h := rnd (sg / 2 / D)) in *. assert (u * Rabs (sg / 2 / D) <= u * (1.0001 * C)) by (apply Rmult_le_compat_l; lra).
  assert (Bh : Rabs (h - sg * C) <= 4.2 * (u * C)) by (replace (h - sg * C) with ((h - sg / 2 / D) + (sg / 2 / D - sg * C)) by ring; eapply Rle_trans; [apply Rabs_triang|]; lra).
  assert (Bh1 : Rabs h <= 1.0001 * C) by (replace h with (sg * C + (h - sg * C)) by ring; eapply Rle_trans; [apply Rabs_triang|]; lra).
  (* product with the window *)
  assert (B3 : Rabs v <= 1.001) by (replace v with (w + (v - w)) by ring; eapply Rle_trans; [apply Rabs_triang|]; rewrite (Rabs_pos_eq w) by lra; lra).
  assert (W1 : Rabs (v * h - w * (sg * C)) <= 535 * (u * C)).
  { replace (v * h - w * (sg * C)) with ((v - w) * h + w * (h - sg * C)) by ring. eapply Rle_trans; [apply Rabs_triang|]. rewrite !Rabs_mult, (Rabs_pos_eq w) by lra.
    assert (Rabs (v - w) * Rabs h <= 530 * u * (1.0001 * C)) by (apply Rmult_le_compat; try apply Rabs_pos; lra). assert (w * Rabs (h - sg * C) <= 1 * (4.2 * (u * C))) by (apply Rmult_le_compat; try apply Rabs_pos; lra). lra. }
  assert (W2 : Rabs (v * h) <= 1.002 * C). { rewrite Rabs_mult. apply Rle_trans with (1.001 * (1.0001 * C)); [apply Rmult_le_compat; try apply Rabs_pos; lra|lra]. }
  assert (u * Rabs (v * h) <= u * (1.002 * C)) by (apply Rmult_le_compat_l; lra). pose proof (rnd_err emin prec Hp (v * h)) as EV.
  split; [|exact CL]. replace (rnd (v * h) - w * (sg * C)) with ((rnd (v * h) - v * h) + (v * h - w * (sg * C))) by ring. eapply Rle_trans; [apply Rabs_triang|]. lra.
Qed.

(** the filter taken by the constructor *)
Definition hbk (a : R) (K : nat) (n : Z) : R := let d := (n - 2 * Z.of_nat K)%Z in
  if (d =? 0)%Z then / 2 else if Z.even d then 0 else kaiser_at a n (4 * Z.of_nat K + 1) * (sin (PI * IZR d / 2) / (PI * IZR d)).
Lemma sin_odd i : sin (PI * IZR (2 * i + 1) / 2) = if Z.even i then 1 else -1.
Proof.
  replace (PI * IZR (2 * i + 1) / 2) with (IZR i * PI + PI / 2) by (rewrite plus_IZR, mult_IZR; field). rewrite sin_plus, cos_PI2, sin_PI2.
  destruct (Z.even i) eqn:E; [apply Z.even_spec in E|rewrite <- Z.negb_odd in E; apply Bool.negb_false_iff, Z.odd_spec in E]; destruct E as [j ->].
  - replace (IZR (2 * j) * PI) with (0 + 2 * IZR j * PI) by (rewrite mult_IZR; ring). rewrite cos_turn, cos_0. ring.
  - replace (IZR (2 * j + 1) * PI) with (PI + 2 * IZR j * PI) by (rewrite plus_IZR, mult_IZR; ring). rewrite cos_turn, cos_PI. ring.
Qed.
Lemma fac_half : fir_fac (Fn rnd) 1 4 = Ok (/ 2).
Proof. pose proof p20. unfold fir_fac. rewrite ichk_ok by (unfold INT_MIN, INT_MAX; lia). cbn [bind ndiv nofZ Fn]. change (2 * 1)%Z with 2%Z. rewrite !rZ by lia. replace (2 / 4) with (/ 2) by lra. rewrite rhalf. reflexivity. Qed.
Lemma cdc_new_round (a : R) (K : nat) : let TAPS := (4 * Z.of_nat K + 1)%Z in Rabs a <= 3 -> (1 <= K)%nat -> (TAPS <= 2 ^ prec)%Z -> (16 * TAPS <= INT_MAX)%Z ->
  exists imco, cdc_new (Fn rnd) (uc_ptrig (Fn rnd)) TAPS a = Ok (mkCdc (repeat 0 K) (repeat 0 (2 * K)) imco (/ 2) false) /\ length imco = K /\
  forall i, (i < K)%nat -> let c := hbk a K (2 * Z.of_nat K + (2 * Z.of_nat i + 1)) in let C := 1 / (PI * IZR (2 * Z.of_nat i + 1)) in
    Rabs (nth i imco 0 - c) <= 540 * u * C /\ Rabs c <= C /\ 0 < C <= 1 / 3.
Proof.
  intros TAPS Ha HK H1 H2. pose proof (u_range prec Hp) as U. pose proof p20 as P2. assert (P3 : 3.1415 <= PI <= 3.1416) by (split; interval).
  set (v := fun i => match win_kaiser (Fn rnd) a (2 * i + 2 * Z.of_nat K + 1) TAPS with Ok v => v | _ => 0 end).
  assert (V : forall i, (0 <= i < Z.of_nat K)%Z -> win_kaiser (Fn rnd) a (2 * i + 2 * Z.of_nat K + 1) TAPS = Ok (v i) /\ let w := kaiser_at a (2 * i + 2 * Z.of_nat K + 1) TAPS in 0 <= w <= 1 /\ Rabs (v i - w) <= 530 * u).
  { intros i Hi. assert (D : wdom (2 * i + 2 * Z.of_nat K + 1) TAPS) by (unfold TAPS in *; repeat split; lia). destruct (kaiser_round emin prec Hp He a _ TAPS H64 Ha D H1) as (v0 & x0 & m0 & E & X & M & Bd).
    destruct (kaiser_at_spec emin prec Hp He a _ TAPS Ha D) as (x1 & m1 & X1 & M1 & K1 & R1). rewrite (I0_unique _ _ _ X X1), (I0_unique _ _ _ M M1), <- K1 in Bd. unfold v. rewrite E. rewrite <- K1 in R1. split; [reflexivity|]. cbv zeta. split; [exact R1|exact Bd]. }
  set (sg := fun i => if Z.even i then 1 else -1).
  set (g := fun i => rnd (v i * rnd (rnd (/ 2 * sg i) / rnd (rnd (HalfPi (Fn rnd) * / 2) * rnd (IZR (4 * i + 2)))))).
  unfold cdc_new. pose proof (quarter_eq K HK : quarter TAPS = _) as Qe. pose proof (half_eq K HK : half TAPS = _) as Hf. rewrite Qe, Hf.
  assert (Tw : forall n, (0 <= n < TAPS)%Z -> fir_twox n TAPS = Ok (2 * n - 4 * Z.of_nat K)%Z).
  { intros n Hn. unfold fir_twox. rewrite !ichk_ok by (unfold INT_MIN, INT_MAX, TAPS in *; lia). cbn [bind]. rewrite ichk_ok by (unfold INT_MIN, INT_MAX, TAPS in *; lia). f_equal. unfold TAPS. lia. }
  assert (Rc0 : cdc_co (Fn rnd) (uc_ptrig (Fn rnd)) TAPS a (2 * Z.of_nat K) = Ok (/ 2)).
  { unfold cdc_co. pose proof (kaiser_mid emin prec Hp He H64 a K Ha HK H1 H2) as Km. fold TAPS in Km. rewrite Km. cbn [bind]. unfold lowpass2. rewrite fac_half. cbn [bind]. rewrite Tw by (unfold TAPS; lia). cbn [bind].
    replace (2 * (2 * Z.of_nat K) - 4 * Z.of_nat K =? 0)%Z with true by (symmetry; apply Z.eqb_eq; lia). cbn [bind nmul Fn]. rewrite Rmult_1_l, rhalf. reflexivity. }
  rewrite Rc0. cbn [bind].
  rewrite (ofill_spec _ g).
  2:{ intros j Hj. unfold cdc_co. rewrite (proj1 (V j ltac:(lia))). cbn [bind]. unfold lowpass2. rewrite fac_half. cbn [bind]. rewrite Tw by (unfold TAPS; lia). cbn [bind].
    replace (2 * (2 * j + 2 * Z.of_nat K + 1) - 4 * Z.of_nat K)%Z with (4 * j + 2)%Z by lia. replace (4 * j + 2 =? 0)%Z with false by (symmetry; apply Z.eqb_neq; lia).
    unfold fir_sin. rewrite Z.mul_1_r, !ichk_ok by (unfold INT_MIN, INT_MAX, TAPS in *; lia). cbn [bind]. unfold irem. change (2 * 4)%Z with 8%Z. cbn [Z.eqb bind psin uc_ptrig].
    rewrite sin_quarter by lia. reflexivity. }
  cbn [bind]. rewrite !Nat2Z.id. replace (Z.to_nat (2 * Z.of_nat K)) with (2 * K)%nat by lia. set (imco := wind _ 0 K).
  assert (HL : length imco = K) by apply wind_length. exists imco. split; [reflexivity|]. split; [exact HL|].
  intros i Hi. set (c := hbk a K _). set (C := 1 / (PI * IZR (2 * Z.of_nat i + 1))). assert (Ic : nth i imco 0 = g (Z.of_nat i)).
  { pose proof (ico_get (Fn rnd) K HK imco HL (Z.of_nat i) ltac:(lia)) as Q. unfold imco in Q at 1. rewrite wind_get in Q by lia. injection Q as Q. unfold ico in Q. rewrite Nat2Z.id in Q. exact (eq_sym Q). }
  rewrite Ic. destruct (V (Z.of_nat i) ltac:(lia)) as (_ & W0 & W1). cbv zeta in W0, W1.
  assert (Hsg : sg (Z.of_nat i) = 1 \/ sg (Z.of_nat i) = -1) by (unfold sg; destruct (Z.even _); auto).
  destruct (hb_err (4 * Z.of_nat i + 2) (sg (Z.of_nat i)) _ _ ltac:(unfold TAPS in *; lia) Hsg W0 W1) as (Ce & _). cbv zeta in Ce.
  assert (Z1 : 1 <= IZR (2 * Z.of_nat i + 1)) by (apply IZR_le; lia).
  assert (CC : 2 / (PI * IZR (4 * Z.of_nat i + 2)) = C). { unfold C. replace (4 * Z.of_nat i + 2)%Z with (2 * (2 * Z.of_nat i + 1))%Z by lia. rewrite mult_IZR. field. lra. } rewrite CC in Ce.
  set (w := kaiser_at a (2 * Z.of_nat i + 2 * Z.of_nat K + 1) TAPS) in *.
  assert (Ec : c = w * (sg (Z.of_nat i) * C)).
  { unfold c, hbk. replace (2 * Z.of_nat K + (2 * Z.of_nat i + 1) - 2 * Z.of_nat K)%Z with (2 * Z.of_nat i + 1)%Z by lia. replace (2 * Z.of_nat i + 1 =? 0)%Z with false by (symmetry; apply Z.eqb_neq; lia).
    rewrite Z.even_add, Z.even_mul. cbn [Z.even orb Bool.eqb]. rewrite sin_odd. replace (2 * Z.of_nat K + (2 * Z.of_nat i + 1))%Z with (2 * Z.of_nat i + 2 * Z.of_nat K + 1)%Z by lia. fold TAPS. fold w. fold (sg (Z.of_nat i)). unfold C. field. lra. }
  assert (3.1415 <= PI * IZR (2 * Z.of_nat i + 1)) by (apply Rle_trans with (PI * 1); [lra|apply Rmult_le_compat_l; lra]).
  assert (CB : 0 < C <= 1 / 3). { unfold C. split; [apply Rdiv_lt_0_compat; lra|]. set (D := PI * IZR (2 * Z.of_nat i + 1)) in *. apply (Rmult_le_reg_r D); [lra|]. replace (1 / D * D) with 1 by (field; lra). lra. }
  rewrite Ec. split; [exact Ce|]. split; [|exact CB]. rewrite !Rabs_mult, (Rabs_pos_eq w), (Rabs_pos_eq C) by lra. replace (Rabs (sg (Z.of_nat i))) with 1 by (destruct Hsg as [-> | ->]; [rewrite Rabs_R1; reflexivity|rewrite Rabs_left; lra]).
  rewrite Rmult_1_l. rewrite <- (Rmult_1_l C) at 2. apply Rmult_le_compat_r; lra.
Qed.
End Flt.

(** halving is exact unless it underflows *)
Lemma halve_err (emin prec : Z) (x : R) : (1 <= prec)%Z -> FLTfmt emin prec x -> Rabs (FLTrnd emin prec (/ 2 * x) - / 2 * x) <= bpow radix2 (emin - 1) /\
  (bpow radix2 (emin + prec) <= Rabs x -> FLTrnd emin prec (/ 2 * x) = / 2 * x).
Proof.
  intros Hp Fx. assert (Pp : Prec_gt_0 prec) by (red; lia). assert (B : / 2 * x = x * bpow radix2 (-1)) by (cbn; lra).
  assert (X : bpow radix2 (emin + prec) <= Rabs x -> FLTrnd emin prec (/ 2 * x) = / 2 * x).
  { intros H. apply round_generic; [typeclasses eauto|]. rewrite B. apply mult_bpow_exact_FLT; [exact Fx|]. assert (emin + prec < mag radix2 x)%Z; [|lia]. apply mag_gt_bpow. exact H. }
  split; [|exact X]. destruct (Rle_or_lt (bpow radix2 (emin + prec)) (Rabs x)) as [H|H]; [rewrite X by exact H; rewrite Rminus_diag_eq, Rabs_R0 by reflexivity; apply bpow_ge_0|].
  eapply Rle_trans; [apply error_le_half_ulp; apply FLT_exp_valid; exact Pp|]. rewrite ulp_FLT_small; [|exact Pp|].
  - unfold Z.sub. rewrite bpow_plus. cbn [bpow]. cbn. lra.
  - rewrite Rabs_mult, (Rabs_pos_eq (/ 2)) by lra. pose proof (bpow_gt_0 radix2 (emin + prec)). pose proof (Rabs_pos x). lra.
Qed.
