(* C82: frequency response of the Hilbert transformer (hilbert.hh) and of the Fs/4 down-converter (cdc.hh) *)
From Coq Require Import Reals ZArith Lia Lra List.
From Coquelicot Require Import Coquelicot.
From Flocq Require Import Core.
From Interval Require Import Tactic.
From Verif Require Import Model.Cdc Spec.Dft Spec.Fir Spec.ExactConst Proofs.BaseLemmas Proofs.ConstProofs Proofs.WinProofs Proofs.FirProofs Proofs.CdcProofs Proofs.HilbertFreq Props.PWinFun Props.PCdc.
Import ListNotations.
Open Scope R_scope.

(** the gain of the imaginary part at angular frequency v: c_i belongs to the distances 2i+1 *)
Definition gain (K : nat) (c : nat -> R) (v : R) : R := 2 * Rsumn K (fun i => c i * sin (v * (2 * INR i + 1))).
(** the coefficients of the constructor *)
Definition windowed (K : nat) (a : R) (c : nat -> R) : Prop := let TAPS := (4 * Z.of_nat K + 1)%Z in
  forall i, (i < K)%nat -> exists w, win_kaiser Rc a (2 * Z.of_nat K + 2 * Z.of_nat i + 1) TAPS = Ok w /\ c i = w * (2 / (PI * (2 * INR i + 1))).

Lemma hilbert_base K n : (1 <= K)%nat -> (16 * (4 * Z.of_nat K + 1) <= INT_MAX)%Z -> (0 <= n < 4 * Z.of_nat K + 1)%Z ->
  hilbert_transform Rc n (4 * Z.of_nat K + 1) = Ok (hk (n - 2 * Z.of_nat K)).
Proof.
  intros HK HT Hn. unfold INT_MAX in *. unfold hilbert_transform. rewrite Z.odd_add, Z.odd_mul. cbn [Z.odd andb xorb]. rewrite ichk_ok by (unfold INT_MIN, INT_MAX; lia). cbn [bind].
  replace (Z.quot (4 * Z.of_nat K + 1 - 1) 2) with (2 * Z.of_nat K)%Z by (rewrite Z.quot_div_nonneg by lia; replace (4 * Z.of_nat K + 1 - 1)%Z with (2 * Z.of_nat K * 2)%Z by ring; rewrite Z.div_mul; lia).
  rewrite ichk_ok by (unfold INT_MIN, INT_MAX; lia). cbn [bind]. rewrite pi_rc. reflexivity.
Qed.
Lemma hk_opp d : hk (- d) = - hk d.
Proof. unfold hk. rewrite Z.odd_opp, opp_IZR. destruct (Z.odd d) eqn:O; [|ring]. assert (IZR d <> 0) by (apply not_0_IZR; intros ->; discriminate). pose proof PI_RGT_0. field. split; lra. Qed.
(** the window, as a function *)
Definition kwin (K : nat) (a : R) (n : Z) : R := let TAPS := (4 * Z.of_nat K + 1)%Z in
  sum_f_R0 (Bessel.bessel_term (PI * a * sqrt (1 - kq n TAPS * kq n TAPS))) 34 / sum_f_R0 (Bessel.bessel_term (PI * a)) 34.
Lemma kwin_eq K a n : (1 <= K)%nat -> (16 * (4 * Z.of_nat K + 1) <= INT_MAX)%Z -> (0 <= n < 4 * Z.of_nat K + 1)%Z -> win_kaiser Rc a n (4 * Z.of_nat K + 1) = Ok (kwin K a n).
Proof. intros HK HT Hn. apply kaiser_eq. repeat split; lia. Qed.
Lemma kwin_sym K a d : (1 <= K)%nat -> (16 * (4 * Z.of_nat K + 1) <= INT_MAX)%Z -> (0 <= d <= 2 * Z.of_nat K)%Z -> kwin K a (2 * Z.of_nat K - d) = kwin K a (2 * Z.of_nat K + d).
Proof. intros HK HT Hd. unfold kwin. rewrite (kq_sym (2 * Z.of_nat K + d) (2 * Z.of_nat K - d)) by (repeat split; lia). do 6 f_equal. ring. Qed.
Lemma kwin_mid K a : (1 <= K)%nat -> (16 * (4 * Z.of_nat K + 1) <= INT_MAX)%Z -> kwin K a (2 * Z.of_nat K) = 1.
Proof. intros HK HT. unfold kwin. rewrite kq_mid by (repeat split; lia). rewrite Rmult_0_l, Rminus_0_r, sqrt_1, Rmult_1_r. field. pose proof (bsum_ge1 (PI * a) 34). lra. Qed.

(** C82  A sinusoid of any frequency and phase comes out, from call TAPS on, as the delayed sinusoid in the real part and, exactly
    a quarter turn behind, gain(v) times it in the imaginary part. The gain is odd, vanishes at 0 and pi, and is the same
    at v and pi - v. *)
Theorem C82_quadrature (K : nat) (a : R) : let TAPS := (4 * Z.of_nat K + 1)%Z in (1 <= K)%nat -> (16 * TAPS <= INT_MAX)%Z ->
  exists c, windowed K a c /\
  (forall v p (x : nat -> R) t, (forall s, x s = cos (v * INR s + p)) -> (TAPS <= Z.of_nat t)%Z ->
    let q := v * (INR t - 1 - 2 * INR K) + p in
    oout (hilbert_step Rc TAPS) (hilbert_new Rc TAPS a) x t = Ok (cos q, gain K c v * cos (q - PI / 2))) /\
  (forall v, gain K c (- v) = - gain K c v /\ gain K c (PI - v) = gain K c v) /\ gain K c 0 = 0 /\ gain K c PI = 0.
Proof.
  intros TAPS HK HT. destruct (C51_hilbert K a HK HT) as (h & Hh & Ho). fold TAPS in Hh, Ho.
  assert (He : forall n, (0 <= n < TAPS)%Z -> h n = kwin K a n * hk (n - 2 * Z.of_nat K)).
  { intros n Hn. destruct (Hh n Hn) as (w & b & W & B & E). unfold TAPS in *. rewrite kwin_eq in W by auto. rewrite hilbert_base in B by auto. congruence. }
  assert (As : antisym K h).
  { intros d Hd. rewrite !He by (unfold TAPS; lia). rewrite kwin_sym by auto. replace (2 * Z.of_nat K - d - 2 * Z.of_nat K)%Z with (- d)%Z by lia. replace (2 * Z.of_nat K + d - 2 * Z.of_nat K)%Z with d by lia. rewrite hk_opp. ring. }
  assert (Ev : forall d, (0 <= d <= 4 * Z.of_nat K)%Z -> Z.even d = true -> h d = 0).
  { intros d Hd E. rewrite He by (unfold TAPS; lia). unfold hk. rewrite <- Z.negb_even, Z.even_sub, E, Z.even_mul. cbn. ring. }
  set (c := fun i : nat => h (2 * Z.of_nat K + (2 * Z.of_nat i + 1))%Z).
  assert (Ii : forall i, IZR (2 * Z.of_nat i + 1) = 2 * INR i + 1) by (intros i; rewrite plus_IZR, mult_IZR, <- INR_IZR_INZ; reflexivity).
  assert (Ga : forall v, amp K h v = gain K c v). { intros v. rewrite amp_odd by auto. unfold gain, c. f_equal. apply Rsumn_ext. intros i Hi. rewrite Ii. reflexivity. }
  assert (Gs : forall v, gain K c (PI - v) = gain K c v).
  { intros v. unfold gain. f_equal. apply Rsumn_ext. intros i Hi. f_equal. replace ((PI - v) * (2 * INR i + 1)) with (PI - v * (2 * INR i + 1) + 2 * INR i * PI) by ring. rewrite sin_period. apply sin_PI_x. }
  assert (Go : forall v, gain K c (- v) = - gain K c v).
  { intros v. unfold gain. replace (- (2 * Rsumn K (fun i => c i * sin (v * (2 * INR i + 1))))) with (2 * (-1 * Rsumn K (fun i => c i * sin (v * (2 * INR i + 1))))) by ring. rewrite <- (Rsumn_scal K (-1)). f_equal. apply Rsumn_ext. intros i Hi.
    rewrite <- Ropp_mult_distr_l, sin_neg. ring. }
  assert (G0 : gain K c 0 = 0). { pose proof (Go 0) as E. rewrite Ropp_0 in E. lra. }
  exists c. splits; auto.
  - intros i Hi. exists (kwin K a (2 * Z.of_nat K + 2 * Z.of_nat i + 1)). split; [apply kwin_eq; auto; unfold TAPS; lia|]. unfold c. rewrite He by (unfold TAPS; lia).
    replace (2 * Z.of_nat K + (2 * Z.of_nat i + 1))%Z with (2 * Z.of_nat K + 2 * Z.of_nat i + 1)%Z by lia. f_equal. unfold hk.
    replace (2 * Z.of_nat K + 2 * Z.of_nat i + 1 - 2 * Z.of_nat K)%Z with (2 * Z.of_nat i + 1)%Z by lia. rewrite Z.odd_add, Z.odd_mul. cbn [Z.odd andb xorb]. rewrite Ii. reflexivity.
  - intros v p x t Hx Ht q. rewrite Ho. f_equal.
    assert (Hc : forall m : Z, (0 <= m)%Z -> causal x m = cos (v * IZR m + p)). { intros m Hm. unfold causal. rewrite (proj2 (Z.ltb_ge m 0)) by lia. rewrite Hx, INR_IZR_INZ, Z2Nat.id by auto. reflexivity. }
    replace ((TAPS - 1) / 2)%Z with (2 * Z.of_nat K)%Z by (unfold TAPS; replace (4 * Z.of_nat K + 1 - 1)%Z with (2 * Z.of_nat K * 2)%Z by ring; rewrite Z.div_mul; lia).
    assert (Q : v * IZR (Z.of_nat t - 1 - 2 * Z.of_nat K) + p = q) by (unfold q; rewrite !minus_IZR, mult_IZR, <- !INR_IZR_INZ; ring).
    f_equal; [rewrite Hc by lia; f_equal; exact Q|]. rewrite (quad K h (causal x) v p) by (auto; intros j Hj; apply Hc; unfold TAPS in *; lia). rewrite Q, Ga. f_equal.
    rewrite cos_minus, cos_PI2, sin_PI2. ring.
  - rewrite <- G0. rewrite <- (Gs 0). f_equal. ring.
Qed.
Print Assumptions C82_quadrature.

(** C82  The two classes compute the same analytic signal: for every input, output t of CDC is half the output 2t+2 of Hilbert, fed with
    in0(0), in1(0), in0(1), in1(1), ..., turned by a power of i. *)
Theorem C82_cdc_is_hilbert (K : nat) (a : R) (in0 in1 : nat -> R) (t : nat) : let TAPS := (4 * Z.of_nat K + 1)%Z in (1 <= K)%nat -> (16 * TAPS <= INT_MAX)%Z ->
  exists z : C, oout (hilbert_step Rc TAPS) (hilbert_new Rc TAPS a) (interleave in0 in1) (2 * t + 2) = Ok z /\
  oout (cdc_step Rc TAPS) (cdc_new Rc exact_ptrig TAPS a) (fun u => (in0 u, in1 u)) t = Ok (Ci * cis (- (PI / 2) * (2 * INR t + 1 - 2 * INR K)) * z / 2)%C.
Proof.
  intros TAPS HK HT. destruct (C51_hilbert K a HK HT) as (h & Hh & Ho). destruct (C50_cdc K a HK HT) as (g & Hg & Go). fold TAPS in Hh, Ho, Hg, Go.
  assert (He : forall n, (0 <= n < TAPS)%Z -> h n = kwin K a n * hk (n - 2 * Z.of_nat K)).
  { intros n Hn. destruct (Hh n Hn) as (w & b & W & B & E). unfold TAPS in *. rewrite kwin_eq in W by auto. rewrite hilbert_base in B by auto. congruence. }
  assert (Ge : forall n, (0 <= n < TAPS)%Z -> g n = kwin K a n * lk (n - 2 * Z.of_nat K)).
  { intros n Hn. destruct (Hg n Hn) as (w & b & W & B & E). unfold TAPS in *. rewrite kwin_eq in W by auto. unfold INT_MAX in *. rewrite lowpass2_eq in B by (repeat split; unfold INT_MAX; lia).
    assert (Ew : w = kwin K a n) by congruence. assert (Eb : b = 2 * (1 / 4) * rsinc (2 * (1 / 4) * fx n (4 * Z.of_nat K + 1))) by congruence. rewrite E, Ew, Eb. unfold lk, fx. assert (X : IZR n - IZR (4 * Z.of_nat K + 1 - 1) / 2 = IZR (n - 2 * Z.of_nat K)) by (rewrite !minus_IZR, plus_IZR, !mult_IZR; field). rewrite X. reflexivity. }
  eexists. split; [apply Ho|]. rewrite Go. f_equal. set (x := causal (interleave in0 in1)).
  rewrite (mixed K (kwin K a) g h x) by (auto; apply kwin_mid; auto). fold TAPS.
  replace (Z.of_nat (2 * t + 2) - 1)%Z with (2 * Z.of_nat t + 1)%Z by lia.
  replace ((TAPS - 1) / 2)%Z with (2 * Z.of_nat K)%Z by (unfold TAPS; replace (4 * Z.of_nat K + 1 - 1)%Z with (2 * Z.of_nat K * 2)%Z by ring; rewrite Z.div_mul; lia).
  rewrite minus_IZR, plus_IZR, !mult_IZR, <- !INR_IZR_INZ. change (2 * Z.of_nat t + 1 - 2 * Z.of_nat K)%Z with (2 * Z.of_nat t + 1 - 2 * Z.of_nat K)%Z.
  rewrite RtoC_inv by lra. field. intros Q. injection Q. lra.
Qed.
Print Assumptions C82_cdc_is_hilbert.

(** the window sum by Horner's rule, for its numerical values *)
Fixpoint horner (y : R) (k : nat) (m : Z) : R := match k with O => 1 | S k' => 1 + y / (IZR (m + 1) * IZR (m + 1)) * horner y k' (m + 1) end.
Lemma horner_sum x k : forall m, sum_f_R0 (fun j => Bessel.bessel_term x (m + j)) k = Bessel.bessel_term x m * horner ((x / 2) ^ 2) k (Z.of_nat m).
Proof.
  induction k as [|k IH]; intros m; [cbn; rewrite Nat.add_0_r; ring|]. rewrite decomp_sum by lia. cbn [Init.Nat.pred].
  rewrite (sum_eq _ (fun j => Bessel.bessel_term x (S m + j))) by (intros j _; f_equal; lia). rewrite IH, Nat.add_0_r. cbn [horner]. replace (Z.of_nat m + 1)%Z with (Z.of_nat (S m)) by lia. rewrite <- INR_IZR_INZ.
  set (H := horner _ _ _). unfold Bessel.bessel_term. change (fact (S m)) with (S m * fact m)%nat. rewrite mult_INR. cbn [pow]. assert (INR (S m) <> 0) by (apply not_0_INR; lia). pose proof (INR_fact_neq_0 m). field. auto.
Qed.
Lemma kwin_horner i : (i < 8)%nat -> kwin 8 2 (2 * Z.of_nat 8 + 2 * Z.of_nat i + 1) = horner (PI ^ 2 * (1 - (IZR (2 * Z.of_nat i + 1) / 16) ^ 2)) 34 0 / horner (PI ^ 2) 34 0.
Proof.
  intros Hi. unfold kwin. cbv zeta. pose proof (horner_sum (PI * 2) 34 0) as E1. set (r := sqrt _). pose proof (horner_sum (PI * 2 * r) 34 0) as E2. cbn [Nat.add] in E1, E2.
  change (fun j => Bessel.bessel_term (PI * 2) j) with (Bessel.bessel_term (PI * 2)) in E1. change (fun j => Bessel.bessel_term (PI * 2 * r) j) with (Bessel.bessel_term (PI * 2 * r)) in E2.
  rewrite E1, E2. assert (B : forall x, Bessel.bessel_term x 0 = 1) by (intros x; unfold Bessel.bessel_term; cbn; field). rewrite !B, !Rmult_1_l.
  replace ((PI * 2 / 2) ^ 2) with (PI ^ 2) by field. f_equal. f_equal. replace ((PI * 2 * r / 2) ^ 2) with (PI ^ 2 * (r * r)) by field. f_equal. unfold r.
  assert (Q : kq (2 * Z.of_nat 8 + 2 * Z.of_nat i + 1) (4 * Z.of_nat 8 + 1) = IZR (2 * Z.of_nat i + 1) / 16).
  { unfold kq. replace (4 * Z.of_nat 8 + 1 - 1)%Z with 32%Z by lia. replace (2 * Z.of_nat 8 + 2 * Z.of_nat i + 1)%Z with (16 + (2 * Z.of_nat i + 1))%Z by lia. rewrite (plus_IZR 16). field. }
  rewrite Q. set (z := IZR _ / 16). assert (0 <= z <= 1). { unfold z. assert (0 <= IZR (2 * Z.of_nat i + 1) <= 16) by (split; apply IZR_le; lia). lra. }
  rewrite sqrt_sqrt by nra. ring.
Qed.
(** C82  With the default window (a = 2) and 33 taps the gain is within 0.001 of 1 from v = 0.5 to pi - 0.5. *)
Theorem C82_33_taps (c : nat -> R) (v : R) : windowed 8 2 c -> 0.5 <= v <= PI - 0.5 -> Rabs (gain 8 c v - 1) <= 0.001.
Proof.
  intros W Hv.
  assert (M : forall v, 0.5 <= v <= 1.571 -> Rabs (gain 8 c v - 1) <= 0.001).
  { clear v Hv. intros v Hv.
    assert (E : forall i, (i < 8)%nat -> c i = kwin 8 2 (2 * Z.of_nat 8 + 2 * Z.of_nat i + 1) * (2 / (PI * (2 * INR i + 1)))).
    { intros i Hi. destruct (W i Hi) as (w & Ew & ->). rewrite kwin_eq in Ew by (unfold INT_MAX; lia). congruence. }
    assert (Q : forall i w, (i < 8)%nat -> (w = horner (PI ^ 2 * (1 - (IZR (2 * Z.of_nat i + 1) / 16) ^ 2)) 34 0 / horner (PI ^ 2) 34 0 * (2 / (PI * IZR (2 * Z.of_nat i + 1)))) -> c i = w).
    { intros i w Hi ->. rewrite E, kwin_horner by auto. rewrite plus_IZR, mult_IZR, <- INR_IZR_INZ. reflexivity. }
    assert (B0 : Rabs (c 0%nat - 0.629493) <= 1e-6) by (rewrite (Q 0%nat _ ltac:(lia) eq_refl); cbn [horner Z.of_nat Z.add Z.mul Pos.add Pos.mul Pos.succ Pos.of_succ_nat]; interval).
    assert (B1 : Rabs (c 1%nat - 0.191620) <= 1e-6) by (rewrite (Q 1%nat _ ltac:(lia) eq_refl); cbn [horner Z.of_nat Z.add Z.mul Pos.add Pos.mul Pos.succ Pos.of_succ_nat]; interval).
    assert (B2 : Rabs (c 2%nat - 0.095492) <= 1e-6) by (rewrite (Q 2%nat _ ltac:(lia) eq_refl); cbn [horner Z.of_nat Z.add Z.mul Pos.add Pos.mul Pos.succ Pos.of_succ_nat]; interval).
    assert (B3 : Rabs (c 3%nat - 0.051056) <= 1e-6) by (rewrite (Q 3%nat _ ltac:(lia) eq_refl); cbn [horner Z.of_nat Z.add Z.mul Pos.add Pos.mul Pos.succ Pos.of_succ_nat]; interval).
    assert (B4 : Rabs (c 4%nat - 0.026339) <= 1e-6) by (rewrite (Q 4%nat _ ltac:(lia) eq_refl); cbn [horner Z.of_nat Z.add Z.mul Pos.add Pos.mul Pos.succ Pos.of_succ_nat]; interval).
    assert (B5 : Rabs (c 5%nat - 0.012275) <= 1e-6) by (rewrite (Q 5%nat _ ltac:(lia) eq_refl); cbn [horner Z.of_nat Z.add Z.mul Pos.add Pos.mul Pos.succ Pos.of_succ_nat]; interval).
    assert (B6 : Rabs (c 6%nat - 0.004760) <= 1e-6) by (rewrite (Q 6%nat _ ltac:(lia) eq_refl); cbn [horner Z.of_nat Z.add Z.mul Pos.add Pos.mul Pos.succ Pos.of_succ_nat]; interval).
    assert (B7 : Rabs (c 7%nat - 0.001268) <= 1e-6) by (rewrite (Q 7%nat _ ltac:(lia) eq_refl); cbn [horner Z.of_nat Z.add Z.mul Pos.add Pos.mul Pos.succ Pos.of_succ_nat]; interval).
    set (g0 := fun v => 2 * (0.629493 * sin v + 0.191620 * sin (v * 3) + 0.095492 * sin (v * 5) + 0.051056 * sin (v * 7) + 0.026339 * sin (v * 9) + 0.012275 * sin (v * 11) + 0.004760 * sin (v * 13) + 0.001268 * sin (v * 15)) - 1).
    assert (G0 : Rabs (g0 v) <= 0.0009) by (unfold g0; interval with (i_bisect v, i_depth 20, i_autodiff v)).
    assert (D : Rabs (gain 8 c v - 1 - g0 v) <= 0.00002).
    { unfold gain, g0. cbn [Rsumn]. replace (INR 0) with 0 by reflexivity.
      replace (INR 1) with 1 by (rewrite INR_IZR_INZ; reflexivity). replace (INR 2) with 2 by (rewrite INR_IZR_INZ; reflexivity). replace (INR 3) with 3 by (rewrite INR_IZR_INZ; reflexivity). replace (INR 4) with 4 by (rewrite INR_IZR_INZ; reflexivity).
      replace (INR 5) with 5 by (rewrite INR_IZR_INZ; reflexivity). replace (INR 6) with 6 by (rewrite INR_IZR_INZ; reflexivity). replace (INR 7) with 7 by (rewrite INR_IZR_INZ; reflexivity).
      replace (v * (2 * 0 + 1)) with v by ring. replace (v * (2 * 1 + 1)) with (v * 3) by ring. replace (v * (2 * 2 + 1)) with (v * 5) by ring. replace (v * (2 * 3 + 1)) with (v * 7) by ring.
      replace (v * (2 * 4 + 1)) with (v * 9) by ring. replace (v * (2 * 5 + 1)) with (v * 11) by ring. replace (v * (2 * 6 + 1)) with (v * 13) by ring. replace (v * (2 * 7 + 1)) with (v * 15) by ring.
      assert (P : forall b d s, Rabs (b - d) <= 1e-6 -> Rabs (b * sin s - d * sin s) <= 1e-6).
      { intros b d s Hb. replace (b * sin s - d * sin s) with ((b - d) * sin s) by ring. rewrite Rabs_mult. pose proof (SIN_bound s) as SB. assert (Rabs (sin s) <= 1) by (apply Rabs_le; lra). pose proof (Rabs_pos (b - d)). nra. }
      pose proof (P _ _ v B0) as P0. pose proof (P _ _ (v * 3) B1) as P1. pose proof (P _ _ (v * 5) B2) as P2. pose proof (P _ _ (v * 7) B3) as P3. pose proof (P _ _ (v * 9) B4) as P4. pose proof (P _ _ (v * 11) B5) as P5. pose proof (P _ _ (v * 13) B6) as P6. pose proof (P _ _ (v * 15) B7) as P7.
      apply Rabs_le_inv in P0, P1, P2, P3, P4, P5, P6, P7. apply Rabs_le. lra. }
    apply Rabs_le_inv in G0, D. apply Rabs_le. lra. }
  destruct (Rle_dec v (PI / 2)) as [L|L].
  - apply M. split; [lra|]. apply Rle_trans with (PI / 2); auto. interval.
  - replace (gain 8 c v) with (gain 8 c (PI - v)).
    + apply M. split; [lra|]. apply Rle_trans with (PI / 2); [lra|]. interval.
    + unfold gain. f_equal. apply Rsumn_ext. intros i Hi. f_equal. replace ((PI - v) * (2 * INR i + 1)) with (PI - v * (2 * INR i + 1) + 2 * INR i * PI) by ring. rewrite sin_period. apply sin_PI_x.
Qed.
Print Assumptions C82_33_taps.
(** the constructor makes such coefficients; at v = 1 both parts of the output have the same size up to 0.1 % *)
Example C82_example : exists c, windowed 8 2 c /\ Rabs (gain 8 c 1 - 1) <= 0.001.
Proof. destruct (C82_quadrature 8 2) as (c & W & _); [lia|unfold INT_MAX; lia|]. exists c. split; auto. apply C82_33_taps; auto. split; interval. Qed.
