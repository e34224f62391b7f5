(* C96: RealToHalfComplexTransform (fft.hh) in floating point: any arithmetic, rounding error, overflow *)
From Coq Require Import ZArith Reals Lia Lra List.
From Flocq Require Import Core BinarySingleNaN.
From Coquelicot Require Import Complex.
From Interval Require Import Tactic.
From Verif Require Import Model.Base Proofs.BaseLemmas Model.Num Model.Complex Model.Const Model.NumIeee Spec.Rounding Proofs.IeeeProofs Spec.Dft Model.Fft Model.UnitCircle Proofs.FftSplit Proofs.FftProofs Proofs.FftRound Proofs.UcRound Proofs.Param Proofs.IeeeFun Proofs.IeeeFft Proofs.RhctRound Proofs.RhctIeee Props.PFftRound Props.PIeeeFft.
Import ListNotations.
Open Scope R_scope.

(** Whatever the arithmetic and the trigonometric functions do: all reads and writes are inside the arrays, the bins
    0 .. BINS/2 and only these are written. *)
Theorem C96_memory_safe {T : Type} (N : num T) (tr : trig T) (BINS : Z) (out : list (option (cplx T))) (inp : list T) :
  (0 < BINS)%Z -> (BINS mod 2 = 0)%Z -> smooth31 (BINS / 2) -> zlen inp = BINS -> (BINS / 2 + 1 <= zlen out)%Z ->
  exists out', rhct N tr BINS out inp = Ok out' /\ zlen out' = zlen out /\
    (forall k, (BINS / 2 < k)%Z -> znth out' k = znth out k) /\ forall k, (0 <= k <= BINS / 2)%Z -> exists v, znth out' k = Some (Some v).
Proof. exact (rhct_safe N tr BINS out inp). Qed.
Print Assumptions C96_memory_safe.

(** what the transform is to compute: the spectrum of the real input, its two real bins (0 and BINS/2) halved *)
Definition half_spectrum (BINS : Z) (x : list R) (k : Z) : C :=
  let X := DFT (-1) (Z.to_nat BINS) (fun n => RtoC (nth n x 0)) (Z.to_nat k) in
  if orb (k =? 0)%Z (k =? BINS / 2)%Z then (RtoC (1 / 2) * X)%C else X.

(** Rounding errors, as in C76: operations rounded with relative error u (absolute error e near zero), tables wrong by
    at most t.  X bounds the moduli sqrt(x[2n]^2 + x[2n+1]^2). *)
Theorem C96_rounding_error (u e t h X : R) (rnd : R -> R) (tr : trig R) (BINS : Z) (out : list (option C)) (inp : list R) (m : nat) :
  0 <= u -> 0 <= e -> rounding u e rnd -> rnd (1 / 2) = 1 / 2 -> 0 < X ->
  (forall n M, (0 <= n < M)%Z -> (M <= Z.max 31 BINS)%Z ->
     Rabs (tcos tr n M - cos (2 * PI * IZR n / IZR M)) <= t /\ Rabs (tsin tr n M - sin (2 * PI * IZR n / IZR M)) <= t) ->
  Rabs (trsqrt2 tr - / sqrt 2) <= t -> t <= h -> u + 2 * e / X <= h -> u * (1 + t) + e <= h ->
  (0 < BINS)%Z -> (BINS mod 2 = 0)%Z -> smooth31 (BINS / 2) -> zlen inp = BINS -> (BINS / 2 + 1 <= zlen out)%Z -> (BINS / 2 <= 2 ^ Z.of_nat m)%Z ->
  (forall n, Cmod (nth (2 * n) inp 0, nth (2 * n + 1) inp 0) <= X) ->
  exists out' : list (option C), rhct (Fn rnd) tr BINS out inp = Ok out' /\ zlen out' = zlen out /\
    (forall k, (BINS / 2 < k)%Z -> znth out' k = znth out k) /\
    forall k, (0 <= k <= BINS / 2)%Z -> exists v, znth out' k = Some (Some v) /\
      Cmod (v - half_spectrum BINS inp k)%C <= ((1 + h) ^ (11 * m + 8) - 1) * (IZR BINS * X).
Proof. intros. apply (rhct_round u e X h rnd tr) with (t := t); auto. Qed.
Print Assumptions C96_rounding_error.

(** the instances with the tables UnitCircle computes in the same arithmetic *)
Lemma rhct_uc p q Xmin (rnd : R -> R) BINS (out : list (option C)) (inp : list R) (m : nat) X :
  (-1080 <= q)%Z -> (q <= p - 30)%Z -> (-53 <= p <= -24)%Z -> (q - p - 2 <= Xmin)%Z -> rounding (bpow radix2 p) (bpow radix2 q) rnd -> rnd (1 / 2) = 1 / 2 ->
  (0 < BINS)%Z -> (BINS mod 2 = 0)%Z -> smooth31 (BINS / 2) -> (8 * BINS <= INT_MAX)%Z -> zlen inp = BINS -> (BINS / 2 + 1 <= zlen out)%Z -> (BINS / 2 <= 2 ^ Z.of_nat m)%Z -> (m <= 28)%nat ->
  bpow radix2 Xmin <= X -> (forall x, In x inp -> Rabs x <= X) ->
  exists out' : list (option C), rhct (Fn rnd) (uc_trig (Fn rnd)) BINS out inp = Ok out' /\ zlen out' = zlen out /\
    (forall k, (BINS / 2 < k)%Z -> znth out' k = znth out k) /\
    forall k, (0 <= k <= BINS / 2)%Z -> exists v, znth out' k = Some (Some v) /\
      Cmod (v - half_spectrum BINS inp k)%C <= (150 * INR m + 110) * bpow radix2 p * (IZR BINS * X).
Proof.
  intros H1 H2 H3 H4 Hr Rh HB Ev Hsm HI Li Lo Hm M28 HX Hin.
  destruct (fmt_range p q) as [Hu He]; try lia. set (u := bpow radix2 p) in *. set (e := bpow radix2 q) in *.
  assert (U53 : / 9007199254740992 <= u) by (change (/ 9007199254740992) with (bpow radix2 (-53)); apply bpow_le; lia).
  pose proof (bpow_gt_0 radix2 Xmin) as X0.
  assert (EX : 2 * e / (3 / 2 * X) <= 8 * u).
  { apply Rle_trans with (2 * e / bpow radix2 Xmin). { apply Rmult_le_compat_l; [lra|]. apply Rinv_le; auto. lra. }
    unfold Rdiv. rewrite <- bpow_opp. change 2 with (bpow radix2 1). change 8 with (bpow radix2 3). unfold e, u. rewrite <- !bpow_plus. apply bpow_le. lia. }
  assert (Hx : forall n, Rabs (nth n inp 0) <= X). { intros n. destruct (nth_in_or_default n inp 0) as [I| ->]; auto. rewrite Rabs_R0. lra. }
  destruct (rhct_round u e (3 / 2 * X) (9 * u) rnd (uc_trig (Fn rnd))) with (t := 8.5 * u) (BINS := BINS) (inp := inp) (out := out) (m := m) as (out' & E & L & U & V); auto; try lra.
  - assert (u * u <= u * (1 / 10000000)) by (apply Rmult_le_compat_l; lra). lra.
  - intros n M HnM HM. destruct (uc_round u e rnd Hu He Hr n M) as (c & s & E1 & E2 & A & B); try lia. { unfold INT_MAX in *; lia. }
    cbn [tcos tsin uc_trig]. rewrite E1, E2. lra.
  - cbn [trsqrt2 uc_trig]. unfold InvSqrtTwo. cbn [nlit Fn].
    assert (I1 : Rabs InvSqrtTwo_lit <= 0.71) by (unfold InvSqrtTwo_lit; interval).
    assert (I2 : Rabs (InvSqrtTwo_lit - / sqrt 2) <= 1e-60) by (unfold InvSqrtTwo_lit; interval with (i_prec 300)).
    pose proof (Hr InvSqrtTwo_lit) as Q. replace (rnd InvSqrtTwo_lit - / sqrt 2) with ((rnd InvSqrtTwo_lit - InvSqrtTwo_lit) + (InvSqrtTwo_lit - / sqrt 2)) by ring.
    eapply Rle_trans; [apply Rabs_triang|]. assert (u * Rabs InvSqrtTwo_lit <= u * 0.71) by (apply Rmult_le_compat_l; lra). lra.
  - intros n. eapply Rle_trans; [apply (Cmod_comp _ _ X X); apply Hx|]. apply Cmod_diag. lra.
  - exists out'. splits; auto. intros k Hk. destruct (V k Hk) as (v & Ev' & Hv). exists v. split; auto. eapply Rle_trans; [exact Hv|].
    replace (((1 + 9 * u) ^ (11 * m + 8) - 1) * (IZR BINS * (3 / 2 * X))) with ((((1 + 9 * u) ^ (11 * m + 8) - 1) * (3 / 2)) * (IZR BINS * X)) by ring.
    apply Rmult_le_compat_r. { apply Rmult_le_pos; [apply IZR_le; lia|lra]. }
    assert (IM : 0 <= INR m <= 28). { split; [apply pos_INR|]. apply le_INR in M28. cbn in M28. lra. }
    assert (I11 : INR (11 * m + 8) = 11 * INR m + 8) by (rewrite plus_INR, mult_INR; cbn; lra).
    pose proof (pow1h (9 * u) (11 * m + 8) ltac:(lra)) as Q. rewrite I11 in Q. specialize (Q ltac:(nra)).
    set (y := (11 * INR m + 8) * (9 * u)) in *. assert (Y : 0 <= y <= 1 / 1000) by (unfold y; nra).
    assert (y * y <= y * (1 / 1000)) by (apply Rmult_le_compat_l; lra). apply Rle_trans with (1.5015 * y); [lra|]. unfold y. nra.
Qed.
(** the values x[n] finite and at most X: the results are finite if 2 X BINS^3 < 2^emax, and every finite result is accurate *)
Lemma ieee_rhct_uc (prec emax Xmin : Z) (Hp : Prec_gt_0 prec) (Hpe : Prec_lt_emax prec emax) (BINS : Z) (out : list (option (cplx (binary_float prec emax)))) (inp : list (binary_float prec emax)) (m : nat) (X : R) :
  (24 <= prec <= 53)%Z -> (128 <= emax)%Z -> (emax + prec <= 1082)%Z -> (- emax <= Xmin)%Z ->
  (0 < BINS)%Z -> (BINS mod 2 = 0)%Z -> smooth31 (BINS / 2) -> (8 * BINS <= INT_MAX)%Z -> zlen inp = BINS -> (BINS / 2 + 1 <= zlen out)%Z -> (BINS / 2 <= 2 ^ Z.of_nat m)%Z -> (m <= 28)%nat ->
  bpow radix2 Xmin <= X -> (forall x, In x inp -> is_finite x = true /\ Rabs (B2R x) <= X) ->
  exists out', rhct (Bn prec emax) (uc_trig (Bn prec emax)) BINS out inp = Ok out' /\ zlen out' = zlen out /\ (forall k, (BINS / 2 < k)%Z -> znth out' k = znth out k) /\
  forall k, (0 <= k <= BINS / 2)%Z -> exists v, znth out' k = Some (Some v) /\ (2 * X * IZR BINS ^ 3 < bpow radix2 emax -> finite v) /\
    (finite v -> Cmod (value v - half_spectrum BINS (map B2R inp) k)%C <= (150 * INR m + 110) * bpow radix2 (- prec) * (IZR BINS * X)).
Proof.
  intros [P1 P2] E128 PE HXm HB Ev Hsm HI Li Lo Hm M28 HX Hin.
  destruct (rhct_uc (- prec) (2 - emax - prec) Xmin (brnd prec emax) BINS (map (option_map value) out) (map B2R inp) m X) as (outF & EF & LF & UF & VF); auto; try lia.
  { apply (rnd_ok prec emax P1 E128). } { replace (1 / 2) with (bpow radix2 (-1)) by (cbn; lra). apply rnd_pow; auto; lia. }
  { unfold zlen in *. rewrite map_length. auto. } { unfold zlen in *. rewrite map_length. auto. } { intros x Ix. apply in_map_iff in Ix. destruct Ix as (z & <- & Iz). apply Hin; auto. }
  destruct (rhct_safe (Bn prec emax) (uc_trig (Bn prec emax)) BINS out inp HB Ev Hsm Li Lo) as (out' & E & L & U & V). exists out'. splits; auto.
  pose proof (ieee_rhct_F prec emax P1 E128 BINS out inp HB HI) as RR. rewrite E in RR. change (cR prec emax) with (@value prec emax) in RR. rewrite EF in RR. cbn in RR.
  intros k Hk. destruct (V k Hk) as (v & Ev'). destruct (VF k Hk) as (w & Ew & Bw). exists v. splits; auto.
  - intros HL. destruct (ieee_rhct_M prec emax P1 E128 BINS out inp (Rmax 1 X)) as (o2 & E2 & V2); auto.
    { apply Rmax_l. }
    { unfold Rmax. destruct (Rle_dec 1 X); auto. rewrite pow_IZR. change (Z.of_nat 3) with 3%Z. apply Rle_lt_trans with (2 * 1 * IZR (2 ^ 84)).
      - apply Rmult_le_compat_l; [lra|]. apply IZR_le. replace 84%Z with (28 * 3)%Z by lia. rewrite Z.pow_mul_r by lia. apply Z.pow_le_mono_l. unfold INT_MAX in HI. change (2 ^ 28)%Z with 268435456%Z. lia.
      - change (IZR (2 ^ 84)) with (bpow radix2 84). rewrite Rmult_1_r. change 2 with (bpow radix2 1). rewrite <- bpow_plus. apply bpow_lt. lia. }
    { intros z Hz. destruct (Hin z Hz) as (Fz & B1). pose proof (Rmax_r 1 X). splits; auto; lra. }
    rewrite E in E2. injection E2 as <-. destruct (V2 k Hk) as (v2 & Ev2 & F2). rewrite Ev' in Ev2. injection Ev2 as <-. exact F2.
  - intros [F1 F2]. pose proof (znth_rel _ _ _ k RR) as Q. rewrite Ev' in Q. assert (Ew' : @znth (option (cplx R)) outF k = Some (Some w)) by exact Ew. rewrite Ew' in Q. destruct Q as [Q1 Q2]. replace (value v) with w; [exact Bw|]. destruct w as [w1 w2]. unfold value. cbn in Q1, Q2. rewrite (Q1 F1), (Q2 F2). reflexivity.
Qed.
Theorem C96_rhct_binary64 (BINS : Z) (out : list (option (cplx (binary_float 53 1024)))) (inp : list (binary_float 53 1024)) (m : nat) (X : R) :
  (0 < BINS)%Z -> (BINS mod 2 = 0)%Z -> smooth31 (BINS / 2) -> (8 * BINS <= INT_MAX)%Z -> zlen inp = BINS -> (BINS / 2 + 1 <= zlen out)%Z -> (BINS / 2 <= 2 ^ Z.of_nat m)%Z -> (m <= 28)%nat ->
  bpow radix2 (-1000) <= X -> (forall x, In x inp -> is_finite x = true /\ Rabs (B2R x) <= X) ->
  exists out', rhct b64 (uc_trig b64) BINS out inp = Ok out' /\ zlen out' = zlen out /\ (forall k, (BINS / 2 < k)%Z -> znth out' k = znth out k) /\
  forall k, (0 <= k <= BINS / 2)%Z -> exists v, znth out' k = Some (Some v) /\ (2 * X * IZR BINS ^ 3 < bpow radix2 1024 -> finite v) /\
    (finite v -> Cmod (value v - half_spectrum BINS (map B2R inp) k)%C <= (150 * INR m + 110) * bpow radix2 (-53) * (IZR BINS * X)).
Proof. intros. apply (ieee_rhct_uc 53 1024 (-1000)); auto; lia. Qed.
Print Assumptions C96_rhct_binary64.
Theorem C96_rhct_binary32 (BINS : Z) (out : list (option (cplx (binary_float 24 128)))) (inp : list (binary_float 24 128)) (m : nat) (X : R) :
  (0 < BINS)%Z -> (BINS mod 2 = 0)%Z -> smooth31 (BINS / 2) -> (8 * BINS <= INT_MAX)%Z -> zlen inp = BINS -> (BINS / 2 + 1 <= zlen out)%Z -> (BINS / 2 <= 2 ^ Z.of_nat m)%Z -> (m <= 28)%nat ->
  bpow radix2 (-120) <= X -> (forall x, In x inp -> is_finite x = true /\ Rabs (B2R x) <= X) ->
  exists out', rhct b32 (uc_trig b32) BINS out inp = Ok out' /\ zlen out' = zlen out /\ (forall k, (BINS / 2 < k)%Z -> znth out' k = znth out k) /\
  forall k, (0 <= k <= BINS / 2)%Z -> exists v, znth out' k = Some (Some v) /\ (2 * X * IZR BINS ^ 3 < bpow radix2 128 -> finite v) /\
    (finite v -> Cmod (value v - half_spectrum BINS (map B2R inp) k)%C <= (150 * INR m + 110) * bpow radix2 (-24) * (IZR BINS * X)).
Proof. intros. apply (ieee_rhct_uc 24 128 (-120)); auto; lia. Qed.
Print Assumptions C96_rhct_binary32.

(** 2^20 samples of a 16 bit signal as float: finite results, all within 2^20 * 32768 * 3000 * 2^-24 = 6.2e6 of the exact
    spectrum, whose entries reach 3.4e10 *)
Example C96_example (inp : list (binary_float 24 128)) : zlen inp = 1048576%Z -> (forall x, In x inp -> is_finite x = true /\ Rabs (B2R x) <= 32768) ->
  exists out', rhct b32 (uc_trig b32) 1048576 (repeat None (Z.to_nat 524289)) inp = Ok out' /\ forall k, (0 <= k <= 524288)%Z -> exists v, znth out' k = Some (Some v) /\ finite v /\
    Cmod (value v - half_spectrum 1048576 (map B2R inp) k)%C <= 6.2e6.
Proof.
  intros L B. destruct (C96_rhct_binary32 1048576 (repeat None (Z.to_nat 524289)) inp 19 32768) as (out' & E & _ & _ & V); auto; try lia.
  - change (1048576 / 2)%Z with (8 * (8 * (8 * (8 * (8 * (8 * 2))))))%Z. repeat apply smooth_mul; apply smooth_radix; cbn; auto 20.
  - unfold INT_MAX. lia.
  - unfold zlen. rewrite repeat_length. rewrite Z2Nat.id; [reflexivity|lia].
  - cbn. lia.
  - apply Rle_trans with (bpow radix2 0); [apply bpow_le; lia|cbn; lra].
  - exists out'. split; auto. intros k Hk. destruct (V k Hk) as (v & Ev & Fv & Av). assert (finite v).
    { apply Fv. replace (2 * 32768 * IZR 1048576 ^ 3) with (bpow radix2 76) by (cbn; lra). apply bpow_lt. lia. }
    exists v. splits; auto. eapply Rle_trans; [apply Av; auto|]. cbn. lra.
Qed.
