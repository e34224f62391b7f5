(* C75, C76: rounding errors of UnitCircle (unit_circle.hh) and of the Fourier transform (fft.hh) *)
From Coq Require Import Reals ZArith Lia Lra List.
From Coquelicot Require Import Complex.
From Flocq Require Import Core.
From Interval Require Import Tactic.
From Verif Require Import Proofs.BaseLemmas Spec.Dft Spec.Rounding Model.Fft Model.UnitCircle Proofs.UcRound Proofs.FftSplit Proofs.FftRound Proofs.PhasorProofs.
Import ListNotations.
Open Scope R_scope.

(** round to nearest even: binary32 and binary64 with gradual underflow, without overflow *)
Notation rnd32 := (round radix2 (FLT_exp (-149) 24) ZnearestE).
Notation rnd64 := (round radix2 (FLT_exp (-1074) 53) ZnearestE).

(** ** C75 *)
(** cos(n, N) and sin(n, N), every operation, every int and every literal being rounded with relative error u,
    are within 8 u of the cosine and sine of n/N of a turn (besides the 3e-17 of the polynomials, C33). *)
Theorem C75_rounded_accuracy (u e : R) (rnd : R -> R) (n N : Z) :
  0 <= u <= 1 / 10000000 -> 0 <= e <= u / 1000000 -> rounding u e rnd ->
  (1 <= N)%Z -> (Z.abs n <= N)%Z -> (8 * N <= INT_MAX)%Z ->
  exists c s, uc_cos (Fn rnd) n N = Ok c /\ uc_sin (Fn rnd) n N = Ok s /\
  Rabs (c - cos (2 * PI * IZR n / IZR N)) <= 8 * u + 3e-17 /\ Rabs (s - sin (2 * PI * IZR n / IZR N)) <= 8 * u + 3e-17.
Proof. intros. eapply uc_round; eauto. Qed.
Print Assumptions C75_rounded_accuracy.

Lemma fmt64 : rounding (bpow radix2 (-53)) (bpow radix2 (-1075)) rnd64.
Proof. apply (flt_rounding (-1074) 53); lia. Qed.
Lemma fmt32 : rounding (bpow radix2 (-24)) (bpow radix2 (-150)) rnd32.
Proof. apply (flt_rounding (-149) 24); lia. Qed.
Lemma fmt_range p q : (-1080 <= q)%Z -> (q <= p - 30)%Z -> (p <= -24)%Z -> 0 <= bpow radix2 p <= 1 / 10000000 /\ 0 <= bpow radix2 q <= bpow radix2 p / 1000000.
Proof.
  intros H1 H2 H3. pose proof (bpow_ge_0 radix2 p). pose proof (bpow_ge_0 radix2 q).
  assert (bpow radix2 p <= bpow radix2 (-24)) by (apply bpow_le; lia). assert (bpow radix2 q <= bpow radix2 (p + -30)) by (apply bpow_le; lia).
  rewrite bpow_plus in H5. change (bpow radix2 (-24)) with (/ 16777216) in *. change (bpow radix2 (-30)) with (/ 1073741824) in *. lra.
Qed.

(** UnitCircle<double> and UnitCircle<float> *)
Theorem C75_binary64 (n N : Z) : (1 <= N)%Z -> (Z.abs n <= N)%Z -> (8 * N <= INT_MAX)%Z ->
  exists c s, uc_cos (Fn rnd64) n N = Ok c /\ uc_sin (Fn rnd64) n N = Ok s /\
  Rabs (c - cos (2 * PI * IZR n / IZR N)) <= 1e-15 /\ Rabs (s - sin (2 * PI * IZR n / IZR N)) <= 1e-15.
Proof.
  intros HN Hn HI. destruct (fmt_range (-53) (-1075)) as [Hu He]; try lia.
  destruct (C75_rounded_accuracy _ _ _ n N Hu He fmt64 HN Hn HI) as (c & s & E1 & E2 & A & B). exists c, s. splits; auto;
  (eapply Rle_trans; [eassumption|change (bpow radix2 (-53)) with (/ 9007199254740992); lra]).
Qed.
Print Assumptions C75_binary64.
Theorem C75_binary32 (n N : Z) : (1 <= N)%Z -> (Z.abs n <= N)%Z -> (8 * N <= INT_MAX)%Z ->
  exists c s, uc_cos (Fn rnd32) n N = Ok c /\ uc_sin (Fn rnd32) n N = Ok s /\
  Rabs (c - cos (2 * PI * IZR n / IZR N)) <= 5e-7 /\ Rabs (s - sin (2 * PI * IZR n / IZR N)) <= 5e-7.
Proof.
  intros HN Hn HI. destruct (fmt_range (-24) (-150)) as [Hu He]; try lia.
  destruct (C75_rounded_accuracy _ _ _ n N Hu He fmt32 HN Hn HI) as (c & s & E1 & E2 & A & B). exists c, s. splits; auto;
  (eapply Rle_trans; [eassumption|change (bpow radix2 (-24)) with (/ 16777216); lra]).
Qed.
Print Assumptions C75_binary32.
(** one twelfth of a turn in double precision *)
Example C75_example : exists c s, uc_cos (Fn rnd64) 1 12 = Ok c /\ uc_sin (Fn rnd64) 1 12 = Ok s /\ Rabs (s - 1 / 2) <= 1e-15.
Proof.
  destruct (C75_binary64 1 12) as (c & s & E1 & E2 & _ & B); try (unfold INT_MAX; lia). exists c, s. splits; auto.
  replace (2 * PI * 1 / 12) with (PI / 6) in B by field. rewrite sin_PI6 in B. auto.
Qed.

(** ** C76 *)
(** Rounding errors of the whole transform.  Every operation is rounded with relative error u and absolute error
    e near zero, the entries of the cosine and sine tables and InvSqrtTwo are wrong by at most t, and X bounds the
    modulus of all inputs.  Then every one of the BINS <= 2^m results differs from the exact discrete Fourier
    transform by at most ((1+h)^(11 m) - 1) BINS X: the error grows with the logarithm of the length, relative to
    the largest possible modulus BINS X of a result. *)
Theorem C76_rounding_error (u e t h X : R) (rnd : R -> R) (tr : trig R) (BINS SIGN : Z) (out : list (option C)) (inp : list C) (m : nat) :
  0 <= u -> 0 <= e -> rounding u e rnd -> rnd 1 = 1 -> rnd (-1) = -1 -> 0 < X ->
  (forall n M, (0 <= n < M)%Z -> (M <= Z.max 31 BINS)%Z ->
     Rabs (tcos tr n M - cos (2 * PI * IZR n / IZR M)) <= t /\ Rabs (tsin tr n M - sin (2 * PI * IZR n / IZR M)) <= t) ->
  Rabs (trsqrt2 tr - / sqrt 2) <= t -> t <= h -> u + 2 * e / X <= h -> u * (1 + t) + e <= h ->
  (0 < BINS)%Z -> smooth31 BINS -> SIGN = 1%Z \/ SIGN = (-1)%Z -> (BINS <= zlen out)%Z -> (BINS <= zlen inp)%Z -> (BINS <= 2 ^ Z.of_nat m)%Z ->
  (forall x, In x inp -> Cmod x <= X) ->
  exists out' : list (option C), fft (Fn rnd) tr BINS SIGN out inp = Ok out' /\ zlen out' = zlen out /\
    (forall k, (BINS <= k)%Z -> znth out' k = znth out k) /\
    forall k, (0 <= k < BINS)%Z -> exists v, znth out' k = Some (Some v) /\
      Cmod (v - DFT SIGN (Z.to_nat BINS) (fun n => nth n inp (RtoC 0)) (Z.to_nat k))%C <= ((1 + h) ^ (11 * m) - 1) * (IZR BINS * X).
Proof. exact (fft_round u e t h X rnd tr BINS SIGN out inp m). Qed.
Print Assumptions C76_rounding_error.

(** the instances with the tables UnitCircle computes in the same arithmetic *)
Lemma fft_uc p q Xmin (rnd : R -> R) BINS SIGN (out : list (option C)) (inp : list C) (m : nat) X :
  (-1080 <= q)%Z -> (q <= p - 30)%Z -> (-53 <= p <= -24)%Z -> (q - p - 2 <= Xmin)%Z -> rounding (bpow radix2 p) (bpow radix2 q) rnd -> rnd 1 = 1 -> rnd (-1) = -1 ->
  (0 < BINS)%Z -> smooth31 BINS -> SIGN = 1%Z \/ SIGN = (-1)%Z -> (8 * BINS <= INT_MAX)%Z -> (BINS <= zlen out)%Z -> (BINS <= zlen inp)%Z -> (BINS <= 2 ^ Z.of_nat m)%Z -> (m <= 28)%nat ->
  bpow radix2 Xmin <= X -> (forall x, In x inp -> Cmod x <= X) ->
  exists out' : list (option C), fft (Fn rnd) (uc_trig (Fn rnd)) BINS SIGN out inp = Ok out' /\ zlen out' = zlen out /\
    (forall k, (BINS <= k)%Z -> znth out' k = znth out k) /\
    forall k, (0 <= k < BINS)%Z -> exists v, znth out' k = Some (Some v) /\
      Cmod (v - DFT SIGN (Z.to_nat BINS) (fun n => nth n inp (RtoC 0)) (Z.to_nat k))%C <= 100 * INR m * bpow radix2 p * (IZR BINS * X).
Proof.
  intros H1 H2 H3 H4 Hr R1 R2 HB Hsm HS HI Lo Li Hm M28 HX Hin.
  destruct (fmt_range p q) as [Hu He]; try lia. set (u := bpow radix2 p) in *. set (e := bpow radix2 q) in *.
  assert (U53 : / 9007199254740992 <= u) by (change (/ 9007199254740992) with (bpow radix2 (-53)); apply bpow_le; lia).
  pose proof (bpow_gt_0 radix2 Xmin) as X0.
  assert (EX : 2 * e / X <= 8 * u).
  { apply Rle_trans with (2 * e / bpow radix2 Xmin). { apply Rmult_le_compat_l; [lra|]. apply Rinv_le; auto. }
    unfold Rdiv. rewrite <- bpow_opp. change 2 with (bpow radix2 1). change 8 with (bpow radix2 3). unfold e, u. rewrite <- !bpow_plus. apply bpow_le. lia. }
  destruct (fft_round u e (8.5 * u) (9 * u) X rnd (uc_trig (Fn rnd)) BINS SIGN out inp m) as (out' & E & L & U & V); auto; try lra.
  - intros n M HnM HM. destruct (uc_round u e rnd Hu He Hr n M) as (c & s & E1 & E2 & A & B); try lia. { unfold INT_MAX in *; lia. }
    cbn [tcos tsin uc_trig]. rewrite E1, E2. lra.
  - cbn [trsqrt2 uc_trig]. unfold InvSqrtTwo. cbn [nlit Fn].
    assert (I1 : Rabs InvSqrtTwo_lit <= 0.71) by (unfold InvSqrtTwo_lit; interval).
    assert (I2 : Rabs (InvSqrtTwo_lit - / sqrt 2) <= 1e-60) by (unfold InvSqrtTwo_lit; interval with (i_prec 300)).
    pose proof (Hr InvSqrtTwo_lit) as Q. replace (rnd InvSqrtTwo_lit - / sqrt 2) with ((rnd InvSqrtTwo_lit - InvSqrtTwo_lit) + (InvSqrtTwo_lit - / sqrt 2)) by ring.
    eapply Rle_trans; [apply Rabs_triang|]. assert (u * Rabs InvSqrtTwo_lit <= u * 0.71) by (apply Rmult_le_compat_l; lra). lra.
  - assert (u * u <= u * (1 / 10000000)) by (apply Rmult_le_compat_l; lra). lra.
  - exists out'. splits; auto. intros k Hk. destruct (V k Hk) as (v & Ev & Hv). exists v. split; auto. eapply Rle_trans; [exact Hv|].
    apply Rmult_le_compat_r. { apply Rmult_le_pos; [apply IZR_le; lia|lra]. }
    assert (IM : 0 <= INR m <= 28). { split; [apply pos_INR|]. apply le_INR in M28. cbn in M28. lra. }
    assert (I11 : INR (11 * m) = 11 * INR m) by (rewrite mult_INR; cbn; lra).
    pose proof (pow1h (9 * u) (11 * m) ltac:(lra)) as Q. rewrite I11 in Q. specialize (Q ltac:(nra)).
    assert (11 * INR m * (9 * u) * (11 * INR m * (9 * u)) <= 11 * INR m * (9 * u) * (1 / 100)). { apply Rmult_le_compat_l; nra. }
    assert (0 <= INR m * u) by nra. lra.
Qed.

(** FastFourierTransform<BINS, Complex<double>, SIGN> and <BINS, Complex<float>, SIGN>, BINS <= 2^m, inputs whose bound X
    is not tiny: the error is at most 100 m units roundoff relative to BINS X. *)
Theorem C76_binary64 (BINS SIGN : Z) (out : list (option C)) (inp : list C) (m : nat) (X : R) :
  (0 < BINS)%Z -> smooth31 BINS -> SIGN = 1%Z \/ SIGN = (-1)%Z -> (8 * BINS <= INT_MAX)%Z ->
  (BINS <= zlen out)%Z -> (BINS <= zlen inp)%Z -> (BINS <= 2 ^ Z.of_nat m)%Z -> (m <= 28)%nat ->
  bpow radix2 (-1000) <= X -> (forall x, In x inp -> Cmod x <= X) ->
  exists out' : list (option C), fft (Fn rnd64) (uc_trig (Fn rnd64)) BINS SIGN out inp = Ok out' /\ zlen out' = zlen out /\
    (forall k, (BINS <= k)%Z -> znth out' k = znth out k) /\
    forall k, (0 <= k < BINS)%Z -> exists v, znth out' k = Some (Some v) /\
      Cmod (v - DFT SIGN (Z.to_nat BINS) (fun n => nth n inp (RtoC 0)) (Z.to_nat k))%C <= 100 * INR m * bpow radix2 (-53) * (IZR BINS * X).
Proof.
  intros. apply (fft_uc (-53) (-1075) (-1000)); auto; try lia.
  - exact fmt64.
  - change 1 with (bpow radix2 0). apply round_generic; [typeclasses eauto|]. apply generic_format_bpow. unfold FLT_exp. lia.
  - replace (-1) with (- bpow radix2 0) by (cbn; lra). apply round_generic; [typeclasses eauto|]. apply generic_format_opp, generic_format_bpow. unfold FLT_exp. lia.
Qed.
Print Assumptions C76_binary64.
Theorem C76_binary32 (BINS SIGN : Z) (out : list (option C)) (inp : list C) (m : nat) (X : R) :
  (0 < BINS)%Z -> smooth31 BINS -> SIGN = 1%Z \/ SIGN = (-1)%Z -> (8 * BINS <= INT_MAX)%Z ->
  (BINS <= zlen out)%Z -> (BINS <= zlen inp)%Z -> (BINS <= 2 ^ Z.of_nat m)%Z -> (m <= 28)%nat ->
  bpow radix2 (-120) <= X -> (forall x, In x inp -> Cmod x <= X) ->
  exists out' : list (option C), fft (Fn rnd32) (uc_trig (Fn rnd32)) BINS SIGN out inp = Ok out' /\ zlen out' = zlen out /\
    (forall k, (BINS <= k)%Z -> znth out' k = znth out k) /\
    forall k, (0 <= k < BINS)%Z -> exists v, znth out' k = Some (Some v) /\
      Cmod (v - DFT SIGN (Z.to_nat BINS) (fun n => nth n inp (RtoC 0)) (Z.to_nat k))%C <= 100 * INR m * bpow radix2 (-24) * (IZR BINS * X).
Proof.
  intros. apply (fft_uc (-24) (-150) (-120)); auto; try lia.
  - exact fmt32.
  - change 1 with (bpow radix2 0). apply round_generic; [typeclasses eauto|]. apply generic_format_bpow. unfold FLT_exp. lia.
  - replace (-1) with (- bpow radix2 0) by (cbn; lra). apply round_generic; [typeclasses eauto|]. apply generic_format_opp, generic_format_bpow. unfold FLT_exp. lia.
Qed.
Print Assumptions C76_binary32.
(** 960 points of modulus at most one in double precision: every result within 1.1e-10 of the exact transform *)
Example C76_example (inp : list C) : zlen inp = 960%Z -> (forall x, In x inp -> Cmod x <= 1) ->
  exists out', fft (Fn rnd64) (uc_trig (Fn rnd64)) 960 (-1) (repeat None 960) inp = Ok out' /\
  forall k, (0 <= k < 960)%Z -> exists v, znth out' k = Some (Some v) /\ Cmod (v - DFT (-1) 960 (fun n => nth n inp (RtoC 0)) (Z.to_nat k))%C <= 1.1e-10.
Proof.
  intros L B. destruct (C76_binary64 960 (-1) (repeat None 960) inp 10 1) as (out' & E & _ & _ & V); auto; try lia.
  - change 960%Z with (8 * (8 * (3 * 5)))%Z. repeat apply smooth_mul; apply smooth_radix; cbn; auto 20.
  - unfold INT_MAX. lia.
  - unfold zlen. rewrite repeat_length. lia.
  - change 1 with (bpow radix2 0). apply bpow_le. lia.
  - exists out'. split; auto. intros k Hk. destruct (V k Hk) as (v & Ev & Hv). exists v. split; auto. change (Pos.to_nat 960) with 960%nat in Hv.
    change (Z.to_nat 960) with 960%nat in Hv. eapply Rle_trans; [exact Hv|]. change (bpow radix2 (-53)) with (/ 9007199254740992). cbn [INR]. lra.
Qed.
