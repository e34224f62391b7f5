(* C104 The Hilbert transformer in floating point *)
From Coq Require Import Reals ZArith Lra Lia List.
From Flocq Require Import Core.
From Interval Require Import Tactic.
From Verif Require Import Model.Cdc Spec.Bessel Spec.Fir Proofs.KahanFloat Proofs.WinProofs Proofs.KaiserRound Proofs.HilbertRound.
Open Scope R_scope.

(** Arithmetic of [prec] bits with gradual underflow below 2^emin, every operation rounded to nearest even, u = 2^-prec; overflow
    is not modelled.  The object made by the constructor from a Kaiser parameter |a| <= 3, TAPS = 4K+1 taps, input samples that are
    numbers of the format bounded by B: the real part is the input TAPS/2 + 1 samples ago without any error (the middle of the
    computed window is exactly 1), and the imaginary part is the convolution with h(d) = I0(Pi a sqrt(1 - (d/2K)^2)) / I0(Pi a) 2/(Pi d)
    (d the distance from the middle, zero for even d) up to an error of (1090 + 3K) u B sum_(i<K) 2/(Pi (2i+1)). *)
Theorem C104_hilbert (emin prec : Z) (a : R) (K : nat) : let TAPS := (4 * Z.of_nat K + 1)%Z in (20 <= prec <= 64)%Z -> (emin <= - prec - 110)%Z -> Rabs a <= 3 ->
  (1 <= K)%nat -> (TAPS <= 2 ^ prec)%Z -> (16 * TAPS <= INT_MAX)%Z ->
  exists h, (forall n, (0 <= n < TAPS)%Z -> let d := (n - 2 * Z.of_nat K)%Z in let q := IZR d / (2 * INR K) in
      if Z.odd d then exists x m, is_I0 (PI * a * sqrt (1 - q * q)) x /\ is_I0 (PI * a) m /\ h n = x / m * (2 / (PI * IZR d)) else h n = 0) /\
  forall x B t, (forall k, FLTfmt emin prec (x k) /\ Rabs (x k) <= B) ->
  exists im, oout (hilbert_step (Fn (FLTrnd emin prec)) TAPS) (hilbert_new (Fn (FLTrnd emin prec)) TAPS a) x t = Ok (causal x (Z.of_nat t - 1 - 2 * Z.of_nat K), im) /\
    Rabs (im - rfir TAPS h (causal x) (Z.of_nat t - 1)) <=
    (1090 + 3 * INR K) * ulp_u prec * B * Rsumn K (fun i => 2 / (PI * IZR (2 * Z.of_nat i + 1))) + 5 * INR K * bpow radix2 (emin - 1).
Proof.
  intros TAPS (Hp & H64) He Ha HK H1 H2. exists (kernel a K). split; [|intros x B t; apply (hilbert_round emin prec Hp He H64 a K Ha HK H1 H2)].
  intros n Hn d q. unfold kernel. fold d. fold TAPS. destruct (Z.odd d); [|reflexivity].
  destruct (kaiser_at_spec emin prec Hp He a n TAPS Ha ltac:(unfold TAPS in *; repeat split; lia)) as (x & m & X & M & E & _). exists x, m. rewrite E. replace q with (kq n TAPS); auto.
  assert (KP : 1 <= INR K) by (change 1 with (INR 1); apply le_INR; lia).
  unfold kq, q, d, TAPS. replace (4 * Z.of_nat K + 1 - 1)%Z with (4 * Z.of_nat K)%Z by lia. rewrite minus_IZR, !mult_IZR, <- INR_IZR_INZ. field. lra.
Qed.
Print Assumptions C104_hilbert.
(** binary32, at most 129 taps, samples of at most 1: within 2e-4 of the ideal Kaiser-windowed filter *)
Theorem C104_hilbert_float (a : R) (K : nat) (x : nat -> R) (t : nat) : let TAPS := (4 * Z.of_nat K + 1)%Z in let rnd := round radix2 (FLT_exp (-149) 24) ZnearestE in
  Rabs a <= 3 -> (1 <= K <= 32)%nat -> (forall k, generic_format radix2 (FLT_exp (-149) 24) (x k) /\ Rabs (x k) <= 1) ->
  exists im, oout (hilbert_step (Fn rnd) TAPS) (hilbert_new (Fn rnd) TAPS a) x t = Ok (causal x (Z.of_nat t - 1 - 2 * Z.of_nat K), im) /\
    Rabs (im - rfir TAPS (kernel a K) (causal x) (Z.of_nat t - 1)) <= 2e-4.
Proof.
  intros TAPS rnd Ha HK Hx. destruct (hilbert_round (-149) 24 ltac:(lia) ltac:(lia) ltac:(lia) a K Ha ltac:(lia) ltac:(lia) ltac:(unfold INT_MAX; lia) x 1 t Hx) as (im & E & B). exists im. split; [exact E|]. eapply Rle_trans; [exact B|].
  assert (K1 : INR K <= 32) by (replace 32 with (INR 32) by (cbn; lra); apply le_INR; lia). pose proof (pos_INR K) as K0.
  assert (P3 : 3.1415 <= PI <= 3.1416) by (split; interval).
  assert (S : Rsumn K (fun i => 2 / (PI * IZR (2 * Z.of_nat i + 1))) <= Rsumn 32 (fun i => 2 / (PI * IZR (2 * Z.of_nat i + 1)))).
  { assert (G : forall m k, Rsumn k (fun i => 2 / (PI * IZR (2 * Z.of_nat i + 1))) <= Rsumn (m + k) (fun i => 2 / (PI * IZR (2 * Z.of_nat i + 1)))).
    { induction m as [|m IH]; intros k; [cbn [Nat.add]; lra|]. cbn [Nat.add Rsumn]. specialize (IH k). assert (0 < 2 / (PI * IZR (2 * Z.of_nat (m + k) + 1))); [|lra]. apply Rdiv_lt_0_compat; [lra|]. apply Rmult_lt_0_compat; [lra|]. apply IZR_lt. lia. }
    replace 32%nat with ((32 - K) + K)%nat by lia. apply G. }
  assert (S32 : Rsumn 32 (fun i => 2 / (PI * IZR (2 * Z.of_nat i + 1))) <= 1.8) by (cbn [Rsumn]; cbn; interval).
  replace (ulp_u 24) with (/ IZR 16777216) by reflexivity. set (H := Rsumn K _) in *.
  assert (E0 : bpow radix2 (-149 - 1) <= 1e-30) by (apply Rle_trans with (bpow radix2 (-100)); [apply bpow_le; lia|]; replace (bpow radix2 (-100)) with (/ IZR 1267650600228229401496703205376) by reflexivity; interval).
  assert (E1 : 0 < bpow radix2 (-149 - 1)) by apply bpow_gt_0. set (e := bpow radix2 (-149 - 1)) in *.
  assert (KE : INR K * e <= 32 * 1e-30) by (apply Rmult_le_compat; lra).
  assert (HH : 0 <= H) by (unfold H; clear -P3; induction K as [|k IH]; cbn [Rsumn]; [lra|]; assert (0 < 2 / (PI * IZR (2 * Z.of_nat k + 1))); [|lra]; apply Rdiv_lt_0_compat; [lra|]; apply Rmult_lt_0_compat; [lra|]; apply IZR_lt; lia).
  assert ((1090 + 3 * INR K) * H <= 1186 * 1.8) by (apply Rmult_le_compat; lra). lra.
Qed.
Print Assumptions C104_hilbert_float.

(** an impulse into 33 taps, a = 2, seen 17 samples later *)
Example C104_case : let rnd := round radix2 (FLT_exp (-149) 24) ZnearestE in let x := fun t => if (t =? 0)%nat then 1 else 0 in
  exists im, oout (hilbert_step (Fn rnd) 33) (hilbert_new (Fn rnd) 33 2) x 17 = Ok (1, im) /\ Rabs (im - rfir 33 (kernel 2 8) (causal x) 16) <= 2e-4.
Proof.
  intros rnd x. destruct (C104_hilbert_float 2 8 x 17) as (im & E & B); [rewrite Rabs_pos_eq; lra|lia| |exists im; split; [exact E|exact B]].
  intros k. unfold x. destruct (k =? 0)%nat; split; [apply (fmt_Z (-149) 24 ltac:(lia) ltac:(lia) 1); cbn; lia|rewrite Rabs_R1; lra|apply generic_format_0|rewrite Rabs_R0; lra].
Qed.
