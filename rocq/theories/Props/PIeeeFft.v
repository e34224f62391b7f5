(* C95: the FFT (fft.hh) in IEEE 754 arithmetic: no overflow for bounded input, no unnoticed overflow for any input *)
From Coq Require Import ZArith Reals Lia Lra List.
From Flocq Require Import Core BinarySingleNaN.
From Coquelicot Require Import Complex.
From Verif Require Import Model.Base Proofs.BaseLemmas Model.Num Model.Complex Model.NumIeee Spec.Rounding Proofs.IeeeProofs Spec.Dft Model.Fft Model.UnitCircle Proofs.FftSplit Proofs.FftProofs Proofs.FftRound Proofs.Param Proofs.IeeeFun Proofs.IeeeFft Props.PFftRound.
Import ListNotations.
Open Scope R_scope.

(** the real numbers (re, im) that a complex floating-point number stands for, and its finiteness *)
Definition value {prec emax} (z : cplx (binary_float prec emax)) : C := (B2R (fst z), B2R (snd z)).
Definition finite {prec emax} (z : cplx (binary_float prec emax)) : Prop := is_finite (fst z) = true /\ is_finite (snd z) = true.

(** All inputs finite, of modulus at most X: the components of the results are finite if X BINS^3 < 2^emax, and every finite
    result has the accuracy of C76, so that an overflow on the way cannot go unnoticed. *)
Lemma ieee_fft_uc (prec emax Xmin : Z) (Hp : Prec_gt_0 prec) (Hpe : Prec_lt_emax prec emax) (BINS SIGN : Z) (out : list (option (cplx (binary_float prec emax)))) (inp : list (cplx (binary_float prec emax))) (m : nat) (X : R) :
  (24 <= prec <= 53)%Z -> (128 <= emax)%Z -> (emax + prec <= 1082)%Z -> (- emax <= Xmin)%Z ->
  (0 < BINS)%Z -> smooth31 BINS -> SIGN = 1%Z \/ SIGN = (-1)%Z -> (8 * BINS <= INT_MAX)%Z -> (BINS <= zlen out)%Z -> (BINS <= zlen inp)%Z -> (BINS <= 2 ^ Z.of_nat m)%Z -> (m <= 28)%nat ->
  bpow radix2 Xmin <= X -> (forall z, In z inp -> finite z /\ Cmod (value z) <= X) ->
  exists out', fft (Bn prec emax) (uc_trig (Bn prec emax)) BINS SIGN out inp = Ok out' /\ zlen out' = zlen out /\ (forall k, (BINS <= k)%Z -> znth out' k = znth out k) /\
  forall k, (0 <= k < BINS)%Z -> exists v, znth out' k = Some (Some v) /\ (X * IZR BINS ^ 3 < bpow radix2 emax -> finite v) /\
    (finite v -> Cmod (value v - DFT SIGN (Z.to_nat BINS) (fun n => nth n (map value inp) (RtoC 0)) (Z.to_nat k))%C <= 100 * INR m * bpow radix2 (- prec) * (IZR BINS * X)).
Proof.
  intros [P1 P2] E128 PE HXm HB Hsm HS HI Lo Li Hm M28 HX Hin.
  destruct (fft_uc (- prec) (2 - emax - prec) Xmin (brnd prec emax) BINS SIGN (map (option_map value) out) (map value inp) m X) as (outF & EF & LF & UF & VF); auto; try lia.
  { apply (rnd_ok prec emax P1 E128). } { change 1 with (bpow radix2 0). apply rnd_pow; auto; lia. } { replace (-1) with (- bpow radix2 0) by (cbn; lra). rewrite rnd_opp, rnd_pow; auto; lia. }
  { unfold zlen in *. rewrite map_length. auto. } { unfold zlen in *. rewrite map_length. auto. } { intros x Ix. apply in_map_iff in Ix. destruct Ix as (z & <- & Iz). apply Hin; auto. }
  destruct (fft_safe (Bn prec emax) (uc_trig (Bn prec emax)) BINS SIGN out inp HB Hsm Li Lo) as (out' & E & L & U & V). exists out'. splits; auto.
  pose proof (ieee_fft_F prec emax P1 E128 BINS SIGN out inp HB HI HS) as RR. rewrite E in RR. change (cR prec emax) with (@value prec emax) in RR. rewrite EF in RR. cbn in RR.
  intros k Hk. destruct (V k Hk) as (v & Ev). destruct (VF k Hk) as (w & Ew & Bw). exists v. splits; auto.
  - intros HL. destruct (ieee_fft prec emax P1 E128 BINS SIGN out inp X HB Hsm HI HS Li Lo HL) as (o2 & oF & E2 & _ & _ & _ & V2).
    { intros z Hz. destruct (Hin z Hz) as [Fz Cz]. splits; auto; (eapply Rle_trans; [|exact Cz]); [exact (Cmod_fst (value z))|exact (Cmod_snd (value z))]. }
    rewrite E in E2. injection E2 as <-. destruct (V2 k Hk) as (v2 & Ev2 & F2 & _). rewrite Ev in Ev2. injection Ev2 as <-. exact F2.
  - intros [F1 F2]. pose proof (znth_rel _ _ _ k RR) as Q. rewrite Ev in Q. assert (Ew' : @znth (option (cplx R)) outF k = Some (Some w)) by exact Ew. rewrite Ew' in Q. destruct Q as [Q1 Q2]. replace (value v) with w; [exact Bw|]. destruct w as [w1 w2]. unfold value. cbn in Q1, Q2. rewrite (Q1 F1), (Q2 F2). reflexivity.
Qed.
Theorem C95_fft_binary64 (BINS SIGN : Z) (out : list (option (cplx (binary_float 53 1024)))) (inp : list (cplx (binary_float 53 1024))) (m : nat) (X : R) :
  (0 < BINS)%Z -> smooth31 BINS -> SIGN = 1%Z \/ SIGN = (-1)%Z -> (8 * BINS <= INT_MAX)%Z -> (BINS <= zlen out)%Z -> (BINS <= zlen inp)%Z -> (BINS <= 2 ^ Z.of_nat m)%Z -> (m <= 28)%nat ->
  bpow radix2 (-1000) <= X -> (forall z, In z inp -> finite z /\ Cmod (value z) <= X) ->
  exists out', fft b64 (uc_trig b64) BINS SIGN out inp = Ok out' /\ zlen out' = zlen out /\ (forall k, (BINS <= k)%Z -> znth out' k = znth out k) /\
  forall k, (0 <= k < BINS)%Z -> exists v, znth out' k = Some (Some v) /\ (X * IZR BINS ^ 3 < bpow radix2 1024 -> finite v) /\
    (finite v -> Cmod (value v - DFT SIGN (Z.to_nat BINS) (fun n => nth n (map value inp) (RtoC 0)) (Z.to_nat k))%C <= 100 * INR m * bpow radix2 (-53) * (IZR BINS * X)).
Proof. intros. apply (ieee_fft_uc 53 1024 (-1000)); auto; lia. Qed.
Print Assumptions C95_fft_binary64.
Theorem C95_fft_binary32 (BINS SIGN : Z) (out : list (option (cplx (binary_float 24 128)))) (inp : list (cplx (binary_float 24 128))) (m : nat) (X : R) :
  (0 < BINS)%Z -> smooth31 BINS -> SIGN = 1%Z \/ SIGN = (-1)%Z -> (8 * BINS <= INT_MAX)%Z -> (BINS <= zlen out)%Z -> (BINS <= zlen inp)%Z -> (BINS <= 2 ^ Z.of_nat m)%Z -> (m <= 28)%nat ->
  bpow radix2 (-120) <= X -> (forall z, In z inp -> finite z /\ Cmod (value z) <= X) ->
  exists out', fft b32 (uc_trig b32) BINS SIGN out inp = Ok out' /\ zlen out' = zlen out /\ (forall k, (BINS <= k)%Z -> znth out' k = znth out k) /\
  forall k, (0 <= k < BINS)%Z -> exists v, znth out' k = Some (Some v) /\ (X * IZR BINS ^ 3 < bpow radix2 128 -> finite v) /\
    (finite v -> Cmod (value v - DFT SIGN (Z.to_nat BINS) (fun n => nth n (map value inp) (RtoC 0)) (Z.to_nat k))%C <= 100 * INR m * bpow radix2 (-24) * (IZR BINS * X)).
Proof. intros. apply (ieee_fft_uc 24 128 (-120)); auto; lia. Qed.
Print Assumptions C95_fft_binary32.

(** C95  A million points of float, moduli up to 2^67 *)
Example C95_example (inp : list (cplx (binary_float 24 128))) : zlen inp = 1048576%Z -> (forall z, In z inp -> finite z /\ Cmod (value z) <= bpow radix2 67) ->
  exists out', fft b32 (uc_trig b32) 1048576 (-1) (repeat None (Z.to_nat 1048576)) inp = Ok out' /\ forall k, (0 <= k < 1048576)%Z -> exists v, znth out' k = Some (Some v) /\ finite v.
Proof.
  intros L B. destruct (C95_fft_binary32 1048576 (-1) (repeat None (Z.to_nat 1048576)) inp 20 (bpow radix2 67)) as (out' & E & _ & _ & V); auto; try lia.
  - change 1048576%Z with (8 * (8 * (8 * (8 * (8 * (8 * 4))))))%Z. repeat apply smooth_mul; apply smooth_radix; cbn; auto 20.
  - unfold INT_MAX. lia.
  - unfold zlen. rewrite repeat_length. rewrite Z2Nat.id; lia.
  - apply bpow_le. lia.
  - exists out'. split; auto. intros k Hk. destruct (V k Hk) as (v & Ev & Fv & _). exists v. split; auto. apply Fv.
    replace (IZR 1048576 ^ 3) with (bpow radix2 60) by (cbn; lra). rewrite <- bpow_plus. apply bpow_lt. lia.
Qed.

(** an input that overflows shows: two numbers near the largest float *)
Example C95_overflow : let a : binary_float 24 128 := Bmax_float in fft b32 (uc_trig b32) 2 (-1) [None; None] [(a, B754_zero false); (a, B754_zero false)] = Ok [Some (B754_infinity false, B754_zero false); Some (B754_zero false, B754_zero false)].
Proof. reflexivity. Qed.
