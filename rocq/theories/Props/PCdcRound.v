(* C112 The down-converter in floating point *)
From Coq Require Import Reals ZArith Lra Lia List.
From Flocq Require Import Core.
From Verif Require Import Model.Cdc Spec.Fir Spec.Rounding Proofs.KahanFloat Proofs.KaiserRound Proofs.ShiftProofs Proofs.FirProofs Proofs.CdcProofs Proofs.HilbertRound Proofs.CdcRound.
Import ListNotations.
Open Scope R_scope.

(** C112  CDC with TAPS = 4K+1, any coefficients, samples bounded by B, every operation rounded with relative error u and absolute
    error e: at every time it differs from the same filter in exact arithmetic by at most u |reco| B + e in the real part and
    (3K+5) u B A + (2A + 3K) e in the imaginary part, A the sum of the magnitudes of the coefficients.  The error does not build up:
    the bound holds for all times. *)
Theorem C112_cdc (rnd : R -> R) (u e : R) (K : nat) (imco : list R) (reco B : R) (x : nat -> R * R) (t : nat) : let TAPS := (4 * Z.of_nat K + 1)%Z in
  rounding u e rnd -> 0 <= u <= 1 / 100 -> 0 <= e -> (1 <= K)%nat -> length imco = K -> INR K * u <= 1 / 4 -> (forall k, Rabs (fst (x k)) <= B /\ Rabs (snd (x k)) <= B) ->
  let s0 := Ok (mkCdc (repeat 0 K) (repeat 0 (2 * K)) imco reco false) in let A := Rsumn K (fun i => Rabs (nth i imco 0)) in
  exists re im re' im', oout (cdc_step (Fn rnd) TAPS) s0 x t = Ok (re, im) /\ oout (cdc_step Rn TAPS) s0 x t = Ok (re', im') /\
    Rabs (re - re') <= u * (Rabs reco * B) + e /\ Rabs (im - im') <= (3 * INR K + 5) * u * B * A + (2 * A + 3 * INR K) * e.
Proof. intros TAPS HR Hu He HK HL KU Hx. exact (cdc_round rnd u e HR Hu He K imco reco B x t HK HL KU Hx). Qed.
Print Assumptions C112_cdc.

(** C112  Errors of the coefficients (from the constructor) enter the exact filter with at most 2 B times their sum. *)
Theorem C112_coefficients (K : nat) (imco imco' : list R) (reco reco' B : R) (x : nat -> R * R) (t : nat) : let TAPS := (4 * Z.of_nat K + 1)%Z in
  (1 <= K)%nat -> length imco = K -> length imco' = K -> (forall k, Rabs (fst (x k)) <= B /\ Rabs (snd (x k)) <= B) ->
  exists re im re' im', oout (cdc_step Rn TAPS) (Ok (mkCdc (repeat 0 K) (repeat 0 (2 * K)) imco reco false)) x t = Ok (re, im) /\
    oout (cdc_step Rn TAPS) (Ok (mkCdc (repeat 0 K) (repeat 0 (2 * K)) imco' reco' false)) x t = Ok (re', im') /\
    Rabs (re - re') <= Rabs (reco - reco') * B /\ Rabs (im - im') <= 2 * B * Rsumn K (fun i => Rabs (nth i imco 0 - nth i imco' 0)).
Proof.
  intros TAPS HK HL HL' Hx. destruct (cdc_state Rn K HK imco reco HL x t) as [_ E1]. destruct (cdc_state Rn K HK imco' reco' HL' x t) as [_ E2]. cbv zeta in E1, E2.
  assert (B0 : 0 <= B) by (pose proof (Rabs_pos (fst (x O))); pose proof (Hx O); lra).
  assert (Al : forall y, (forall k, Rabs (y k) <= B) -> forall z, Rabs (alt Rn y z) <= B).
  { intros y Hy z. unfold alt. destruct (z <? 0)%Z; [cbn; rewrite Rabs_R0; lra|]. destruct (Z.even z); [apply Hy|]. cbn [nopp Rn]. rewrite Rabs_Ropp. apply Hy. }
  assert (V0 : forall z, Rabs (alt Rn (fun k => fst (x k)) z) <= B) by (apply Al; intros; apply Hx). assert (V1 : forall z, Rabs (alt Rn (fun k => snd (x k)) z) <= B) by (apply Al; intros; apply Hx).
  eexists _, _, _, _. split; [exact E1|]. split; [exact E2|]. split.
  - cbn [nmul Rn]. rewrite <- Rmult_minus_distr_r, Rabs_mult. apply Rmult_le_compat_l; [apply Rabs_pos|apply V1].
  - rewrite !acc_Rn. replace (S (K - 1)) with K by lia. rewrite <- Rsumn_sub. eapply Rle_trans; [apply Rsumn_abs|].
    replace (2 * B * Rsumn K (fun i => Rabs (nth i imco 0 - nth i imco' 0))) with (2 * B * Rsumn K (fun i => Rabs (nth i imco 0 - nth i imco' 0)) + INR K * 0) by ring. rewrite <- Rsumn_lin. apply Rsumn_le'. intros i Hi.
    unfold ico. rewrite Nat2Z.id. cbn [nmul nadd Rn n0]. rewrite <- Rmult_minus_distr_r, Rabs_mult, Rplus_0_r, Rmult_comm. apply Rmult_le_compat_r; [apply Rabs_pos|].
    eapply Rle_trans; [apply Rabs_triang|]. pose proof (V0 (Z.of_nat t - Z.of_nat K - Z.of_nat i)%Z). pose proof (V0 (Z.of_nat t - Z.of_nat K + 1 + Z.of_nat i)%Z). lra.
Qed.
Print Assumptions C112_coefficients.

(** a case: float, 9 taps, coefficients 1/2 and 1/8, samples bounded by 1: the error stays below 1e-6 *)
Example C112_case (x : nat -> R * R) (t : nat) : (forall k, Rabs (fst (x k)) <= 1 /\ Rabs (snd (x k)) <= 1) -> let s0 := Ok (mkCdc (repeat 0 2) (repeat 0 4) [/ 2; / 8] (/ 2) false) in
  exists re im re' im', oout (cdc_step (Fn (FLTrnd (-149) 24)) 9) s0 x t = Ok (re, im) /\ oout (cdc_step Rn 9) s0 x t = Ok (re', im') /\ Rabs (re - re') <= 1 / 1000000 /\ Rabs (im - im') <= 1 / 1000000.
Proof.
  intros Hx s0. assert (U : ulp_u 24 = / IZR (2 ^ 24)) by reflexivity. assert (E0 := bpow_gt_0 radix2 (-149 - 1)). assert (E1 : bpow radix2 (-149 - 1) <= / IZR (2 ^ 40)). { change (/ IZR (2 ^ 40)) with (bpow radix2 (- (40))). apply bpow_le. lia. }
  set (e := bpow radix2 (-149 - 1)) in *. destruct (C112_cdc (FLTrnd (-149) 24) (ulp_u 24) e 2 [/ 2; / 8] (/ 2) 1 x t) as (re & im & re' & im' & H1 & H2 & H3 & H4); auto; try (rewrite ?U; cbn; lra).
  - intros y. apply (rnd_err (-149) 24 ltac:(lia) y).
  - exists re, im, re', im'. split; [exact H1|]. split; [exact H2|]. rewrite U in H3, H4. clearbody e. cbn in H4. rewrite !(Rabs_pos_eq (/ 2)), ?(Rabs_pos_eq (/ 8)) in * by lra. split; lra.
Qed.
