(* C108: the slope of SimpleLinearRegression in floating point (regression.hh:35-51) *)
From Coq Require Import Reals ZArith Lia Lra List Psatz.
From Flocq Require Import Core Relative.
From Verif Require Import Model.Regression Spec.Fir Spec.LeastSquares Proofs.BaseLemmas Proofs.RegressionProofs Proofs.RegrRound Props.PRegression.
Import ListNotations.
Open Scope R_scope.

(** rounding to nearest even in a binary format of prec bits without bounds on the exponent *)
Notation rndp prec := (round radix2 (FLX_exp prec) ZnearestE).
Lemma flx_err prec : (1 < prec)%Z -> forall x, Rabs (rndp prec x - x) <= bpow radix2 (- prec) * Rabs x.
Proof.
  intros Hp x. assert (HP : Prec_gt_0 prec) by (unfold Prec_gt_0; lia). pose proof (relative_error_N_FLX radix2 prec HP (fun x => negb (Z.even x)) x) as E.
  eapply Rle_trans; [exact E|]. apply Rmult_le_compat_r; [apply Rabs_pos|]. rewrite bpow_plus. change (bpow radix2 1) with 2. lra.
Qed.
Lemma flx_half prec k : (1 < prec)%Z -> (Z.abs k <= 2 ^ prec)%Z -> rndp prec (IZR k / 2) = IZR k / 2.
Proof.
  intros Hp Hk. assert (HP : Prec_gt_0 prec) by (unfold Prec_gt_0; lia). apply round_generic; [typeclasses eauto|]. destruct (Z.eq_dec (Z.abs k) (2 ^ prec)) as [E|E].
  - assert (B : generic_format radix2 (FLX_exp prec) (bpow radix2 (prec - 1))) by (apply generic_format_bpow; unfold FLX_exp; lia).
    assert (V : bpow radix2 (prec - 1) = IZR (Z.abs k) / 2). { rewrite E. unfold Z.sub. rewrite bpow_plus. change (bpow radix2 (-(1))) with (/ 2). rewrite <- IZR_Zpower by lia. reflexivity. }
    destruct (Z_le_gt_dec 0 k); [rewrite Z.abs_eq in V by lia; rewrite <- V; exact B|]. rewrite Z.abs_neq, opp_IZR in V by lia. replace (IZR k / 2) with (- (- IZR k / 2)) by lra. rewrite <- V. apply generic_format_opp. exact B.
  - apply generic_format_FLX. exists (Float radix2 k (-1)); [unfold F2R; cbn; lra|cbn; lia].
Qed.

(** C108  On equidistant points x0, x0 + dx, ... the slope computed with every operation rounded to prec bits is within
    23 (n + 4) u Y / (n |dx|) of the slope of the line of least squares (C59), u = 2^-prec, for n ordinates of at most Y. *)
Theorem C108_slope (prec : Z) (y : list R) (n : nat) (x0 dx Y : R) : (1 < prec)%Z -> (2 <= n)%nat -> (Z.of_nat n <= INT_MAX)%Z -> (100 * (Z.of_nat n + 3) <= 2 ^ prec)%Z ->
  (n <= length y)%nat -> dx <> 0 -> (forall i, (i < n)%nat -> Rabs (el y i) <= Y) ->
  exists s s', regr_grid Rn y (Z.of_nat n) x0 dx = Ok s /\ regr_grid (Fn (rndp prec)) y (Z.of_nat n) x0 dx = Ok s' /\
  Rabs (ln_slope s' - ln_slope s) <= 23 * (INR n + 4) * bpow radix2 (- prec) * Y / (INR n * Rabs dx).
Proof.
  intros Hp Hn Hm Hb Hy Hdx HY. destruct (slope_round (bpow radix2 (- prec)) (rndp prec) (bpow_ge_0 _ _) (flx_err prec Hp) y n x0 dx Y Hn Hm Hy Hdx) as (s & s' & E & E' & B); auto.
  - intros k Hk. apply flx_half; lia.
  - rewrite plus_INR, INR_IZR_INZ. replace (INR 3) with 3 by (cbn; lra). apply IZR_le in Hb. rewrite mult_IZR, plus_IZR in Hb. assert (P : IZR (2 ^ prec) * bpow radix2 (- prec) = 1). { change 2%Z with (radix2 : Z). rewrite IZR_Zpower, <- bpow_plus by lia. replace (prec + - prec)%Z with 0%Z by lia. reflexivity. }
    pose proof (bpow_gt_0 radix2 (- prec)). nra.
  - exists s, s'. split; auto. split; auto. rewrite plus_INR in B. replace (INR 4) with 4 in B by (cbn; lra). exact B.
Qed.
Print Assumptions C108_slope.

(** 1000 samples of a phase between -pi and pi in float: the slope per sample is within 6e-6 *)
Example C108_case (y : list R) : length y = 1000%nat -> (forall i, (i < 1000)%nat -> Rabs (el y i) <= 4) ->
  exists s s', regr_grid Rn y 1000 0 1 = Ok s /\ regr_grid (Fn (rndp 24)) y 1000 0 1 = Ok s' /\ Rabs (ln_slope s' - ln_slope s) <= 6e-6.
Proof.
  intros L H. destruct (C108_slope 24 y 1000 0 1 4) as (s & s' & E & E' & B); try lia; try lra; auto; [unfold INT_MAX; lia|]. exists s, s'. split; [exact E|]. split; [exact E'|]. eapply Rle_trans; [exact B|].
  rewrite Rabs_R1, (INR_IZR_INZ 1000). change (IZR (Z.of_nat 1000)) with 1000. replace (bpow radix2 (- (24))) with (/ IZR 16777216) by reflexivity. lra.
Qed.
