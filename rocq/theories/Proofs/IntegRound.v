(* The Integrator in floating point: sums of ones stop at 2^prec *)
From Coq Require Import Reals Lra Lia ZArith.
From Flocq Require Import Core.
From Verif Require Import Model.Signal Model.Ema Proofs.KahanFloat.
Open Scope R_scope.

Section Sat.
Variables (emin prec : Z).
Hypothesis Hp : (1 < prec)%Z.
Hypothesis He : (emin <= 0)%Z.
Notation rnd := (round radix2 (FLT_exp emin prec) ZnearestE).
Local Instance prec_pos : Prec_gt_0 prec. Proof. unfold Prec_gt_0. lia. Qed.
Lemma int_exact z : (0 <= z <= 2 ^ prec)%Z -> rnd (IZR z) = IZR z.
Proof.
  intros Hz. apply round_generic; [apply valid_rnd_N|]. destruct (Z.eq_dec z (2 ^ prec)) as [->|N].
  - change (2 ^ prec)%Z with (Zpower radix2 prec). rewrite IZR_Zpower by lia. apply generic_format_FLT_bpow; [apply prec_pos|lia].
  - apply generic_format_FLT. exists (Float radix2 z 0); [unfold F2R; cbn; ring| |exact He]. cbn [Fnum]. rewrite Z.abs_eq by lia. change (Zpower radix2 prec) with (2 ^ prec)%Z in *. lia.
Qed.
Lemma stuck : rnd (IZR (2 ^ prec) + 1) = IZR (2 ^ prec).
Proof.
  assert (E : IZR (2 ^ prec) = bpow radix2 prec) by (change (2 ^ prec)%Z with (Zpower radix2 prec); apply IZR_Zpower; lia).
  assert (P : 4 <= bpow radix2 prec) by (change 4 with (bpow radix2 2); apply bpow_le; lia).
  assert (M : mag radix2 (bpow radix2 prec + 1) = (prec + 1)%Z :> Z).
  { apply mag_unique. rewrite Rabs_pos_eq by lra. replace (prec + 1 - 1)%Z with prec by lia. split; [lra|]. rewrite bpow_plus. change (bpow radix2 1) with 2. lra. }
  rewrite E. unfold round, scaled_mantissa, cexp. rewrite M. unfold FLT_exp. replace (Z.max (prec + 1 - prec) emin) with 1%Z by lia.
  assert (H : (bpow radix2 prec + 1) * bpow radix2 (- (1)) = IZR (2 ^ (prec - 1)) + / 2).
  { rewrite Rmult_plus_distr_r, <- bpow_plus. change (bpow radix2 (- (1))) with (/ 2). change (2 ^ (prec - 1))%Z with (Zpower radix2 (prec - 1)). rewrite IZR_Zpower by lia. replace (prec + - (1))%Z with (prec - 1)%Z by lia. lra. }
  rewrite H. assert (F : Zfloor (IZR (2 ^ (prec - 1)) + / 2) = (2 ^ (prec - 1))%Z) by (apply Zfloor_imp; rewrite plus_IZR; lra).
  unfold Znearest. rewrite F. rewrite Rcompare_Eq by lra. assert (V : Z.even (2 ^ (prec - 1)) = true). { replace (prec - 1)%Z with (Z.succ (prec - 2)) by lia. rewrite Z.pow_succ_r by lia. rewrite Z.even_mul. reflexivity. }
  rewrite V. cbn [negb]. unfold F2R. cbn [Fnum Fexp]. change (bpow radix2 1) with 2. replace prec with (prec - 1 + 1)%Z at 2 by lia. rewrite bpow_plus. change (bpow radix2 1) with 2. f_equal.
  change (2 ^ (prec - 1))%Z with (Zpower radix2 (prec - 1)). apply IZR_Zpower. lia.
Qed.
Lemma ones t : out (integrator_step (fun a b => rnd (a + b))) 0 (fun _ => 1) t = IZR (Z.min (Z.of_nat t + 1) (2 ^ prec)).
Proof.
  assert (P2 : (2 <= 2 ^ prec)%Z) by (change 2%Z with (2 ^ 1)%Z at 1; apply Z.pow_le_mono_r; lia).
  assert (St : forall t, state_at (integrator_step (fun a b => rnd (a + b))) 0 (fun _ => 1) t = IZR (Z.min (Z.of_nat t) (2 ^ prec)) /\
    rnd (IZR (Z.min (Z.of_nat t) (2 ^ prec)) + 1) = IZR (Z.min (Z.of_nat t + 1) (2 ^ prec))).
  { assert (Q : forall t, rnd (IZR (Z.min (Z.of_nat t) (2 ^ prec)) + 1) = IZR (Z.min (Z.of_nat t + 1) (2 ^ prec))).
    { intros k. destruct (Z.lt_ge_cases (Z.of_nat k) (2 ^ prec)) as [L|L].
      - rewrite !Z.min_l by lia. rewrite <- plus_IZR. apply int_exact. lia.
      - rewrite !Z.min_r by lia. apply stuck. }
    intros k. split; auto. induction k as [|k IH]; [cbn; f_equal; symmetry; apply Z.min_l; lia|]. cbn [state_at]. rewrite IH. cbn [integrator_step fst]. rewrite Q. f_equal. f_equal. lia. }
  unfold out. destruct (St t) as [E Q]. rewrite E. cbn [integrator_step snd]. exact Q.
Qed.
End Sat.
