(* Orthogonality of the roots of unity: the inverse transform and Parseval's identity; the real transform *)
From Coq Require Import Reals ZArith Lia Lra List.
From Coquelicot Require Import Complex.
From Verif Require Import Proofs.BaseLemmas Spec.Dft Model.Fft Proofs.FftAlg Proofs.FftSplit Proofs.FftKernels Proofs.FftGen Proofs.FftProofs.
Import ListNotations.
Open Scope R_scope.
Open Scope C_scope.

Lemma root_ne_1 s N d : (s = 1 \/ s = -1)%Z -> (0 < d < N)%Z -> root s N d <> 1.
Proof.
  intros HS Hd E. apply (f_equal fst) in E. unfold root, cis in E. cbn [fst] in E. cbn in E.
  assert (HN : (0 < IZR N)%R) by (apply IZR_lt; lia).
  set (t := (PI * IZR d / IZR N)%R).
  assert (B : (0 < t < PI)%R).
  { assert (P := PI_RGT_0). unfold t. split.
    - apply Rdiv_lt_0_compat; auto. apply Rmult_lt_0_compat; auto. apply IZR_lt; lia.
    - apply (Rmult_lt_reg_r (IZR N)); auto. unfold Rdiv. rewrite Rmult_assoc, Rinv_l by lra. rewrite Rmult_1_r.
      apply Rmult_lt_compat_l; auto. apply IZR_lt; lia. }
  assert (E' : cos (2 * t) = 1%R).
  { rewrite <- E. destruct HS as [-> | ->].
    - f_equal. unfold t, Rdiv. ring.
    - rewrite <- (cos_neg (2 * t)). f_equal. unfold t, Rdiv. ring. }
  rewrite cos_2a_sin in E'. assert (0 < sin t)%R by (apply sin_gt_0; lra). nra.
Qed.

Fixpoint Cpow (w : C) (n : nat) : C := match n with O => 1 | S n => w * Cpow w n end.
Lemma geometric w n : (w - 1) * Csum n (fun k => Cpow w k) = Cpow w n - 1.
Proof. induction n as [|n IH]; cbn [Csum Cpow]; [ring|]. rewrite Cmult_plus_distr_l, IH. ring. Qed.

Lemma root_pow s N d n : root s N (Z.of_nat n * d) = Cpow (root s N d) n.
Proof.
  induction n as [|n IH]; [rewrite Z.mul_0_l; apply root_0|]. cbn [Cpow].
  replace (Z.of_nat (S n) * d)%Z with (d + Z.of_nat n * d)%Z by lia. now rewrite root_add, IH.
Qed.

Lemma Csum_root s N d : (s = 1 \/ s = -1)%Z -> (0 < N)%nat -> (- Z.of_nat N < d < Z.of_nat N)%Z ->
  Csum N (fun n => root s (Z.of_nat N) (Z.of_nat n * d)) = if (d =? 0)%Z then RtoC (INR N) else 0.
Proof.
  intros HS HN Hd. destruct (Z.eqb_spec d 0) as [->|Hd0].
  - rewrite (Csum_ext N _ (fun _ => 1)) by (intros k Hk; rewrite Z.mul_0_r; apply root_0). rewrite Csum_const. ring.
  - set (w := root s (Z.of_nat N) d). rewrite (Csum_ext N _ (fun k => Cpow w k)) by (intros k Hk; apply root_pow).
    assert (Hw : w <> 1).
    { destruct (Z_lt_le_dec 0 d).
      - apply root_ne_1; auto; lia.
      - unfold w. rewrite <- (Z.opp_involutive d), <- root_sign. apply root_ne_1; lia. }
    assert (E : (w - 1) * Csum N (fun k => Cpow w k) = 0).
    { rewrite geometric. unfold w. rewrite <- root_pow. rewrite root_period by lia. ring. }
    assert (Hw' : w - 1 <> 0).
    { intros E'. apply Hw. replace w with (w - 1 + 1) by ring. rewrite E'. ring. }
    replace (Csum N (fun k => Cpow w k)) with (/ (w - 1) * ((w - 1) * Csum N (fun k => Cpow w k))).
    + rewrite E. ring.
    + rewrite Cmult_assoc, Cinv_l by auto. ring.
Qed.

Lemma DFT_inverse s N x k : (s = 1 \/ s = -1)%Z -> (k < N)%nat -> DFT (- s) N (DFT s N x) k = RtoC (INR N) * x k.
Proof.
  intros HS Hk. assert (HN : (0 < N)%nat) by lia. rewrite DFT_root by auto.
  rewrite (Csum_ext N _ (fun m => Csum N (fun n => x n * (root s (Z.of_nat N) (Z.of_nat m * (Z.of_nat n - Z.of_nat k)))))).
  2:{ intros m Hm. rewrite DFT_root by auto. rewrite <- Csum_scal_r. apply Csum_ext. intros n Hn.
      rewrite root_sign. rewrite <- Cmult_assoc, <- root_add. f_equal. f_equal. ring. }
  rewrite Csum_swap. rewrite (Csum_single N _ k Hk).
  - rewrite Csum_scal. rewrite Csum_root by (auto; lia). rewrite Z.sub_diag. cbn [Z.eqb]. ring.
  - intros n Hn Hne. rewrite Csum_scal. rewrite Csum_root by (auto; lia).
    destruct (Z.eqb_spec (Z.of_nat n - Z.of_nat k) 0); [lia|]. ring.
Qed.

Definition norm2 (z : C) : R := (fst z * fst z + snd z * snd z)%R.
Lemma norm2_C z : RtoC (norm2 z) = z * Cconj z.
Proof. unfold norm2. apply C_eq; cbn; ring. Qed.

Lemma Cconj_DFT s N x k : (0 < N)%nat -> Cconj (DFT s N x k) = DFT (- s) N (fun n => Cconj (x n)) k.
Proof.
  intros HN. rewrite !DFT_root by auto. rewrite Cconj_sum. apply Csum_ext. intros n Hn.
  rewrite root_sign, root_opp. apply C_eq; cbn; ring.
Qed.

Lemma Parseval s N x : (s = 1 \/ s = -1)%Z -> (0 < N)%nat ->
  Csum N (fun k => RtoC (norm2 (DFT s N x k))) = RtoC (INR N) * Csum N (fun n => RtoC (norm2 (x n))).
Proof.
  intros HS HN.
  rewrite (Csum_ext N _ (fun k => Csum N (fun n => DFT s N x k * (Cconj (x n) * root (- s) (Z.of_nat N) (Z.of_nat k * Z.of_nat n))))).
  2:{ intros k Hk. rewrite norm2_C, Cconj_DFT, (DFT_root (- s)) by auto. rewrite <- Csum_scal. apply Csum_ext. intros n Hn.
      f_equal. f_equal. f_equal. ring. }
  rewrite Csum_swap, <- Csum_scal. apply Csum_ext. intros n Hn.
  rewrite norm2_C. rewrite (Csum_ext N _ (fun k => Cconj (x n) * (DFT s N x k * root (- s) (Z.of_nat N) (Z.of_nat k * Z.of_nat n)))) by (intros; ring).
  rewrite Csum_scal, <- DFT_root by auto. rewrite DFT_inverse by auto. ring.
Qed.
