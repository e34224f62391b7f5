(* Algebra of the discrete Fourier transform *)
From Coq Require Import Reals ZArith Lia Lra List.
From Coquelicot Require Import Complex.
From Verif Require Import Spec.Dft.
Open Scope R_scope.
Open Scope C_scope.

Lemma C_eq (a b : C) : fst a = fst b -> snd a = snd b -> a = b.
Proof. destruct a, b; cbn; congruence. Qed.

Lemma Csum_ext n f g : (forall k, (k < n)%nat -> f k = g k) -> Csum n f = Csum n g.
Proof. induction n as [|n IH]; cbn; intros H; auto. rewrite IH by (intros; apply H; lia). rewrite H by lia. auto. Qed.
Lemma Csum_plus n f g : Csum n (fun k => f k + g k) = Csum n f + Csum n g.
Proof. induction n as [|n IH]; cbn; [ring|]. rewrite IH. ring. Qed.
Lemma Csum_minus n f g : Csum n (fun k => f k - g k) = Csum n f - Csum n g.
Proof. induction n as [|n IH]; cbn; [ring|]. rewrite IH. ring. Qed.
Lemma Csum_scal n c f : Csum n (fun k => c * f k) = c * Csum n f.
Proof. induction n as [|n IH]; cbn; [ring|]. rewrite IH. ring. Qed.
Lemma Csum_scal_r n c f : Csum n (fun k => f k * c) = Csum n f * c.
Proof. induction n as [|n IH]; cbn; [ring|]. rewrite IH. ring. Qed.
Lemma Csum_zero n : Csum n (fun _ => 0) = 0.
Proof. induction n as [|n IH]; cbn; [auto|]. rewrite IH. ring. Qed.
Lemma Csum_add n m f : Csum (n + m) f = Csum n f + Csum m (fun k => f (n + k)%nat).
Proof. induction m as [|m IH]; [rewrite Nat.add_0_r; cbn; ring|]. rewrite Nat.add_succ_r. cbn. rewrite IH. ring. Qed.
Lemma Csum_S n f : Csum (S n) f = f O + Csum n (fun k => f (S k)).
Proof. change (S n) with (1 + n)%nat. rewrite Csum_add. cbn. ring. Qed.
Lemma Csum_swap n m f : Csum n (fun i => Csum m (fun j => f i j)) = Csum m (fun j => Csum n (fun i => f i j)).
Proof. induction n as [|n IH]; cbn; [now rewrite Csum_zero|]. rewrite IH. now rewrite <- Csum_plus. Qed.
Lemma Csum_rev n f : Csum n (fun k => f (n - 1 - k)%nat) = Csum n f.
Proof.
  revert f. induction n as [|n IH]; intros f; auto. rewrite Csum_S. cbn [Csum].
  replace (S n - 1 - 0)%nat with n by lia. rewrite (Csum_ext n _ (fun k => f (n - 1 - k)%nat)).
  - rewrite IH. ring.
  - intros k Hk. f_equal. lia.
Qed.
Lemma Csum_const n c : Csum n (fun _ => c) = RtoC (INR n) * c.
Proof.
  induction n as [|n IH]; [cbn; ring|]. rewrite S_INR. cbn [Csum]. rewrite IH, RtoC_plus. ring.
Qed.
Lemma Csum_single n (f : nat -> C) i : (i < n)%nat -> (forall k, (k < n)%nat -> k <> i -> f k = 0) -> Csum n f = f i.
Proof.
  induction n as [|n IH]; intros Hi H; [lia|]. cbn. destruct (Nat.eq_dec i n) as [->|E].
  - rewrite (Csum_ext n f (fun _ => 0)), Csum_zero by (intros; apply H; lia). ring.
  - rewrite IH by (try lia; intros; apply H; lia). rewrite (H n) by lia. ring.
Qed.
(** m = R*q + j *)
Lemma Csum_mul R Q f : Csum (R * Q) f = Csum R (fun j => Csum Q (fun q => f (R * q + j)%nat)).
Proof.
  induction Q as [|Q IH].
  - rewrite Nat.mul_0_r. cbn. now rewrite Csum_zero.
  - rewrite Nat.mul_succ_r, Csum_add, IH, <- Csum_plus. apply Csum_ext. intros. reflexivity.
Qed.
(** terms 1 .. 2h paired as (j, 2h+1-j) *)
Lemma Csum_pair h f : Csum (S (2 * h)) f = f O + Csum h (fun j => f (S j) + f (2 * h - j)%nat).
Proof.
  rewrite Csum_S. f_equal. replace (2 * h)%nat with (h + h)%nat by lia. rewrite Csum_add, Csum_plus. f_equal.
  rewrite <- (Csum_rev h (fun k => f (S (h + k)))). apply Csum_ext. intros k Hk. f_equal. lia.
Qed.
Lemma Cconj_sum n f : Cconj (Csum n f) = Csum n (fun k => Cconj (f k)).
Proof.
  induction n as [|n IH]; cbn [Csum]; [apply C_eq; cbn; ring|]. rewrite <- IH. apply C_eq; cbn; ring.
Qed.

(** ** roots of unity *)
Definition root (s N m : Z) : C := cis (IZR s * 2 * PI * IZR m / IZR N).

Lemma cis_plus a b : cis (a + b) = cis a * cis b.
Proof. apply C_eq; cbn; [rewrite cos_plus|rewrite sin_plus]; ring. Qed.
Lemma cis_0 : cis 0 = 1.
Proof. apply C_eq; cbn; [apply cos_0|apply sin_0]. Qed.
Lemma cis_opp a : cis (- a) = Cconj (cis a).
Proof. apply C_eq; cbn; [apply cos_neg|apply sin_neg]. Qed.
Lemma cis_2PI_nat k : cis (2 * INR k * PI) = 1.
Proof.
  apply C_eq; cbn.
  - replace (2 * INR k * PI)%R with (0 + 2 * INR k * PI)%R by ring. rewrite cos_period. apply cos_0.
  - replace (2 * INR k * PI)%R with (0 + 2 * INR k * PI)%R by ring. rewrite sin_period. apply sin_0.
Qed.
Lemma cis_2PI_Z k : cis (2 * PI * IZR k) = 1.
Proof.
  destruct (Z_le_gt_dec 0 k) as [H|H].
  - rewrite <- (cis_2PI_nat (Z.to_nat k)), INR_IZR_INZ, Z2Nat.id by lia. f_equal. ring.
  - replace (2 * PI * IZR k)%R with (- (2 * PI * IZR (- k)))%R by (rewrite opp_IZR; ring).
    rewrite cis_opp. replace (2 * PI * IZR (- k))%R with (2 * INR (Z.to_nat (- k)) * PI)%R.
    + rewrite cis_2PI_nat. apply C_eq; cbn; ring.
    + rewrite INR_IZR_INZ, Z2Nat.id by lia. ring.
Qed.
Lemma cis_norm a : (fst (cis a) * fst (cis a) + snd (cis a) * snd (cis a) = 1)%R.
Proof. cbn. pose proof (sin2_cos2 a) as H. unfold Rsqr in H. lra. Qed.

Lemma root_0 s N : root s N 0 = 1.
Proof. unfold root. replace (IZR s * 2 * PI * 0 / IZR N)%R with 0%R by (unfold Rdiv; ring). apply cis_0. Qed.
Lemma root_add s N a b : root s N (a + b) = root s N a * root s N b.
Proof. unfold root. rewrite <- cis_plus, plus_IZR. f_equal. unfold Rdiv; ring. Qed.
Lemma root_period s N m : (N <> 0)%Z -> root s N (N * m) = 1.
Proof.
  intros H. unfold root. replace (IZR s * 2 * PI * IZR (N * m) / IZR N)%R with (2 * PI * IZR (s * m))%R.
  - apply cis_2PI_Z.
  - rewrite !mult_IZR. field. now apply not_0_IZR.
Qed.
Lemma root_scale s c N m : (N <> 0)%Z -> (c <> 0)%Z -> root s (c * N) (c * m) = root s N m.
Proof. intros. unfold root. f_equal. rewrite !mult_IZR. field. split; now apply not_0_IZR. Qed.
Lemma root_opp s N m : root s N (- m) = Cconj (root s N m).
Proof. unfold root. rewrite <- cis_opp. f_equal. rewrite opp_IZR. unfold Rdiv; ring. Qed.
Lemma root_sign s N m : root (- s) N m = root s N (- m).
Proof. unfold root. f_equal. rewrite !opp_IZR. unfold Rdiv; ring. Qed.
Lemma root_mod s N a b : (N <> 0)%Z -> ((a - b) mod N = 0)%Z -> root s N a = root s N b.
Proof.
  intros H E. apply Z.mod_divide in E as (q & E); auto. replace a with (b + N * q)%Z by lia.
  rewrite root_add, root_period by auto. ring.
Qed.
Lemma root_mod' s N a : (0 < N)%Z -> root s N (a mod N) = root s N a.
Proof.
  intros H. apply root_mod; [lia|]. rewrite (Z.mod_eq a N) by lia. replace (a - N * (a / N) - a)%Z with ((- (a / N)) * N)%Z by ring.
  apply Z.mod_mul. lia.
Qed.

Lemma DFT_root s N x k : (0 < N)%nat -> DFT s N x k = Csum N (fun n => x n * root s (Z.of_nat N) (Z.of_nat n * Z.of_nat k)).
Proof.
  intros H. apply Csum_ext. intros n Hn. unfold root. rewrite mult_IZR, <- !INR_IZR_INZ. reflexivity.
Qed.

(** decimation in time *)
Lemma DFT_decimate s R Q x k0 l : (0 < R)%nat -> (0 < Q)%nat ->
  DFT s (R * Q) x (k0 + l * Q) =
  Csum R (fun j => (root s (Z.of_nat (R * Q)) (Z.of_nat j * Z.of_nat k0) * DFT s Q (fun q => x (R * q + j)%nat) k0)
                   * root s (Z.of_nat R) (Z.of_nat j * Z.of_nat l)).
Proof.
  intros HR HQ. rewrite DFT_root by nia. rewrite Csum_mul. apply Csum_ext. intros j Hj.
  rewrite DFT_root by lia. rewrite <- Csum_scal, <- Csum_scal_r. apply Csum_ext. intros q Hq.
  set (rZ := Z.of_nat R). set (qZ := Z.of_nat Q).
  replace (Z.of_nat (R * q + j) * Z.of_nat (k0 + l * Q))%Z
    with (Z.of_nat j * Z.of_nat k0 + (rZ * (Z.of_nat q * Z.of_nat k0) + (qZ * (Z.of_nat j * Z.of_nat l) + (rZ * qZ) * (Z.of_nat q * Z.of_nat l))))%Z
    by (unfold rZ, qZ; rewrite !Nat2Z.inj_add, !Nat2Z.inj_mul; ring).
  rewrite !root_add. rewrite Nat2Z.inj_mul. fold rZ qZ.
  rewrite root_period by (unfold rZ, qZ; nia). rewrite root_scale by (unfold rZ, qZ; lia).
  replace (root s (rZ * qZ) (qZ * (Z.of_nat j * Z.of_nat l))) with (root s rZ (Z.of_nat j * Z.of_nat l))
    by (rewrite (Z.mul_comm rZ qZ), root_scale by (unfold rZ, qZ; lia); reflexivity).
  ring.
Qed.
