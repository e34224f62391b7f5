(* Circular convolution and circular shift through the transform *)
From Coq Require Import Reals ZArith Lia Lra List.
From Coquelicot Require Import Complex.
From Verif Require Import Proofs.BaseLemmas Spec.Dft Spec.Conv Model.Fft Proofs.FftAlg Proofs.FftSplit Proofs.FftKernels Proofs.FftGen Proofs.FftProofs Proofs.FftInverse.
Import ListNotations.
Open Scope R_scope.
Open Scope C_scope.

Lemma Csum_rot N m (g : nat -> C) : (m <= N)%nat -> (0 < N)%nat -> Csum N (fun n => g ((n + m) mod N)%nat) = Csum N g.
Proof.
  intros Hm HN. assert (E : N = ((N - m) + m)%nat) by lia. rewrite E at 1. rewrite Csum_add.
  assert (E2 : N = (m + (N - m))%nat) by lia. transitivity (Csum (m + (N - m)) g); [|now rewrite <- E2]. rewrite Csum_add, Cplus_comm. f_equal.
  - apply Csum_ext. intros k Hk. f_equal. replace (N - m + k + m)%nat with (k + 1 * N)%nat by lia. rewrite Nat.mod_add, Nat.mod_small by lia. reflexivity.
  - apply Csum_ext. intros k Hk. f_equal. rewrite Nat.mod_small by lia. lia.
Qed.

Lemma root_shift s N n m k : (0 < N)%nat -> (m <= N)%nat ->
  root s (Z.of_nat N) (Z.of_nat n * Z.of_nat k) = root s (Z.of_nat N) (Z.of_nat ((n + (N - m)) mod N) * Z.of_nat k) * root s (Z.of_nat N) (Z.of_nat m * Z.of_nat k).
Proof.
  intros HN Hm. rewrite <- root_add. apply root_mod; [lia|]. rewrite Nat2Z.inj_mod, Nat2Z.inj_add, Nat2Z.inj_sub by lia. set (Nz := Z.of_nat N) in *. set (nz := Z.of_nat n). set (mz := Z.of_nat m). set (kz := Z.of_nat k).
  rewrite (Z.mod_eq (nz + (Nz - mz)) Nz) by lia. set (q := ((nz + (Nz - mz)) / Nz)%Z).
  replace (nz * kz - ((nz + (Nz - mz) - Nz * q) * kz + mz * kz))%Z with (((q - 1) * kz) * Nz)%Z by ring. apply Z.mod_mul. lia.
Qed.
Lemma DFT_shift s N b m k : (0 < N)%nat -> (m <= N)%nat -> 
  DFT s N (fun n => b ((n + (N - m)) mod N)%nat) k = root s (Z.of_nat N) (Z.of_nat m * Z.of_nat k) * DFT s N b k.
Proof.
  intros HN Hm. rewrite !DFT_root by auto. rewrite (Csum_ext N _ (fun n => root s (Z.of_nat N) (Z.of_nat m * Z.of_nat k) * ((fun j => b j * root s (Z.of_nat N) (Z.of_nat j * Z.of_nat k)) ((n + (N - m)) mod N)%nat))).
  - rewrite Csum_scal. f_equal. apply (Csum_rot N (N - m) (fun j => b j * root s (Z.of_nat N) (Z.of_nat j * Z.of_nat k))); lia.
  - intros n Hn. rewrite (root_shift s N n m k) by auto. ring.
Qed.
Lemma DFT_circconv s N a b k : (0 < N)%nat -> DFT s N (circconv N a b) k = DFT s N a k * DFT s N b k.
Proof.
  intros HN. rewrite (DFT_root s N a) by auto. rewrite <- Csum_scal_r.
  rewrite (Csum_ext N _ (fun i => a i * DFT s N (fun n => b ((n + (N - i)) mod N)%nat) k)) by (intros i Hi; rewrite DFT_shift by lia; ring).
  rewrite DFT_root by auto. unfold circconv.
  rewrite (Csum_ext N _ (fun n => Csum N (fun i => a i * (b ((n + (N - i)) mod N)%nat * root s (Z.of_nat N) (Z.of_nat n * Z.of_nat k))))) by (intros n Hn; rewrite <- Csum_scal_r; apply Csum_ext; intros; ring).
  rewrite Csum_swap. apply Csum_ext. intros i Hi. rewrite Csum_scal. f_equal. rewrite DFT_root by auto. reflexivity.
Qed.

Lemma circconv_linear N (a b : nat -> C) p q n : (n < N)%nat -> (p + q <= N + 1)%nat -> (forall i, (p <= i)%nat -> a i = 0) -> (forall i, (q <= i)%nat -> b i = 0) ->
  circconv N a b n = linconv a b n.
Proof.
  intros Hn Hpq Ha Hb. unfold circconv, linconv. assert (E : N = (S n + (N - S n))%nat) by lia. rewrite E at 1. rewrite Csum_add.
  rewrite (Csum_ext (N - S n) _ (fun _ => 0)), Csum_zero.
  - rewrite Cplus_0_r. apply Csum_ext. intros i Hi. do 2 f_equal. replace (n + (N - i))%nat with (n - i + 1 * N)%nat by lia. rewrite Nat.mod_add, Nat.mod_small by lia. reflexivity.
  - intros k Hk. destruct (Nat.le_gt_cases p (S n + k)) as [H|H]; [rewrite (Ha _ H); ring|]. rewrite (Hb ((n + (N - (S n + k))) mod N)%nat); [ring|]. rewrite Nat.mod_small by lia. lia.
Qed.

Open Scope Z_scope.
Lemma all_some BINS (l : list (option C)) (f : nat -> C) : zlen l = BINS ->
  (forall k, 0 <= k < BINS -> znth l k = Some (Some (f (Z.to_nat k)))) -> l = map Some (map f (seq 0 (Z.to_nat BINS))).
Proof.
  intros L V. apply nth_error_ext'. intros k. destruct (Nat.lt_ge_cases k (Z.to_nat BINS)) as [Hk|Hk].
  - specialize (V (Z.of_nat k) ltac:(lia)). rewrite znth_nth_error, Nat2Z.id in V. rewrite V.
    rewrite map_map, nth_error_map, (nth_error_nth' _ 0%nat), seq_nth by (rewrite ?seq_length; lia). reflexivity.
  - rewrite (proj2 (nth_error_None l k)) by (unfold zlen in L; lia). symmetry. apply nth_error_None. rewrite !map_length, seq_length. lia.
Qed.
Lemma fft_list BINS SIGN (out : list (option C)) (inp : list C) : 0 < BINS -> smooth31 BINS -> SIGN = 1 \/ SIGN = -1 -> zlen out = BINS -> zlen inp = BINS ->
  fft Rn exact_trig BINS SIGN out inp = Ok (map Some (map (DFT SIGN (Z.to_nat BINS) (fun n => nth n inp (RtoC 0))) (seq 0 (Z.to_nat BINS)))).
Proof.
  intros HB Hsm HS Lo Li. destruct (fft_exact BINS SIGN out inp) as (o1 & E1 & L1 & _ & V1); auto; try lia. rewrite E1. f_equal. apply all_some; auto. lia.
Qed.
Lemma nth_map_seq (f : nat -> C) n k d : (k < n)%nat -> nth k (map f (seq 0 n)) d = f k.
Proof.
  intros H. rewrite (nth_indep _ d (f O)) by (rewrite map_length, seq_length; lia). rewrite map_nth, seq_nth by lia. reflexivity.
Qed.

Lemma fft_convolution BINS SIGN (o1 o2 o3 : list (option C)) (a b : list C) : 0 < BINS -> smooth31 BINS -> SIGN = 1 \/ SIGN = -1 ->
  zlen o1 = BINS -> zlen o2 = BINS -> zlen o3 = BINS -> zlen a = BINS -> zlen b = BINS ->
  exists A B res : list C, fft Rn exact_trig BINS SIGN o1 a = Ok (map Some A) /\ fft Rn exact_trig BINS SIGN o2 b = Ok (map Some B) /\
    fft Rn exact_trig BINS (- SIGN) o3 (map (fun p => cmul Rn (fst p) (snd p)) (combine A B)) = Ok (map Some res) /\ zlen res = BINS /\
    forall n, (n < Z.to_nat BINS)%nat -> nth n res (RtoC 0) =
      Cmult (RtoC (IZR BINS)) (circconv (Z.to_nat BINS) (fun i => nth i a (RtoC 0)) (fun i => nth i b (RtoC 0)) n).
Proof.
  intros HB Hsm HS L1 L2 L3 La Lb. set (N := Z.to_nat BINS). set (fa := fun i => nth i a (RtoC 0)). set (fb := fun i => nth i b (RtoC 0)).
  set (A := map (DFT SIGN N fa) (seq 0 N)). set (B := map (DFT SIGN N fb) (seq 0 N)).
  set (mid := map (fun p => cmul Rn (fst p) (snd p)) (combine A B)).
  assert (Lm : zlen mid = BINS). { unfold mid, zlen. rewrite map_length, combine_length. unfold A, B. rewrite !map_length, seq_length. lia. }
  assert (EM : forall k, (k < N)%nat -> nth k mid (RtoC 0) = DFT SIGN N (circconv N fa fb) k).
  { intros k Hk. rewrite DFT_circconv by lia. unfold mid.
    rewrite (nth_indep _ (RtoC 0) ((fun p => cmul Rn (fst p) (snd p)) (RtoC 0, RtoC 0))) by (rewrite map_length, combine_length; unfold A, B; rewrite !map_length, seq_length; lia).
    rewrite (map_nth (fun p => cmul Rn (fst p) (snd p))), combine_nth by (unfold A, B; now rewrite !map_length). cbn [fst snd].
    unfold A, B. rewrite !nth_map_seq by lia. reflexivity. }
  exists A, B, (map (DFT (- SIGN) N (fun n => nth n mid (RtoC 0))) (seq 0 N)). splits.
  - apply fft_list; auto.
  - apply fft_list; auto.
  - apply fft_list; auto. lia.
  - unfold zlen. rewrite map_length, seq_length. lia.
  - intros n Hn. rewrite nth_map_seq by lia. rewrite (DFT_ext _ _ _ (DFT SIGN N (circconv N fa fb))) by exact EM.
    rewrite DFT_inverse by (auto; lia). unfold N. rewrite INR_IZR_INZ, Z2Nat.id by lia. reflexivity.
Qed.
