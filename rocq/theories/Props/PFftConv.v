(* C79: fast convolution with the Fourier transform (fft.hh) *)
From Coq Require Import Reals ZArith Lia Lra List.
From Coquelicot Require Import Complex.
From Verif Require Import Proofs.BaseLemmas Spec.Dft Spec.Conv Model.Fft Proofs.FftAlg Proofs.FftSplit Proofs.FftKernels Proofs.FftGen Proofs.FftProofs Proofs.FftInverse Proofs.FftConv.
Import ListNotations.
Open Scope Z_scope.
Notation at0 l := (fun i : nat => nth i l (RtoC 0)).

(** C79  Transforming two inputs, multiplying bin by bin with operator*, and transforming back with the other sign
    gives BINS times their circular convolution. *)
Theorem C79_convolution (BINS SIGN : Z) (o1 o2 o3 : list (option C)) (a b : list C) : 0 < BINS -> smooth31 BINS -> SIGN = 1 \/ SIGN = -1 ->
  zlen o1 = BINS -> zlen o2 = BINS -> zlen o3 = BINS -> zlen a = BINS -> zlen b = BINS ->
  exists A B res : list C, fft Rn exact_trig BINS SIGN o1 a = Ok (map Some A) /\ fft Rn exact_trig BINS SIGN o2 b = Ok (map Some B) /\
    fft Rn exact_trig BINS (- SIGN) o3 (map (fun p => cmul Rn (fst p) (snd p)) (combine A B)) = Ok (map Some res) /\ zlen res = BINS /\
    forall n, (n < Z.to_nat BINS)%nat -> nth n res (RtoC 0) = Cmult (RtoC (IZR BINS)) (circconv (Z.to_nat BINS) (at0 a) (at0 b) n).
Proof. exact (fft_convolution BINS SIGN o1 o2 o3 a b). Qed.
Print Assumptions C79_convolution.
(** C79  With zero padding so that nothing wraps around (p + q - 1 <= BINS) it is the linear convolution: filtering by a
    response of q coefficients. *)
Theorem C79_linear_convolution (BINS SIGN : Z) (p q : nat) (o1 o2 o3 : list (option C)) (a b : list C) : 0 < BINS -> smooth31 BINS -> SIGN = 1 \/ SIGN = -1 ->
  zlen o1 = BINS -> zlen o2 = BINS -> zlen o3 = BINS -> zlen a = BINS -> zlen b = BINS ->
  (forall i, (p <= i)%nat -> nth i a (RtoC 0) = RtoC 0) -> (forall i, (q <= i)%nat -> nth i b (RtoC 0) = RtoC 0) -> Z.of_nat (p + q) <= BINS + 1 ->
  exists A B res : list C, fft Rn exact_trig BINS SIGN o1 a = Ok (map Some A) /\ fft Rn exact_trig BINS SIGN o2 b = Ok (map Some B) /\
    fft Rn exact_trig BINS (- SIGN) o3 (map (fun p => cmul Rn (fst p) (snd p)) (combine A B)) = Ok (map Some res) /\ zlen res = BINS /\
    forall n, (n < Z.to_nat BINS)%nat -> nth n res (RtoC 0) = Cmult (RtoC (IZR BINS)) (linconv (at0 a) (at0 b) n).
Proof.
  intros HB Hs HS L1 L2 L3 La Lb Ha Hb Hpq. destruct (C79_convolution BINS SIGN o1 o2 o3 a b) as (A & B & res & E1 & E2 & E3 & L & V); auto.
  exists A, B, res. splits; auto. intros n Hn. rewrite V by auto. f_equal. apply (circconv_linear (Z.to_nat BINS) (at0 a) (at0 b) p q n); auto. lia.
Qed.
Print Assumptions C79_linear_convolution.
Lemma nth_skipn' {A} (l : list A) m n d : nth n (skipn m l) d = nth (m + n) l d.
Proof. revert l. induction m; intros [|x l]; cbn; auto. destruct n; auto. Qed.
Lemma nth_firstn' {A} (l : list A) m n d : (n < m)%nat -> nth n (firstn m l) d = nth n l d.
Proof. revert l n. induction m; intros [|x l] [|n] H; cbn; auto; try lia. apply IHm. lia. Qed.
(** C79  Rotating the input by m places turns bin k by exp(SIGN 2 pi i m k / BINS). *)
Theorem C79_shift (BINS SIGN : Z) (m : nat) (o1 o2 : list (option C)) (a : list C) : 0 < BINS -> smooth31 BINS -> SIGN = 1 \/ SIGN = -1 ->
  zlen o1 = BINS -> zlen o2 = BINS -> zlen a = BINS -> Z.of_nat m <= BINS ->
  exists A A' : list C, fft Rn exact_trig BINS SIGN o1 a = Ok (map Some A) /\
    fft Rn exact_trig BINS SIGN o2 (skipn (length a - m) a ++ firstn (length a - m) a) = Ok (map Some A') /\
    forall k, (k < Z.to_nat BINS)%nat -> nth k A' (RtoC 0) = Cmult (cis (IZR SIGN * 2 * PI * (INR m * INR k) / IZR BINS)) (nth k A (RtoC 0)).
Proof.
  intros HB Hs HS L1 L2 La Hm. do 2 eexists. split; [apply fft_list; auto|]. split.
  - apply fft_list; auto. unfold zlen in *. rewrite app_length, skipn_length, firstn_length. lia.
  - intros k Hk. rewrite !nth_map_seq by auto. set (N := Z.to_nat BINS) in *. assert (N0 : (0 < N)%nat) by lia.
    assert (Ln : length a = N) by (unfold zlen in La; lia). rewrite (DFT_ext _ _ _ (fun n => at0 a ((n + (N - m)) mod N)%nat)).
    + cbn beta. rewrite (DFT_shift SIGN N (at0 a) m k) by lia. unfold root. f_equal. f_equal. unfold N. rewrite Z2Nat.id by lia. rewrite mult_IZR, <- !INR_IZR_INZ. reflexivity.
    + intros n Hn. rewrite Ln. destruct (Nat.lt_ge_cases n m) as [H|H].
      * rewrite app_nth1 by (rewrite skipn_length; lia). rewrite Nat.mod_small by lia. rewrite nth_skipn'. f_equal. lia.
      * rewrite app_nth2 by (rewrite skipn_length; lia). rewrite skipn_length, Ln. replace (n + (N - m))%nat with (n - m + 1 * N)%nat by lia. rewrite Nat.mod_add, Nat.mod_small by lia.
        rewrite nth_firstn' by lia. f_equal. lia.
Qed.
Print Assumptions C79_shift.
(** (1 + 2x)(3 + x) = 3 + 7x + 2x^2 with three points *)
Example C79_example : exists A B, fft Rn exact_trig 3 1 [None; None; None] [RtoC 1; RtoC 2; RtoC 0] = Ok (map Some A) /\
  fft Rn exact_trig 3 1 [None; None; None] [RtoC 3; RtoC 1; RtoC 0] = Ok (map Some B) /\
  fft Rn exact_trig 3 (-1) [None; None; None] (map (fun p => cmul Rn (fst p) (snd p)) (combine A B)) = Ok (map Some [RtoC 9; RtoC 21; RtoC 6]).
Proof.
  destruct (C79_linear_convolution 3 1 2 2 [None; None; None] [None; None; None] [None; None; None] [RtoC 1; RtoC 2; RtoC 0] [RtoC 3; RtoC 1; RtoC 0]) as (A & B & res & E1 & E2 & E3 & L & V); auto; try lia.
  - apply (smooth_radix 3). cbn. tauto.
  - intros [|[|[|[|i]]]] H; try reflexivity; lia.
  - intros [|[|[|[|i]]]] H; try reflexivity; lia.
  - exists A, B. splits; auto. change (- (1)) with (-1) in E3. refine (eq_trans E3 _). do 2 f_equal. destruct res as [|r0 [|r1 [|r2 [|r3 t]]]]; try (unfold zlen in L; cbn [length] in L; lia).
    pose proof (V 0%nat ltac:(cbn; lia)) as V0. pose proof (V 1%nat ltac:(cbn; lia)) as V1. pose proof (V 2%nat ltac:(cbn; lia)) as V2.
    unfold linconv in V0, V1, V2. cbn [Csum nth Nat.sub] in V0, V1, V2. rewrite V0, V1, V2. repeat f_equal; apply C_eq; cbn; lra.
Qed.
