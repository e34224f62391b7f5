(* Proofs about the window functions *)
From Coq Require Import Reals ZArith Lia Lra.
From Coquelicot Require Import Coquelicot.
From Flocq Require Import Core.
From Interval Require Import Tactic.
From Verif Require Import Model.WinFun Spec.ExactConst Spec.Bessel Proofs.ConstProofs.
Open Scope R_scope.

Definition bterm (x : R) (m : nat) : R := (x / 2) ^ m / INR (fact m).
Lemma fact_nz m : INR (fact m) <> 0. Proof. apply INR_fact_neq_0. Qed.
Lemma bterm_S x m : bterm x (S m) = bterm x m * (x / IZR (2 * Z.of_nat (S m))).
Proof.
  unfold bterm. rewrite <- tech_pow_Rmult. change (fact (S m)) with (S m * fact m)%nat. rewrite mult_INR, mult_IZR, <- INR_IZR_INZ. field. split; [apply not_0_INR; lia|apply fact_nz].
Qed.
Lemma bterm_0 x : bterm x 0 = 1. Proof. unfold bterm. cbn. field. Qed.
Lemma bterm_zero x m : bterm x m = 0 -> forall j, bterm x (m + j) = 0.
Proof. intros H j. induction j as [|j IH]; [rewrite Nat.add_0_r; auto|]. rewrite Nat.add_succ_r, bterm_S, IH. ring. Qed.

Lemma i0_loop_sum x : forall k m, i0_loop Rc x k (Z.of_nat (S m)) (mkKahan (sum_f_R0 (bessel_term x) m) 0) (bterm x m) = sum_f_R0 (bessel_term x) (m + k).
Proof.
  induction k as [|k IH]; intros m; [rewrite Nat.add_0_r; reflexivity|]. cbn [i0_loop].
  change (nmul Rc (bterm x m) (ndiv Rc x (nofZ Rc (2 * Z.of_nat (S m))))) with (bterm x m * (x / IZR (2 * Z.of_nat (S m)))).
  rewrite <- bterm_S. unfold kahan_same, kahan_call. cbn [fst k_low k_high nadd nsub nmul neqb Rc].
  set (b := bterm x (S m)). set (s := sum_f_R0 (bessel_term x) m).
  replace (s + (b * b - 0) - s - (b * b - 0)) with 0 by ring.
  assert (E : s + (b * b - 0) = sum_f_R0 (bessel_term x) (S m)).
  { cbn [sum_f_R0]. fold s. unfold bessel_term. change ((x / 2) ^ S m / INR (fact (S m))) with b. ring. }
  unfold kahan_eq. cbn [k_low k_high]. rewrite (Req_bool_true 0 0) by auto. cbn [andb].
  destruct (Req_bool_spec s (s + (b * b - 0))) as [Z|Z].
  - assert (B : b = 0) by (apply Rsqr_0_uniq; unfold Rsqr; lra). unfold kahan_value. cbn [k_high]. rewrite <- Z.
    rewrite Nat.add_succ_r. clear IH E Z. generalize (S k). intros j. assert (H : forall i, sum_f_R0 (bessel_term x) (m + i) = s).
    { induction i as [|i IHi]; [rewrite Nat.add_0_r; auto|]. rewrite Nat.add_succ_r. cbn [sum_f_R0]. rewrite IHi. unfold bessel_term.
      change ((x / 2) ^ S (m + i) / INR (fact (S (m + i)))) with (bterm x (S m + i)). rewrite (bterm_zero x (S m) B). ring. }
    rewrite <- (H (S k)). f_equal. lia.
  - rewrite E. rewrite <- (IH (S m)) at 1 || idtac. replace (m + S k)%nat with (S m + k)%nat by lia. rewrite <- IH.
    replace (Z.of_nat (S m) + 1)%Z with (Z.of_nat (S (S m))) by lia. reflexivity.
Qed.
Lemma i0_sum x : i0 Rc x = sum_f_R0 (bessel_term x) 34.
Proof.
  unfold i0. rewrite one_rc. pose proof (i0_loop_sum x 34 0) as H. cbn [Nat.add] in H. rewrite <- H. unfold kahan_new. cbn [n0 Rc].
  rewrite bterm_0. f_equal. f_equal. unfold bessel_term. cbn. field.
Qed.

Lemma bessel_pos x m : 0 <= bessel_term x m. Proof. unfold bessel_term. apply pow2_ge_0. Qed.
Lemma bessel_mono x y m : Rabs x <= Rabs y -> bessel_term x m <= bessel_term y m.
Proof.
  intros H. unfold bessel_term. rewrite <- (pow2_abs ((x / 2) ^ m / _)), <- (pow2_abs ((y / 2) ^ m / _)). apply pow_incr. split; [apply Rabs_pos|].
  unfold Rdiv. rewrite !Rabs_mult. apply Rmult_le_compat_r; [apply Rabs_pos|]. rewrite <- !RPow_abs. apply pow_incr. split; [apply Rabs_pos|].
  rewrite !Rabs_mult. apply Rmult_le_compat_r; [apply Rabs_pos|auto].
Qed.
Lemma bsum_mono x y n : Rabs x <= Rabs y -> sum_f_R0 (bessel_term x) n <= sum_f_R0 (bessel_term y) n.
Proof. intros H. apply sum_Rle. intros. apply bessel_mono; auto. Qed.
Lemma bsum_ge1 x n : 1 <= sum_f_R0 (bessel_term x) n.
Proof.
  induction n as [|n IH]; [unfold bessel_term; cbn; lra|]. cbn [sum_f_R0]. pose proof (bessel_pos x (S n)). lra.
Qed.

(** the tail of the series *)
Lemma bessel_ratio x m : Rabs x <= 3 * PI -> (35 <= m)%nat -> bessel_term x (S m) <= bessel_term x m / 2.
Proof.
  intros Hx Hm. unfold bessel_term. change ((x / 2) ^ S m / INR (fact (S m))) with (bterm x (S m)). change ((x / 2) ^ m / INR (fact m)) with (bterm x m).
  rewrite bterm_S. set (b := bterm x m). rewrite Rpow_mult_distr. assert (Q : (x / IZR (2 * Z.of_nat (S m))) ^ 2 <= 1 / 2).
  { rewrite <- pow2_abs. unfold Rdiv. rewrite Rabs_mult, Rabs_inv, (Rabs_pos_eq (IZR _)) by (apply IZR_le; lia).
    assert (B : 72 <= IZR (2 * Z.of_nat (S m))) by (apply IZR_le; lia). assert (P4 : PI <= 4) by apply PI_4.
    assert (I : 0 < / IZR (2 * Z.of_nat (S m)) <= / 72) by (split; [apply Rinv_0_lt_compat; lra|apply Rinv_le_contravar; lra]).
    pose proof (Rabs_pos x). assert (0 <= Rabs x * / IZR (2 * Z.of_nat (S m)) <= 12 * / 72) by (split; [nra|apply Rmult_le_compat; lra]).
    set (u := Rabs x * / IZR (2 * Z.of_nat (S m))) in *. cbn. nra. }
  pose proof (pow2_ge_0 b). nra.
Qed.
Fixpoint zfact (n : nat) : Z := match n with O => 1 | S n' => Z.of_nat n * zfact n' end.
Lemma fact_Z n : INR (fact n) = IZR (zfact n).
Proof. induction n as [|n IH]; [reflexivity|]. change (fact (S n)) with (S n * fact n)%nat. cbn [zfact]. rewrite mult_INR, mult_IZR, IH, <- INR_IZR_INZ. reflexivity. Qed.
Lemma bessel_35 x : Rabs x <= 3 * PI -> bessel_term x 35 <= 5e-33.
Proof.
  intros Hx. eapply Rle_trans; [apply (bessel_mono x (3 * PI)); rewrite (Rabs_pos_eq (3 * PI)); [auto|pose proof PI_RGT_0; lra]|].
  unfold bessel_term. replace (INR (fact 35)) with (IZR 10333147966386144929666651337523200000000).
  - interval.
  - rewrite fact_Z. reflexivity.
Qed.
Lemma bessel_tail x : Rabs x <= 3 * PI -> exists v, is_I0 x v /\ 0 <= v - sum_f_R0 (bessel_term x) 34 <= 1e-32.
Proof.
  intros Hx. set (t := bessel_term x). set (u := sum_f_R0 t). assert (TP : forall n, 0 <= t n) by apply bessel_pos.
  assert (B : forall j, u (35 + j)%nat <= u 34%nat + 2 * t 35%nat - t (35 + j)%nat).
  { induction j as [|j IH].
    - rewrite Nat.add_0_r. unfold u. change (sum_f_R0 t 35) with (sum_f_R0 t 34 + t 35%nat). lra.
    - rewrite Nat.add_succ_r. unfold u in *. change (sum_f_R0 t (S (35 + j))) with (sum_f_R0 t (35 + j) + t (S (35 + j))). pose proof (bessel_ratio x (35 + j) Hx ltac:(lia)) as R. fold t in R. lra. }
  assert (I : forall n, u n <= u (S n)) by (intros n; unfold u; cbn [sum_f_R0]; pose proof (TP (S n)); lra).
  assert (I' : forall m n, (m <= n)%nat -> u m <= u n) by (intros m n H; induction H; [lra|eapply Rle_trans; [apply IHle|apply I]]).
  assert (M : forall n, u n <= u 34%nat + 2 * t 35%nat).
  { intros n. destruct (le_lt_dec n 35) as [L|L]; [pose proof (I' n 35%nat L); pose proof (B 0%nat) as B0; rewrite Nat.add_0_r in B0; pose proof (TP 35%nat); lra|].
    replace n with (35 + (n - 35))%nat by lia. pose proof (B (n - 35)%nat). pose proof (TP (35 + (n - 35))%nat). lra. }
  destruct (ex_finite_lim_seq_incr u _ I M) as [v V]. exists v. split.
  - unfold is_I0. fold t. apply (filterlim_ext u); [|exact V]. intros n. symmetry. apply sum_n_Reals.
  - pose proof (is_lim_seq_incr_compare u v V I 34) as L. assert (Uv : v <= u 34%nat + 2 * t 35%nat).
    { apply (is_lim_seq_le u (fun _ => u 34%nat + 2 * t 35%nat) v (u 34%nat + 2 * t 35%nat) M V). apply is_lim_seq_const. }
    pose proof (bessel_35 x Hx) as T35. fold t in T35. change (sum_f_R0 t 34) with (u 34%nat). lra.
Qed.

Definition wdom (n N : Z) : Prop := (2 <= N)%Z /\ (0 <= n < N)%Z /\ (16 * N <= INT_MAX)%Z.
Ltac wd H := destruct H as (? & ? & ?); unfold INT_MAX, INT_MIN in *.
Lemma hann_eq n N : wdom n N -> win_hann Rc exact_ptrig n N = Ok (1 / 2 * (1 - cos (2 * PI * IZR n / IZR (N - 1)))).
Proof.
  intros H. wd H. unfold win_hann. rewrite ichk_ok by (unfold INT_MIN, INT_MAX; lia). cbn [bind]. rewrite pcos_ok by (unfold INT_MAX; lia). cbn [bind]. rewrite half_rc. reflexivity.
Qed.
Lemma hamming_eq n N : wdom n N -> win_hamming Rc exact_ptrig n N = Ok (54 / 100 - 46 / 100 * cos (2 * PI * IZR n / IZR (N - 1))).
Proof.
  intros H. wd H. unfold win_hamming. rewrite ichk_ok by (unfold INT_MIN, INT_MAX; lia). cbn [bind]. rewrite pcos_ok by (unfold INT_MAX; lia). cbn [bind]. rewrite c54_rc, c46_rc. reflexivity.
Qed.
Lemma blackman_eq b n N : wdom n N -> let c := cos (2 * PI * IZR n / IZR (N - 1)) in
  win_blackman Rc exact_ptrig b n N = Ok (bl_a0 b - bl_a1 b * c + bl_a2 b * (2 * (c * c) - 1)).
Proof.
  intros H c. wd H. unfold win_blackman. rewrite !ichk_ok by (unfold INT_MIN, INT_MAX; lia). cbn [bind]. rewrite pcos_ok by (unfold INT_MAX; lia). cbn [bind].
  unfold irem. rewrite (proj2 (Z.eqb_neq (N - 1) 0)) by lia. cbn [bind]. pose proof (rem_abs (2 * n) (N - 1) ltac:(lia)). rewrite pcos_ok by (unfold INT_MAX; lia). cbn [bind].
  rewrite cos_rem by lia. replace (2 * PI * IZR (2 * n) / IZR (N - 1)) with (2 * (2 * PI * IZR n / IZR (N - 1))) by (rewrite mult_IZR; field; apply not_0_IZR; lia).
  rewrite cos_2a_cos. fold c. cbn. do 2 f_equal. ring.
Qed.
Lemma lanczos_eq n N : wdom n N -> win_lanczos Rc exact_ptrig n N = Ok (rsinc (2 * IZR n / IZR (N - 1) - 1)).
Proof.
  intros H. wd H. unfold win_lanczos. assert (Nz : IZR (N - 1) <> 0) by (apply not_0_IZR; lia). rewrite !ichk_ok by (unfold INT_MIN, INT_MAX; lia). cbn [bind].
  assert (E : 2 * IZR n / IZR (N - 1) - 1 = IZR (2 * n - (N - 1)) / IZR (N - 1)) by (rewrite (minus_IZR (2 * n)), mult_IZR; field; auto).
  destruct (Z.eqb_spec (2 * n) (N - 1)) as [Z|Z].
  - rewrite E. replace (2 * n - (N - 1))%Z with 0%Z by lia. unfold Rdiv. rewrite Rmult_0_l, rsinc_0. reflexivity.
  - rewrite !ichk_ok by (unfold INT_MIN, INT_MAX; lia). cbn [bind]. rewrite psin_ok by (unfold INT_MAX; lia). cbn [bind]. rewrite pi_rc, E.
    assert (Az : IZR (2 * n - (N - 1)) <> 0) by (apply not_0_IZR; lia).
    rewrite rsinc_nz by (apply Rmult_integral_contrapositive; split; auto; apply Rinv_neq_0_compat; auto). cbn [ndiv nmul nofZ Rc]. do 2 f_equal.
    + f_equal. rewrite (mult_IZR 2 (N - 1)). field. auto.
    + field. auto.
Qed.
Lemma gauss_eq o n N : wdom n N -> o <> 0 -> win_gauss Rc exp (fun x => x * x) o n N = Ok (exp (- (1 / 2) * ((2 * IZR n / IZR (N - 1) - 1) / o)²)).
Proof.
  intros H Ho. wd H. unfold win_gauss. assert (Nz : IZR (N - 1) <> 0) by (apply not_0_IZR; lia). rewrite !ichk_ok by (unfold INT_MIN, INT_MAX; lia). cbn [bind]. rewrite half_rc.
  cbn [nopp ndiv nmul nofZ nsub Rc]. do 2 f_equal. unfold Rsqr. f_equal. field. auto.
Qed.
Definition kq (n N : Z) : R := 2 * IZR n / IZR (N - 1) - 1.
Lemma kq_range n N : wdom n N -> -1 <= kq n N <= 1.
Proof.
  intros H. wd H. unfold kq. assert (P : 1 <= IZR (N - 1)) by (apply IZR_le; lia). assert (A : 0 <= IZR n <= IZR (N - 1)) by (split; apply IZR_le; lia).
  assert (B : 0 <= IZR n / IZR (N - 1) <= 1) by (split; [apply Rmult_le_pos; [lra|apply Rlt_le, Rinv_0_lt_compat; lra]|apply (Rmult_le_reg_r (IZR (N - 1))); [lra|]; unfold Rdiv; rewrite Rmult_assoc, Rinv_l by lra; lra]).
  unfold Rdiv in *. lra.
Qed.
Lemma kq_sym n m N : wdom n N -> (n + m = N - 1)%Z -> kq m N = - kq n N.
Proof. intros H E. wd H. unfold kq. replace m with (N - 1 - n)%Z by lia. rewrite minus_IZR. field. apply not_0_IZR; lia. Qed.
Lemma kq_mid n N : wdom n N -> (2 * n = N - 1)%Z -> kq n N = 0.
Proof. intros H E. wd H. unfold kq. rewrite <- E, mult_IZR. field. apply not_0_IZR; lia. Qed.
Lemma kaiser_eq a n N : wdom n N ->
  win_kaiser Rc a n N = Ok (sum_f_R0 (bessel_term (PI * a * sqrt (1 - kq n N * kq n N))) 34 / sum_f_R0 (bessel_term (PI * a)) 34).
Proof.
  intros H. wd H. unfold win_kaiser. rewrite !ichk_ok by (unfold INT_MIN, INT_MAX; lia). cbn [bind]. rewrite !i0_sum, pi_rc. cbn [nmul ndiv Rc nsqrt]. do 6 f_equal.
  unfold kaiser_arg, kq. cbn [nsub ndiv nmul nofZ n1 Rc]. rewrite mult_IZR. reflexivity.
Qed.
