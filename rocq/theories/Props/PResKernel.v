(* C102 The interpolation filter of the resamplers *)
From Coq Require Import Reals ZArith List Lra Lia Psatz.
From Coq Require Import FunctionalExtensionality.
From Coquelicot Require Import Coquelicot.
From Verif Require Import Model.Resampler Spec.ExactConst Spec.Resample Spec.Interp Spec.Fir Spec.Bessel Proofs.BaseLemmas Proofs.ConstProofs Proofs.WinProofs Props.PWinFun Props.PSpline Props.PSplineMin Props.PResampler.
Import ListNotations.
Open Scope R_scope.

Lemma bsum_strict x y : Rabs x < Rabs y -> sum_f_R0 (bessel_term x) 34 < sum_f_R0 (bessel_term y) 34.
Proof.
  intros H. assert (G : forall n, sum_f_R0 (bessel_term x) (S n) < sum_f_R0 (bessel_term y) (S n)); [|apply (G 33%nat)].
  induction n as [|n IH].
  - unfold bessel_term. cbn [sum_f_R0]. unfold bterm. cbn. pose proof (Rsqr_lt_abs_1 x y H) as Q. unfold Rsqr in Q. lra.
  - rewrite tech5, (tech5 (bessel_term y)). pose proof (bessel_mono x y (S (S n)) ltac:(lra)). lra.
Qed.
(** The Kaiser window falls strictly from its middle on both sides, for every shape parameter but 0. *)
Theorem C102_kaiser_strictly_falling : forall (a : R) (n m N : Z) (v w : R), a <> 0 -> (2 <= N)%Z -> (0 <= n < N)%Z -> (0 <= m < N)%Z -> (16 * N <= INT_MAX)%Z ->
  (Z.abs (2 * m - (N - 1)) < Z.abs (2 * n - (N - 1)))%Z -> win_kaiser Rc a n N = Ok v -> win_kaiser Rc a m N = Ok w -> v < w.
Proof.
  intros a n m N v w Ha H1 H2 H3 H4 H5 E1 E2. assert (D1 : wdom n N) by exact (conj H1 (conj H2 H4)). assert (D2 : wdom m N) by exact (conj H1 (conj H3 H4)).
  rewrite kaiser_eq in E1, E2 by auto. injection E1 as <-. injection E2 as <-. pose proof (bsum_ge1 (PI * a) 34) as G. unfold Rdiv. apply Rmult_lt_compat_r; [apply Rinv_0_lt_compat; eapply Rlt_le_trans; [exact Rlt_0_1|exact G]|].
  apply bsum_strict. rewrite !(Rabs_mult (PI * a)). apply Rmult_lt_compat_l; [apply Rabs_pos_lt; pose proof PI_RGT_0; nra|].
  rewrite !Rabs_pos_eq by apply sqrt_pos. pose proof (kq_range n N D1) as K1. pose proof (kq_range m N D2) as K2.
  assert (P : 0 < IZR (N - 1)) by (apply IZR_lt; lia).
  assert (Q : kq m N * kq m N < kq n N * kq n N).
  { assert (Qn : forall k, kq k N = IZR (2 * k - (N - 1)) / IZR (N - 1)) by (intros k; unfold kq; rewrite (minus_IZR (2 * k)), mult_IZR; field; lra).
    change (Rsqr (kq m N) < Rsqr (kq n N)). apply Rsqr_lt_abs_1. rewrite !Qn. unfold Rdiv. rewrite !Rabs_mult. apply Rmult_lt_compat_r; [apply Rabs_pos_lt; apply Rinv_neq_0_compat; lra|]. rewrite <- !abs_IZR. apply IZR_lt. exact H5. }
  apply sqrt_lt_1; nra.
Qed.
Print Assumptions C102_kaiser_strictly_falling.

(** The taps of [Resampler] lie at the times n / OVER, their sinc is centred at (TAPS-1)/2.  Two taps at the same distance on
    both sides of that centre have the same sinc, but with OVER > 1 the later one has the larger window: the window is centred
    at (TAPS - 1/OVER)/2.  Only with OVER = 1 the filter is symmetric. *)
Theorem C102_window_off_centre : forall (TAPS OVER : nat) (rate cutoff alpha : R) (w : nat -> R) (F : R -> R) (n m : nat), dims TAPS OVER -> 0 < rate -> alpha <> 0 ->
  kernel TAPS OVER rate cutoff alpha w F -> (n < m < TAPS * OVER)%nat -> (n + m = OVER * (TAPS - 1))%nat ->
  exists y, F (INR n / INR OVER) = y * w n /\ F (INR m / INR OVER) = y * w m /\ (OVER = 1%nat -> w n = w m) /\ ((1 < OVER)%nat -> 0 < w n < w m).
Proof.
  intros TAPS OVER rate cutoff alpha w F n m (HT & HO & HN & HI) Hr Ha (Hw & HI' & _) Hnm Hs.
  set (f := 2 * cutoff / rate). exists (f * rsinc (f * (INR n / INR OVER - (INR TAPS - 1) / 2))).
  assert (O0 : 0 < INR OVER) by (apply lt_0_INR; lia).
  split; [apply (HI' n); lia|]. split.
  { rewrite (HI' m) by lia. cbv zeta. fold f.     assert (E : INR n + INR m = INR OVER * (INR TAPS - 1)) by (rewrite <- plus_INR, Hs, mult_INR, minus_INR by lia; reflexivity).
    replace (f * (INR m / INR OVER - (INR TAPS - 1) / 2)) with (- (f * (INR n / INR OVER - (INR TAPS - 1) / 2))); [rewrite rsinc_opp; reflexivity|].
    replace (INR m) with (INR OVER * (INR TAPS - 1) - INR n) by lra. field. lra. }
  pose proof (Hw n ltac:(lia)) as W1. pose proof (Hw m ltac:(lia)) as W2.
  split.
  - intros ->. destruct (C56_kaiser alpha) as (G & _). destruct (G (Z.of_nat n) (Z.of_nat TAPS * Z.of_nat 1)%Z) as (v & E & S & _); try lia.
    replace (Z.of_nat TAPS * Z.of_nat 1 - 1 - Z.of_nat n)%Z with (Z.of_nat m) in S by lia. congruence.
  - intros H1. split; [|eapply (C102_kaiser_strictly_falling alpha (Z.of_nat n) (Z.of_nat m)); eauto; try lia; nia].
    destruct (C56_kaiser alpha) as (_ & G). apply (G (Z.of_nat n) (Z.of_nat TAPS * Z.of_nat OVER)%Z); auto; lia.
Qed.
Print Assumptions C102_window_off_centre.

(** The claim that the filter is linear phase (symmetric about its centre) is false whenever OVER > 1. *)
Theorem C102_linear_phase_refuted : forall (TAPS OVER : nat) (rate cutoff alpha : R) (w : nat -> R) (F : R -> R), dims TAPS OVER -> (2 <= TAPS)%nat -> (2 <= OVER)%nat ->
  0 < cutoff <= rate / 2 -> alpha <> 0 -> kernel TAPS OVER rate cutoff alpha w F ->
  exists d, 0 < d <= / 2 /\ F ((INR TAPS - 1) / 2 - d) < F ((INR TAPS - 1) / 2 + d).
Proof.
  intros TAPS OVER rate cutoff alpha w F D HT HO Hc Ha K. set (S := (OVER * (TAPS - 1))%nat). assert (S2 : (2 <= S)%nat) by (unfold S; nia).
  assert (Ex : exists n m, (n < m <= n + 2)%nat /\ (n + m = S)%nat).
  { destruct (Nat.Even_or_Odd S) as [(k & Ek)|(k & Ek)]; [exists (k - 1)%nat, (k + 1)%nat|exists k, (k + 1)%nat]; lia. }
  destruct Ex as (n & m & H1 & H2). assert (Hm : (m < TAPS * OVER)%nat) by (unfold S in *; nia).
  destruct (C102_window_off_centre TAPS OVER rate cutoff alpha w F n m D ltac:(lra) Ha K ltac:(lia) H2) as (y & E1 & E2 & _ & L). specialize (L ltac:(lia)).
  assert (O2 : 2 <= INR OVER) by (change 2 with (INR 2); apply le_INR; lia).
  assert (Es : INR n + INR m = INR OVER * (INR TAPS - 1)) by (rewrite <- plus_INR, H2; unfold S; rewrite mult_INR, minus_INR by lia; reflexivity).
  assert (Hd : 0 < INR m - INR n <= 2) by (split; [apply Rlt_Rminus, lt_INR; lia|]; assert (INR m <= INR (n + 2)) by (apply le_INR; lia); rewrite plus_INR in *; change (INR 2) with 2 in *; lra).
  set (d := (INR m - INR n) / 2 / INR OVER). assert (Dn : INR n / INR OVER = (INR TAPS - 1) / 2 - d) by (unfold d; replace (INR n) with (INR OVER * (INR TAPS - 1) - INR m) at 1 by lra; field_simplify; [|lra|lra]; replace (INR n) with (INR OVER * (INR TAPS - 1) - INR m) by lra; field; lra).
  assert (Dm : INR m / INR OVER = (INR TAPS - 1) / 2 + d) by (assert (INR m / INR OVER - INR n / INR OVER = 2 * d) by (unfold d; field; lra); lra).
  assert (Pd : 0 < d <= / 2).
  { unfold d. split; [apply Rdiv_lt_0_compat; lra|]. apply (Rmult_le_reg_r (INR OVER)); [lra|]. unfold Rdiv. rewrite Rmult_assoc, Rinv_l by lra. lra. }
  exists d. split; [exact Pd|]. rewrite <- Dn, <- Dm, E1, E2. apply Rmult_lt_compat_l; [|lra].
  destruct K as (_ & I & _). pose proof (I n ltac:(lia)) as In. cbv beta zeta in In. rewrite E1 in In. apply Rmult_eq_reg_r in In; [|lra]. rewrite In, Dn.
  set (f := 2 * cutoff / rate). assert (Pf : 0 < f <= 1) by (unfold f; split; [apply Rdiv_lt_0_compat; lra|]; apply (Rmult_le_reg_r rate); [lra|]; unfold Rdiv; rewrite Rmult_assoc, Rinv_l by lra; lra).
  apply Rmult_lt_0_compat; [lra|]. replace (f * ((INR TAPS - 1) / 2 - d - (INR TAPS - 1) / 2)) with (- (f * d)) by ring. rewrite rsinc_opp. assert (Q : 0 < f * d <= / 2) by nra. rewrite rsinc_nz by lra. pose proof PI_RGT_0. apply Rdiv_lt_0_compat; [apply sin_gt_0|]; nra.
Qed.
Print Assumptions C102_linear_phase_refuted.

(** With OVER = 1 the whole interpolated filter is symmetric about (TAPS-1)/2, between the taps too. *)
Lemma mirrored n (y : nat -> R) F : (2 <= n)%nat -> natural_spline n INR y F -> natural_spline n INR (fun k => y (n - 1 - k)%nat) (fun x => F (INR (n - 1) - x)).
Proof.
  intros Hn (I & P & F1 & F2 & D1 & D2 & Cn & M0 & M1). set (L := INR (n - 1)). split; [|split].
  - intros k Hk. rewrite <- (I (n - 1 - k)%nat) by lia. unfold L. rewrite <- minus_INR by lia. reflexivity.
  - intros j Hj. destruct (P (n - 2 - j)%nat) as (a & b & c & d & E); [lia|].
    exists (a + b * L + c * L ^ 2 + d * L ^ 3), (- b - 2 * c * L - 3 * d * L ^ 2), (c + 3 * d * L), (- d). intros x (_ & H1 & H2). rewrite E; [ring|].
    assert (Lj : L - INR (S j) = INR (n - 2 - j)) by (unfold L; rewrite <- minus_INR by lia; f_equal; lia).
    assert (Lj' : L - INR j = INR (S (n - 2 - j))) by (unfold L; rewrite <- minus_INR by lia; f_equal; lia).
    split; [lia|]. split.
    + destruct H2 as [H2|H2]; [left; lia|right; lra].
    + destruct H1 as [H1|H1]; [left; lia|right; lra].
  - assert (Dm : forall f g x, is_derive f (L - x) (g (L - x)) -> is_derive (fun x => f (L - x)) x (- g (L - x))).
    { intros f g x D. replace (- g (L - x)) with ((-1) * g (L - x)) by ring. apply (is_derive_comp f (fun x => L - x)); [exact D|]. auto_derive; [trivial|ring]. }
    exists (fun x => - F1 (L - x)), (fun x => F2 (L - x)). split; [intros x; apply (Dm F F1); apply D1|]. split.
    + intros x. replace (F2 (L - x)) with (- - F2 (L - x)) by ring. apply (is_derive_opp (fun x => F1 (L - x))). apply (Dm F1 F2). apply D2.
    + split; [intros x; apply (continuous_comp (fun x => L - x) F2); [|apply Cn]; apply (continuous_minus (fun _ => L) (fun x => x)); [apply continuous_const|apply continuous_id]|].
      split.
      * cbn [INR]. unfold L. rewrite Rminus_0_r. exact M1.
      * unfold L. replace (INR (n - 1) - INR (n - 1)) with (INR 0) by (cbn; lra). exact M0.
Qed.
Theorem C102_symmetric : forall (TAPS : nat) (rate cutoff alpha : R) (w : nat -> R) (F : R -> R), dims TAPS 1 -> 0 < rate -> kernel TAPS 1 rate cutoff alpha w F ->
  forall x, 0 <= x <= INR TAPS - 1 -> F (INR TAPS - 1 - x) = F x.
Proof.
  intros TAPS rate cutoff alpha w F (HT & HO & HN & HI) Hr (Hw & K) x Hx. rewrite Nat.mul_1_r in *. set (N := TAPS) in *.
  set (y := fun n => let f := 2 * cutoff / rate in f * rsinc (f * (INR n / INR 1 - (INR TAPS - 1) / 2)) * w n) in K.
  assert (Eu : (fun n => INR n / INR 1) = INR) by (apply functional_extensionality; intros n; cbn; field). rewrite Eu in K.
  assert (L1 : INR (N - 1) = INR N - 1) by (rewrite minus_INR by lia; reflexivity).
  pose proof (mirrored N y F HN K) as K2.
  assert (Ws : forall n, (n < N)%nat -> w (N - 1 - n)%nat = w n).
  { intros n Hn. destruct (C56_kaiser alpha) as (G & _). destruct (G (Z.of_nat n) (Z.of_nat N * Z.of_nat 1)%Z) as (v & E & S & _); try lia.
    replace (Z.of_nat N * Z.of_nat 1 - 1 - Z.of_nat n)%Z with (Z.of_nat (N - 1 - n)) in S by lia. pose proof (Hw n Hn). pose proof (Hw (N - 1 - n)%nat ltac:(lia)). congruence. }
  assert (Ys : forall n, (n < N)%nat -> y (N - 1 - n)%nat = y n).
  { intros n Hn. unfold y. cbv zeta. rewrite Ws by auto. set (f := 2 * cutoff / rate). fold N.
    replace (f * (INR (N - 1 - n) / INR 1 - (INR N - 1) / 2)) with (- (f * (INR n / INR 1 - (INR N - 1) / 2))); [rewrite rsinc_opp; reflexivity|]. rewrite minus_INR, L1 by lia. cbn [INR]. field. }
  set (Y := map y (seq 0 N)).
  assert (Yn : forall k, (k < N)%nat -> nth (k * 1) Y 0 = y k) by (intros k Hk; unfold Y; rewrite Nat.mul_1_r, (nth_indep _ 0 (y 0%nat)) by (rewrite map_length, seq_length; lia); rewrite map_nth, seq_nth by lia; reflexivity).
  assert (Eu2 : (fun k => 0 + 1 * INR k) = INR) by (apply functional_extensionality; intros n; ring).
  assert (U : forall G y', (forall k, (k < N)%nat -> y' k = y k) -> natural_spline N INR y' G -> natural_spline N (fun k => 0 + 1 * INR k) (value Y 1) G).
  { intros G y' Hy (I & R1). rewrite Eu2. split; [|exact R1]. intros k Hk. rewrite (I k Hk), Hy by auto. symmetry. unfold value. apply Yn. exact Hk. }
  assert (LY : length Y = N) by (unfold Y; rewrite map_length, seq_length; reflexivity).
  destruct (C80_unique N 1 Y 0 1 F ltac:(lia) ltac:(lra) ltac:(lia) ltac:(unfold INT_MAX in *; lia) ltac:(unfold INT_MAX in *; lia) (U F y (fun k _ => eq_refl) K)) as (s1 & E1 & A1).
  destruct (C80_unique N 1 Y 0 1 (fun x => F (INR (N - 1) - x)) ltac:(lia) ltac:(lra) ltac:(lia) ltac:(unfold INT_MAX in *; lia) ltac:(unfold INT_MAX in *; lia) (U _ _ Ys K2)) as (s2 & E2 & A2).
  assert (s1 = s2) by congruence. subst s2. assert (Rx : 0 <= x <= 0 + 1 * INR (N - 1)) by lra. pose proof (A1 x Rx) as B1. pose proof (A2 x Rx) as B2. rewrite B1 in B2. injection B2 as B2. rewrite L1 in B2. symmetry. exact B2.
Qed.
Print Assumptions C102_symmetric.

Example C102_case : exists w F d, kernel 3 2 8000 4000 2 w F /\ 0 < d <= / 2 /\ F (1 - d) < F (1 + d).
Proof.
  assert (D : dims 3 2) by (unfold dims, INT_MAX; lia). destruct (make_kernel 3 2 8000 4000 2 D) as (lpf & w & F & _ & K & _).
  destruct (C102_linear_phase_refuted 3 2 8000 4000 2 w F D) as (d & Hd & L); [lia|lia|lra|lra|exact K|]. exists w, F, d. split; [exact K|]. split; [exact Hd|]. cbn [INR] in L. replace ((1 + 1 + 1 - 1) / 2) with 1 in L by lra. exact L.
Qed.
Example C102_symmetric_case : exists w F, kernel 3 1 8000 4000 2 w F /\ F (2 - / 3) = F (/ 3).
Proof.
  assert (D : dims 3 1) by (unfold dims, INT_MAX; lia). destruct (make_kernel 3 1 8000 4000 2 D) as (lpf & w & F & _ & K & _). exists w, F. split; [exact K|].
  pose proof (C102_symmetric 3 8000 4000 2 w F D ltac:(lra) K (/ 3)) as H. cbn [INR] in H. replace (1 + 1 + 1 - 1 - / 3) with (2 - / 3) in H by lra. apply H. lra.
Qed.
