(* Theorems about the window functions (window.hh) and scalar helpers (utils.hh) *)
From Coq Require Import Reals ZArith Lia Lra List.
From Coquelicot Require Import Coquelicot.
From Flocq Require Import Core.
From Verif Require Import Proofs.BaseLemmas Model.WinFun Model.Utils Spec.ExactConst Spec.Bessel Proofs.ConstProofs Proofs.WinProofs Proofs.UnitCircleProofs.
Open Scope R_scope.

(** C56  A window with exact constants and trigonometry: defined for all n, N with 0 <= n < N, N >= 2 (and 16 N an int),
    symmetric, with values in [0,1], and 1 in the middle when there is one. *)
Definition good_window (w : Z -> Z -> outcome R) (lo : R) : Prop :=
  forall n N, (2 <= N)%Z -> (0 <= n < N)%Z -> (16 * N <= INT_MAX)%Z ->
  exists v, w n N = Ok v /\ w (N - 1 - n)%Z N = Ok v /\ lo <= v <= 1 /\ ((2 * n = N - 1)%Z -> v = 1).

Theorem C56_rect : good_window (win_rect Rc) 1.
Proof.
  intros n N H1 H2 H3. exists 1. unfold win_rect. split; [|split; [|split; [lra|auto]]].
  - rewrite (proj2 (Z.leb_le 0 n)), (proj2 (Z.ltb_lt n N)) by lia. reflexivity.
  - rewrite (proj2 (Z.leb_le 0 (N - 1 - n))), (proj2 (Z.ltb_lt (N - 1 - n) N)) by lia. reflexivity.
Qed.
Print Assumptions C56_rect.
Lemma mid_cos n N : (2 <= N)%Z -> (2 * n = N - 1)%Z -> cos (2 * PI * IZR n / IZR (N - 1)) = -1.
Proof. intros H E. rewrite <- E, mult_IZR. replace (2 * PI * IZR n / (2 * IZR n)) with PI by (field; apply not_0_IZR; lia). apply cos_PI. Qed.
Theorem C56_hann : good_window (win_hann Rc exact_ptrig) 0.
Proof.
  intros n N H1 H2 H3. eexists. split; [apply hann_eq; repeat split; auto; lia|]. split; [|split].
  - rewrite (hann_eq (N - 1 - n)) by (repeat split; auto; lia). rewrite (cos_sym (N - 1 - n) n (N - 1)) by lia. reflexivity.
  - pose proof (COS_bound (2 * PI * IZR n / IZR (N - 1))). lra.
  - intros E. rewrite mid_cos by auto. lra.
Qed.
Print Assumptions C56_hann.
Theorem C56_hann_ends (N : Z) : (2 <= N)%Z -> (16 * N <= INT_MAX)%Z -> win_hann Rc exact_ptrig 0 N = Ok 0 /\ win_hann Rc exact_ptrig (N - 1) N = Ok 0.
Proof.
  intros H1 H2. assert (Nz : IZR (N - 1) <> 0) by (apply not_0_IZR; lia). rewrite !hann_eq by (repeat split; auto; lia). split; do 2 f_equal.
  - replace (2 * PI * 0 / IZR (N - 1)) with 0 by (field; auto). rewrite cos_0. lra.
  - replace (2 * PI * IZR (N - 1) / IZR (N - 1)) with (2 * PI) by (field; auto). rewrite cos_2PI. lra.
Qed.
Print Assumptions C56_hann_ends.
Theorem C56_hamming : good_window (win_hamming Rc exact_ptrig) (8/100).
Proof.
  intros n N H1 H2 H3. eexists. split; [apply hamming_eq; repeat split; auto; lia|]. split; [|split].
  - rewrite (hamming_eq (N - 1 - n)) by (repeat split; auto; lia). rewrite (cos_sym (N - 1 - n) n (N - 1)) by lia. reflexivity.
  - pose proof (COS_bound (2 * PI * IZR n / IZR (N - 1))). lra.
  - intros E. rewrite mid_cos by auto. lra.
Qed.
Print Assumptions C56_hamming.
Theorem C56_lanczos : good_window (win_lanczos Rc exact_ptrig) 0.
Proof.
  intros n N H1 H2 H3. assert (D : wdom n N) by (repeat split; auto; lia). eexists. split; [apply lanczos_eq; auto|]. fold (kq n N). split; [|split].
  - rewrite lanczos_eq by (repeat split; auto; lia). fold (kq (N - 1 - n) N). rewrite (kq_sym n (N - 1 - n) N D ltac:(lia)), rsinc_opp. reflexivity.
  - pose proof (kq_range n N D) as K. pose proof (rsinc_bound (kq n N)) as B. apply Rabs_le_inv in B. pose proof (rsinc_pos _ K). lra.
  - intros E. rewrite (kq_mid n N D E). apply rsinc_0.
Qed.
Print Assumptions C56_lanczos.
(** Blackman(): "exact Blackman"; Blackman(a) for 0 <= a <= 1/4 *)
Theorem C56_blackman_exact : good_window (win_blackman Rc exact_ptrig (blackman_exact Rc)) (128 / 18608).
Proof.
  intros n N H1 H2 H3. eexists. split; [apply blackman_eq; repeat split; auto; lia|]. split; [|split].
  - rewrite (blackman_eq _ (N - 1 - n)) by (repeat split; auto; lia). rewrite (cos_sym (N - 1 - n) n (N - 1)) by lia. reflexivity.
  - pose proof (COS_bound (2 * PI * IZR n / IZR (N - 1))). set (c := cos _) in *. cbn [blackman_exact bl_a0 bl_a1 bl_a2 ndiv nofZ Rc]. nra.
  - intros E. rewrite mid_cos by auto. cbn [blackman_exact bl_a0 bl_a1 bl_a2 ndiv nofZ Rc]. lra.
Qed.
Print Assumptions C56_blackman_exact.
Theorem C56_blackman (a : R) : 0 <= a <= 1/4 -> good_window (win_blackman Rc exact_ptrig (blackman_of Rc a)) 0.
Proof.
  intros A n N H1 H2 H3. eexists. split; [apply blackman_eq; repeat split; auto; lia|]. split; [|split].
  - rewrite (blackman_eq _ (N - 1 - n)) by (repeat split; auto; lia). rewrite (cos_sym (N - 1 - n) n (N - 1)) by lia. reflexivity.
  - pose proof (COS_bound (2 * PI * IZR n / IZR (N - 1))). set (c := cos _) in *. unfold blackman_of. cbn [bl_a0 bl_a1 bl_a2]. rewrite half_rc. cbn [ndiv nsub nofZ n1 Rc].
    replace ((1 - a) / 2 - 1 / 2 * c + a / 2 * (2 * (c * c) - 1)) with ((1 - c) * (1 / 2 - a * (1 + c))) by field. 
    assert (0 <= a * (1 + c) <= 1/4 * 2) by (split; [apply Rmult_le_pos; lra|apply Rmult_le_compat; lra]). split; [apply Rmult_le_pos; lra|].
    apply Rle_trans with (2 * (1/2)); [|lra]. apply Rmult_le_compat; lra.
  - intros E. rewrite mid_cos by auto. unfold blackman_of. cbn [bl_a0 bl_a1 bl_a2]. rewrite half_rc. cbn [ndiv nsub nofZ n1 Rc]. field.
Qed.
Print Assumptions C56_blackman.
(** For larger a the window has negative values. *)
Example C56_blackman_negative : win_blackman Rc exact_ptrig (blackman_of Rc (1/2)) 1 7 = Ok (-1/8).
Proof.
  rewrite blackman_eq by (repeat split; unfold INT_MAX; lia). replace (2 * PI * 1 / IZR (7 - 1)) with (PI / 3) by (change (7 - 1)%Z with 6%Z; field). rewrite cos_PI3.
  unfold blackman_of. cbn [bl_a0 bl_a1 bl_a2]. rewrite half_rc. cbn [ndiv nsub nofZ n1 Rc]. f_equal. field.
Qed.
Theorem C56_gauss (o : R) : 0 < o -> good_window (win_gauss Rc exp (fun x => x * x) o) 0.
Proof.
  intros O n N H1 H2 H3. assert (D : wdom n N) by (repeat split; auto; lia). eexists. split; [apply gauss_eq; auto; lra|]. fold (kq n N). split; [|split].
  - rewrite gauss_eq by (repeat split; auto; try lia; lra). fold (kq (N - 1 - n) N). rewrite (kq_sym n (N - 1 - n) N D ltac:(lia)). do 3 f_equal. unfold Rsqr. field. lra.
  - split; [apply Rlt_le, exp_pos|]. rewrite <- exp_0 at 2. apply Raux_exp_le || idtac. pose proof (Rle_0_sqr (kq n N / o)). destruct (Req_dec (- (1 / 2) * (kq n N / o)²) 0) as [->|Z]; [lra|]. apply Rlt_le, exp_increasing. lra.
  - intros E. rewrite (kq_mid n N D E). replace (0 / o) with 0 by (field; lra). rewrite Rsqr_0, Rmult_0_r. apply exp_0.
Qed.
Print Assumptions C56_gauss.
(** C56  The rectangular window is zero outside of 0 .. N-1 (the other windows do not look), in any arithmetic. *)
Theorem C56_rect_outside {T : Type} (M : num T) (n N : Z) : (n < 0 \/ N <= n)%Z -> win_rect M n N = Ok (n0 M).
Proof. intros H. unfold win_rect. destruct (Z.leb_spec 0%Z n), (Z.ltb_spec n N); cbn [andb]; try reflexivity. lia. Qed.
Print Assumptions C56_rect_outside.
(** C56  Kaiser computes 2 n and N - 1 as int before anything else. *)
Theorem C56_kaiser_overflow {T : Type} (M : num T) (a : T) (n N : Z) :
  (exists v, win_kaiser M a n N = Ok v) <-> (INT_MIN <= 2 * n <= INT_MAX /\ INT_MIN < N <= INT_MAX + 1)%Z.
Proof.
  unfold win_kaiser. split.
  - intros [v E]. unfold ichk in E. destruct (int_ok (2 * n)%Z) eqn:A; [|discriminate]. cbn [bind] in E. destruct (int_ok (N - 1)%Z) eqn:B; [|discriminate].
    unfold int_ok in A, B. apply andb_prop in A, B. rewrite !Z.leb_le in A, B. lia.
  - intros [A B]. rewrite (ichk_ok (2 * n)%Z) by lia. cbn [bind]. rewrite (ichk_ok (N - 1)%Z) by lia. eexists. reflexivity.
Qed.
Print Assumptions C56_kaiser_overflow.
(** Kaiser(a) for every a; the values are positive *)
Theorem C56_kaiser (a : R) : good_window (win_kaiser Rc a) 0 /\
  forall n N v, (2 <= N)%Z -> (0 <= n < N)%Z -> (16 * N <= INT_MAX)%Z -> win_kaiser Rc a n N = Ok v -> 0 < v.
Proof.
  assert (P : forall n N, wdom n N -> let q := kq n N in
    0 < sum_f_R0 (bessel_term (PI * a * sqrt (1 - q * q))) 34 / sum_f_R0 (bessel_term (PI * a)) 34 <= 1).
  { intros n N D q. pose proof (kq_range n N D) as K. fold q in K. pose proof (bsum_ge1 (PI * a) 34). pose proof (bsum_ge1 (PI * a * sqrt (1 - q * q)) 34).
    assert (S : 0 <= sqrt (1 - q * q) <= 1) by (split; [apply sqrt_pos|rewrite <- sqrt_1 at 2; apply sqrt_le_1_alt; nra]).
    assert (M : sum_f_R0 (bessel_term (PI * a * sqrt (1 - q * q))) 34 <= sum_f_R0 (bessel_term (PI * a)) 34).
    { apply bsum_mono. rewrite Rabs_mult, (Rabs_pos_eq (sqrt _)) by lra. pose proof (Rabs_pos (PI * a)). nra. }
    split; [apply Rdiv_lt_0_compat; lra|]. apply (Rmult_le_reg_r (sum_f_R0 (bessel_term (PI * a)) 34)); [lra|]. unfold Rdiv. rewrite Rmult_assoc, Rinv_l by lra. lra. }
  split.
  - intros n N H1 H2 H3. assert (D : wdom n N) by (repeat split; auto; lia). eexists. split; [apply kaiser_eq; auto|]. split; [|split].
    + rewrite kaiser_eq by (repeat split; auto; lia). rewrite (kq_sym n (N - 1 - n) N D ltac:(lia)). do 6 f_equal. ring.
    + destruct (P n N D). split; [apply Rlt_le|]; auto.
    + intros E. rewrite (kq_mid n N D E). rewrite Rmult_0_l, Rminus_0_r, sqrt_1, Rmult_1_r. field. pose proof (bsum_ge1 (PI * a) 34). lra.
  - intros n N v H1 H2 H3 E. assert (D : wdom n N) by (repeat split; auto; lia). rewrite kaiser_eq in E by auto. injection E as <-. apply P; auto.
Qed.
Print Assumptions C56_kaiser.
(** C56  For |a| <= 3, as the comment in window.hh says, the 35 terms of the series suffice: the values are the quotient
    of Bessel functions up to 1e-32. *)
Theorem C56_kaiser_bessel (a : R) (n N : Z) : Rabs a <= 3 -> (2 <= N)%Z -> (0 <= n < N)%Z -> (16 * N <= INT_MAX)%Z ->
  exists v b1 b2, win_kaiser Rc a n N = Ok v /\ is_I0 (PI * a * sqrt (1 - (2 * IZR n / IZR (N - 1) - 1)^2)) b1 /\ is_I0 (PI * a) b2 /\ Rabs (v - b1 / b2) <= 1e-32.
Proof.
  intros A H1 H2 H3. assert (D : wdom n N) by (repeat split; auto; lia). pose proof (kq_range n N D) as K. pose proof PI_RGT_0 as PP.
  assert (A2 : Rabs (PI * a) <= 3 * PI) by (rewrite Rabs_mult, (Rabs_pos_eq PI) by lra; nra).
  assert (S : 0 <= sqrt (1 - kq n N * kq n N) <= 1) by (split; [apply sqrt_pos|rewrite <- sqrt_1 at 2; apply sqrt_le_1_alt; nra]).
  assert (A1 : Rabs (PI * a * sqrt (1 - kq n N * kq n N)) <= 3 * PI) by (rewrite Rabs_mult, (Rabs_pos_eq (sqrt _)) by lra; pose proof (Rabs_pos (PI * a)); nra).
  destruct (bessel_tail _ A1) as (b1 & I1 & E1). destruct (bessel_tail _ A2) as (b2 & I2 & E2).
  eexists. exists b1, b2. split; [apply kaiser_eq; auto|]. split.
  { replace ((2 * IZR n / IZR (N - 1) - 1) ^ 2) with (kq n N * kq n N); auto. unfold kq. ring. }
  split; [auto|]. pose proof (bsum_ge1 (PI * a) 34) as G2. pose proof (bsum_ge1 (PI * a * sqrt (1 - kq n N * kq n N)) 34) as G1.
  assert (M : sum_f_R0 (bessel_term (PI * a * sqrt (1 - kq n N * kq n N))) 34 <= sum_f_R0 (bessel_term (PI * a)) 34).
  { apply bsum_mono. rewrite Rabs_mult, (Rabs_pos_eq (sqrt _)) by lra. pose proof (Rabs_pos (PI * a)). nra. }
  set (s1 := sum_f_R0 (bessel_term (PI * a * _)) 34) in *. set (s2 := sum_f_R0 (bessel_term (PI * a)) 34) in *.
  replace (s1 / s2 - b1 / b2) with ((s1 * (b2 - s2) - s2 * (b1 - s1)) / (s2 * b2)) by (field; lra).
  assert (Q : 0 < s2 * b2) by nra. apply (Rabs_le). split.
  - apply (Rmult_le_reg_r (s2 * b2)); auto. unfold Rdiv. rewrite (Rmult_assoc _ (/ _)), Rinv_l by lra. rewrite Rmult_1_r.
    apply Rle_trans with (- (s2 * (b1 - s1))); [|assert (0 <= s1 * (b2 - s2)) by (apply Rmult_le_pos; lra); lra].
    assert (s2 * (b1 - s1) <= s2 * 1e-32) by (apply Rmult_le_compat_l; lra). assert (s2 * 1 <= s2 * b2) by (apply Rmult_le_compat_l; lra). lra.
  - apply (Rmult_le_reg_r (s2 * b2)); auto. unfold Rdiv. rewrite (Rmult_assoc _ (/ _)), Rinv_l by lra. rewrite Rmult_1_r.
    apply Rle_trans with (s1 * (b2 - s2)); [assert (0 <= s2 * (b1 - s1)) by (apply Rmult_le_pos; lra); lra|].
    assert (s1 * (b2 - s2) <= s2 * 1e-32) by (apply Rmult_le_compat; lra). assert (s2 * 1 <= s2 * b2) by (apply Rmult_le_compat_l; lra). lra.
Qed.
Print Assumptions C56_kaiser_bessel.
(** C56  The square root in Kaiser is never taken of a negative number, also in rounded arithmetic. *)
Theorem C56_kaiser_domain (rnd : R -> R) (n N : Z) : (forall x y, x <= y -> rnd x <= rnd y) -> (forall z, (-2 <= z <= 2)%Z -> rnd (IZR z) = IZR z) ->
  (2 <= N)%Z -> (0 <= n < N)%Z -> 0 < rnd (IZR (N - 1)) -> rnd (IZR (2 * n)) <= 2 * rnd (IZR (N - 1)) -> 0 <= kaiser_arg (Fn rnd) n N.
Proof.
  intros Mo F H1 H2 D T. unfold kaiser_arg. cbn [nsub nmul ndiv nofZ n1 Fn]. set (d := rnd (IZR (N - 1))) in *. set (m := rnd (IZR (2 * n))) in *.
  assert (M0 : 0 <= m) by (unfold m; rewrite <- (F 0%Z) by lia; apply Mo, IZR_le; lia).
  assert (Q : 0 <= rnd (m / d) <= 2).
  { split; [rewrite <- (F 0%Z) by lia|rewrite <- (F 2%Z) by lia]; apply Mo.
    - apply Rmult_le_pos; auto. apply Rlt_le, Rinv_0_lt_compat; auto.
    - apply (Rmult_le_reg_r d); auto. unfold Rdiv. rewrite Rmult_assoc, Rinv_l by lra. lra. }
  set (r := rnd (m / d)) in *. assert (Q1 : -1 <= rnd (r - 1) <= 1).
  { pose proof (Mo (-1) (r - 1) ltac:(lra)) as X1. pose proof (Mo (r - 1) 1 ltac:(lra)) as X2. rewrite (F (-1)%Z) in X1 by lia. rewrite (F 1%Z) in X2 by lia. lra. }
  set (q := rnd (r - 1)) in *. pose proof (Mo (q * q) 1 ltac:(nra)) as Q2. rewrite (F 1%Z) in Q2 by lia.
  pose proof (Mo 0 (1 - rnd (q * q)) ltac:(lra)) as Q3. rewrite (F 0%Z) in Q3 by lia. exact Q3.
Qed.
Print Assumptions C56_kaiser_domain.
Example C56_applies : (2 <= 64)%Z /\ (0 <= 63 < 64)%Z /\ (16 * 64 <= INT_MAX)%Z. Proof. unfold INT_MAX. lia. Qed.

(** C56  With the library's own UnitCircle the two cosine windows are within 3e-17 of the exact ones. *)
Theorem C56_unit_circle (n N : Z) : (2 <= N)%Z -> (0 <= n < N)%Z -> (16 * N <= INT_MAX)%Z ->
  exists h1 h2 m1 m2, win_hann Rn (uc_ptrig Rn) n N = Ok h1 /\ win_hann Rc exact_ptrig n N = Ok h2 /\ Rabs (h1 - h2) <= 3e-17 /\
  win_hamming Rn (uc_ptrig Rn) n N = Ok m1 /\ win_hamming Rc exact_ptrig n N = Ok m2 /\ Rabs (m1 - m2) <= 3e-17.
Proof.
  intros H1 H2 H3. destruct (uc_acc n (N - 1)) as (c & s & Ec & _ & A & _); try (unfold INT_MAX in *; lia).
  do 4 eexists. rewrite hann_eq, hamming_eq by (repeat split; auto; lia). unfold win_hann, win_hamming. rewrite ichk_ok by (unfold INT_MIN, INT_MAX in *; lia). cbn [bind].
  change (pcos (uc_ptrig Rn) n (N - 1)) with (uc_cos Rn n (N - 1)). rewrite Ec. cbn [bind].
  split; [reflexivity|]. split; [reflexivity|]. split.
  - cbn [nmul nsub nlit n1 Rn]. set (x := cos _) in *. replace (0.5 * (1 - c) - 1 / 2 * (1 - x)) with (- (1 / 2) * (c - x)) by lra. rewrite Rabs_mult, Rabs_Ropp, (Rabs_pos_eq (1/2)) by lra. lra.
  - split; [reflexivity|]. split; [reflexivity|]. cbn [nmul nsub nlit n1 Rn]. set (x := cos _) in *. replace (0.54 - 0.46 * c - (54 / 100 - 46 / 100 * x)) with (- (46 / 100) * (c - x)) by lra. rewrite Rabs_mult, Rabs_Ropp, (Rabs_pos_eq (46/100)) by lra. lra.
Qed.
Print Assumptions C56_unit_circle.

(** C71  clamp(x, a, b) is the point of [a, b] nearest to x. *)
Theorem C71_clamp (x a b : R) : a <= b -> let c := clamp Rn x a b in a <= c <= b /\ forall y, a <= y <= b -> Rabs (x - c) <= Rabs (x - y).
Proof.
  intros H c. unfold c, clamp. cbn [nltb Rn]. destruct (Rlt_bool_spec x a); [|destruct (Rlt_bool_spec b x)]; (split; [lra|]); intros y Y; unfold Rabs; repeat destruct Rcase_abs; lra.
Qed.
Print Assumptions C71_clamp.
(** C71  lerp *)
Theorem C71_lerp (a b x : R) : lerp Rn (vreal Rn) a b 0 = a /\ lerp Rn (vreal Rn) a b 1 = b /\
  (0 <= x <= 1 -> Rmin a b <= lerp Rn (vreal Rn) a b x <= Rmax a b) /\ lerp Rn (vreal Rn) a b x = a + x * (b - a).
Proof.
  unfold lerp. cbn. split; [ring|]. split; [ring|]. split; [|ring]. intros H. unfold Rmin, Rmax. destruct (Rle_dec a b); nra.
Qed.
Print Assumptions C71_lerp.
(** C71  signum *)
Theorem C71_signum (x : R) : (0 < x -> signum Rn x = 1%Z) /\ (x < 0 -> signum Rn x = (-1)%Z) /\ (x = 0 -> signum Rn x = 0%Z).
Proof.
  unfold signum. cbn [nltb n0 Rn]. repeat split; intros H; destruct (Rlt_bool_spec 0 x), (Rlt_bool_spec x 0); try reflexivity; lra.
Qed.
Print Assumptions C71_signum.
(** C71  sinc and delta, with the exact pi *)
Theorem C71_sinc (x : R) : sinc Rc sin (- x) = sinc Rc sin x /\ sinc Rc sin 0 = 1 /\ Rabs (sinc Rc sin x) <= 1 /\
  (forall k, (k <> 0)%Z -> sinc Rc sin (IZR k) = 0) /\ (x <> 0 -> sinc Rc sin x = sin (PI * x) / (PI * x)).
Proof.
  rewrite !sinc_rc. split; [apply rsinc_opp|]. split; [apply rsinc_0|]. split; [apply rsinc_bound|]. split; [intros k Hk; rewrite sinc_rc; apply rsinc_int; auto|apply rsinc_nz].
Qed.
Print Assumptions C71_sinc.
Theorem C71_delta (x : R) : (x = 0 -> delta Rn x = 1) /\ (x <> 0 -> delta Rn x = 0).
Proof. unfold delta. cbn [neqb n0 n1 Rn]. split; intros H; [rewrite Req_bool_true|rewrite Req_bool_false]; auto. Qed.
Print Assumptions C71_delta.
(** C71  normal_pdf is the Gaussian density: even about m and maximal there *)
Theorem C71_normal_pdf (x m s : R) : 0 < s -> let p x := normal_pdf Rc exp (fun v => v * v) x m s in
  p x = exp (- ((x - m) / s) ^ 2 / 2) / (s * sqrt (2 * PI)) /\ p (m + x) = p (m - x) /\ p x <= p m /\ 0 < p x.
Proof.
  intros S p. pose proof PI_RGT_0 as PP. assert (Q : 0 < sqrt (2 * PI)) by (apply sqrt_lt_R0; lra).
  assert (E : forall y, p y = exp (- ((y - m) / s) ^ 2 / 2) / (s * sqrt (2 * PI))).
  { intros y. unfold p, normal_pdf. rewrite sqrttwopi_rc. cbn [ndiv nmul nsub nopp nofZ Rc]. rewrite (Rmult_comm s). do 4 f_equal. ring. }
  split; [apply E|]. split; [rewrite !E; do 4 f_equal; field; lra|]. rewrite !E. split; [|apply Rdiv_lt_0_compat; [apply exp_pos|nra]].
  apply Rmult_le_compat_r; [apply Rlt_le, Rinv_0_lt_compat; nra|]. replace ((m - m) / s) with 0 by (field; lra). pose proof (pow2_ge_0 ((x - m) / s)).
  destruct (Req_dec (((x - m) / s) ^ 2) 0) as [Z|Z]; [rewrite Z; replace (0 ^ 2) with 0 by ring; lra|]. apply Rlt_le, exp_increasing. replace (0 ^ 2) with 0 by ring. lra.
Qed.
Print Assumptions C71_normal_pdf.
Example C71_example : clamp Rn 5 0 2 = 2. Proof. unfold clamp. cbn. rewrite Rlt_bool_false, Rlt_bool_true by lra. reflexivity. Qed.
