(* Rounding errors of the Kaiser window *)
From Coq Require Import Reals ZArith Lia Lra List Psatz.
From Coquelicot Require Import Coquelicot.
From Flocq Require Import Core Relative.
From Interval Require Import Tactic.
From Verif Require Import Model.WinFun Spec.ExactConst Spec.Bessel Spec.Sums Proofs.ConstProofs Proofs.KahanFloat Proofs.WinProofs.
Import ListNotations.
Open Scope R_scope.

(** tails of the series *)
Lemma tail_at x m : (forall k, (m <= k)%nat -> bessel_term x (S k) <= bessel_term x k / 2) ->
  exists v, is_I0 x v /\ 0 <= v - sum_f_R0 (bessel_term x) m <= bessel_term x m.
Proof.
  intros Hr. set (t := bessel_term x) in *. set (u := sum_f_R0 t). assert (TP : forall n, 0 <= t n) by apply bessel_pos.
  assert (B : forall j, u (m + j)%nat <= u m + t m - t (m + j)%nat).
  { induction j as [|j IH]; [rewrite Nat.add_0_r; lra|]. rewrite Nat.add_succ_r. unfold u in *. cbn [sum_f_R0]. pose proof (Hr (m + j)%nat ltac:(lia)). lra. }
  assert (I : forall n, u n <= u (S n)) by (intros n; unfold u; cbn [sum_f_R0]; pose proof (TP (S n)); lra).
  assert (I' : forall m n, (m <= n)%nat -> u m <= u n) by (intros m' n H; induction H; [lra|eapply Rle_trans; [apply IHle|apply I]]).
  assert (M : forall n, u n <= u m + t m).
  { intros n. destruct (le_lt_dec n m) as [L|L]; [pose proof (I' n m L); pose proof (TP m); lra|].
    replace n with (m + (n - m))%nat by lia. pose proof (B (n - m)%nat). pose proof (TP (m + (n - m))%nat). lra. }
  destruct (ex_finite_lim_seq_incr u _ I M) as [v V]. exists v. split.
  - unfold is_I0. fold t. apply (filterlim_ext u); [|exact V]. intros n. symmetry. apply sum_n_Reals.
  - pose proof (is_lim_seq_incr_compare u v V I m) as L.
    assert (Uv : v <= u m + t m) by (apply (is_lim_seq_le u (fun _ => u m + t m) v (u m + t m) M V); apply is_lim_seq_const).
    fold (u m). lra.
Qed.
Lemma bt_ratio x k r : 0 <= r -> Rabs x <= r * (2 * INR (S k)) -> bessel_term x (S k) <= r ^ 2 * bessel_term x k.
Proof.
  intros Hr Hx. unfold bessel_term. change ((x / 2) ^ S k / INR (fact (S k))) with (bterm x (S k)). change ((x / 2) ^ k / INR (fact k)) with (bterm x k).
  rewrite bterm_S, Rpow_mult_distr. rewrite Rmult_comm. apply Rmult_le_compat_r; [apply pow2_ge_0|]. rewrite <- pow2_abs. apply pow_incr. split; [apply Rabs_pos|].
  rewrite mult_IZR, <- INR_IZR_INZ. assert (P : 0 < 2 * INR (S k)) by (pose proof (lt_0_INR (S k) ltac:(lia)); lra).
  unfold Rdiv. rewrite Rabs_mult, Rabs_inv, (Rabs_pos_eq (2 * INR (S k))) by lra. apply (Rmult_le_reg_r (2 * INR (S k))); [exact P|]. rewrite Rmult_assoc, Rinv_l by lra. lra.
Qed.
Lemma bt_half x k : Rabs x <= 9.5 -> (6 <= k)%nat -> bessel_term x (S k) <= bessel_term x k / 2.
Proof.
  intros Hx Hk. pose proof (le_INR 6 k Hk) as K. cbn [INR] in K. pose proof (bt_ratio x k (0.68) ltac:(lra)) as B. rewrite S_INR in B. pose proof (bessel_pos x k). specialize (B ltac:(lra)). cbn [pow] in B. lra.
Qed.
(** a small term is followed by smaller ones *)
Lemma bt_small x m : Rabs x <= 9.5 -> bessel_term x m <= 0.9 -> forall k, (m <= k)%nat -> bessel_term x (S k) <= bessel_term x k / 2.
Proof.
  intros Hx Hm k Hk. destruct (le_lt_dec 6 k) as [H6|H6]; [apply bt_half; auto|]. 
  assert (R : Rabs x <= 0.7 * (2 * INR (S m))).
  { apply Rnot_lt_le. intros L. apply Rle_not_lt in Hm. apply Hm. clear Hm. unfold bessel_term. rewrite <- pow2_abs. unfold Rdiv. rewrite Rabs_mult, <- RPow_abs, Rabs_inv, (Rabs_pos_eq (INR (fact m))) by apply pos_INR.
    rewrite Rabs_mult, (Rabs_pos_eq (/ 2)) by lra. set (h := Rabs x * / 2) in *. assert (Hh : 0.7 * INR (S m) < h) by (unfold h; lra). 
    assert (0.9 < (0.7 * INR (S m)) ^ m * / INR (fact m)).
    { destruct m as [|[|[|[|[|[|m]]]]]]; try lia; cbn; lra. }
    assert (I : 0 < / INR (fact m)) by (apply Rinv_0_lt_compat, INR_fact_lt_0).
    assert (C : (0.7 * INR (S m)) ^ m <= h ^ m) by (apply pow_incr; split; [pose proof (pos_INR (S m)); lra|lra]).
    assert (J : (0.7 * INR (S m)) ^ m * / INR (fact m) <= h ^ m * / INR (fact m)) by (apply Rmult_le_compat_r; lra).
    set (w := h ^ m * / INR (fact m)) in *. 
    assert (W : 1 <= w).
    { eapply Rle_trans; [|exact J]. destruct m as [|[|[|[|[|[|m]]]]]]; try lia; cbn; lra. }
    cbn. nra. }
  pose proof (le_INR _ _ Hk) as K. pose proof (bt_ratio x k 0.7 ltac:(lra)) as B. rewrite !S_INR in *. specialize (B ltac:(lra)). pose proof (bessel_pos x k). cbn [pow] in B. lra.
Qed.
Lemma bt_34 x : Rabs x <= 9.5 -> bessel_term x 34 <= 2e-31.
Proof.
  intros Hx. eapply Rle_trans; [apply (bessel_mono x 9.5); rewrite (Rabs_pos_eq 9.5); lra|].
  unfold bessel_term. replace (INR (fact 34)) with (IZR 295232799039604140847618609643520000000) by (rewrite fact_Z; reflexivity). interval.
Qed.
Lemma I0_unique x v w : is_I0 x v -> is_I0 x w -> v = w.
Proof. intros A B. apply is_series_unique in A. apply is_series_unique in B. congruence. Qed.
Lemma I0_ge x v m : is_I0 x v -> sum_f_R0 (bessel_term x) m <= v.
Proof.
  intros A. unfold is_I0 in A. apply (is_lim_seq_incr_compare (sum_f_R0 (bessel_term x)) v).
  - apply (filterlim_ext (sum_n (bessel_term x))); [|exact A]. intros n. apply sum_n_Reals.
  - intros n. cbn [sum_f_R0]. pose proof (bessel_pos x (S n)). lra.
Qed.
Lemma I0_ge1 x v : is_I0 x v -> 1 <= v.
Proof. intros A. eapply Rle_trans; [apply (bsum_ge1 x 0)|apply I0_ge; auto]. Qed.
Lemma I0_mono x y v w : Rabs x <= Rabs y -> is_I0 x v -> is_I0 y w -> v <= w.
Proof.
  intros H A B. rewrite <- (is_series_unique _ _ A), <- (is_series_unique _ _ B). apply Series_le; [|exists w; exact B]. intros n. split; [apply bessel_pos|apply bessel_mono; auto].
Qed.
Lemma bt_z x n : bessel_term x n = (x * x / 4) ^ n / INR (fact n) ^ 2.
Proof. unfold bessel_term. replace (x * x / 4) with ((x / 2) * (x / 2)) by field. rewrite Rpow_mult_distr. field. apply fact_nz. Qed.
Lemma pow_diff a b n : 0 <= a <= b -> b ^ S n - a ^ S n <= INR (S n) * b ^ n * (b - a).
Proof.
  intros H. induction n as [|n IH]; [cbn; lra|]. replace (b ^ S (S n) - a ^ S (S n)) with (b * (b ^ S n - a ^ S n) + a ^ S n * (b - a)) by (cbn; ring).
  rewrite (S_INR (S n)). assert (P : a ^ S n <= b ^ S n) by (apply pow_incr; lra). assert (Q : b * (b ^ S n - a ^ S n) <= b * (INR (S n) * b ^ n * (b - a))) by (apply Rmult_le_compat_l; lra).
  assert (a ^ S n * (b - a) <= b ^ S n * (b - a)) by (apply Rmult_le_compat_r; lra). replace (b * (INR (S n) * b ^ n * (b - a))) with (INR (S n) * b ^ S n * (b - a)) in Q by (cbn; ring). lra.
Qed.
(** I0 as a function of x^2/4 grows at most as fast as itself *)
Lemma I0_lip x y v w : Rabs x <= Rabs y -> is_I0 x v -> is_I0 y w -> w - v <= (y * y / 4 - x * x / 4) * w.
Proof.
  intros H A B. set (a := x * x / 4). set (b := y * y / 4).
  assert (Hab : 0 <= a <= b). { pose proof (Rsqr_le_abs_1 x y H) as Q. unfold Rsqr in Q. unfold a, b. pose proof (Rle_0_sqr x) as S. unfold Rsqr in S. lra. }
  assert (D : is_series (fun n => bessel_term y n - bessel_term x n) (w - v)) by (apply (is_series_minus (bessel_term y) (bessel_term x)); auto).
  assert (D' : is_series (fun n => bessel_term y (S n) - bessel_term x (S n)) (w - v)).
  { apply (is_series_incr_1 (fun n => bessel_term y n - bessel_term x n)). refine (eq_ind (w - v) (fun l : R => is_series (fun n => bessel_term y n - bessel_term x n) l) D _ _).
    change (w - v = w - v + (bessel_term y 0 - bessel_term x 0)). unfold bessel_term. cbn. lra. }
  assert (E : is_series (fun n => (b - a) * bessel_term y n) ((b - a) * w)) by (apply (is_series_scal (b - a) (bessel_term y)); exact B).
  rewrite <- (is_series_unique _ _ D'), <- (is_series_unique _ _ E). apply Series_le; [|exists ((b - a) * w); exact E].
  intros n. rewrite !bt_z. fold a b. change (fact (S n)) with (S n * fact n)%nat. rewrite mult_INR. set (f := INR (fact n)). assert (Pf : 0 < f) by apply INR_fact_lt_0.
  assert (Ps : 1 <= INR (S n)) by (rewrite S_INR; pose proof (pos_INR n); lra). set (s := INR (S n)) in *. split.
  - assert (a ^ S n <= b ^ S n) by (apply pow_incr; lra). unfold Rdiv. assert (0 < / (s * f) ^ 2) by (apply Rinv_0_lt_compat, pow_lt; nra). nra.
  - pose proof (pow_diff a b n Hab) as P. fold s in P. assert (Pb : 0 <= b ^ n) by (apply pow_le; lra).
    replace (b ^ S n / (s * f) ^ 2 - a ^ S n / (s * f) ^ 2) with ((b ^ S n - a ^ S n) / (s * f) ^ 2) by (field; nra).
    replace ((b - a) * (b ^ n / f ^ 2)) with ((s * s * b ^ n * (b - a)) / (s * f) ^ 2) by (field; split; lra).
    unfold Rdiv. apply Rmult_le_compat_r; [apply Rlt_le, Rinv_0_lt_compat, pow_lt, Rmult_lt_0_compat; lra|]. eapply Rle_trans; [exact P|].
    assert (Q : 0 <= b ^ n * (b - a)) by (apply Rmult_le_pos; lra). rewrite Rmult_assoc, (Rmult_assoc (s * s)). apply Rmult_le_compat_r; [exact Q|]. rewrite <- (Rmult_1_r s) at 1. apply Rmult_le_compat_l; lra.
Qed.

Section I0R.
Context (emin prec : Z) (Hp : (20 <= prec)%Z) (He : (emin <= - prec - 110)%Z).
Notation rnd := (FLTrnd emin prec).
Notation u := (ulp_u prec).
Notation e := (bpow radix2 (emin - 1)).
Notation F := (FLTfmt emin prec).

Lemma u_range : 0 < u <= 1e-6.
Proof. unfold ulp_u. split; [apply bpow_gt_0|]. apply Rle_trans with (bpow radix2 (-20)); [apply bpow_le; lia|replace (bpow radix2 (-20)) with (/ IZR 1048576) by reflexivity; interval]. Qed.
Lemma e_range : 0 < e <= 1e-33 * u.
Proof.
  split; [apply bpow_gt_0|]. unfold ulp_u. apply Rle_trans with (bpow radix2 (-111) * bpow radix2 (- prec)); [rewrite <- bpow_plus; apply bpow_le; lia|].
  apply Rmult_le_compat_r; [apply bpow_ge_0|]. replace (bpow radix2 (-111)) with (/ IZR 2596148429267413814265248164610048) by reflexivity. interval.
Qed.
Lemma rnd_err x : Rabs (rnd x - x) <= u * Rabs x + e.
Proof.
  assert (HP : Prec_gt_0 prec) by (unfold Prec_gt_0; lia). destruct (error_N_FLT radix2 emin prec HP (fun x => negb (Z.even x)) x) as (d & t & D & T & _ & E).
  unfold FLTrnd. change ZnearestE with (Znearest (fun x => negb (Z.even x))). rewrite E. replace (x * (1 + d) + t - x) with (x * d + t) by ring.
  eapply Rle_trans; [apply Rabs_triang|]. rewrite Rabs_mult. 
  assert (D' : Rabs d <= u) by (eapply Rle_trans; [exact D|]; unfold ulp_u; rewrite bpow_plus; change (bpow radix2 1) with 2; lra).
  assert (T' : Rabs t <= e) by (eapply Rle_trans; [exact T|]; unfold Z.sub; rewrite bpow_plus; change (bpow radix2 (-(1))) with (/ 2); lra).
  pose proof (Rabs_pos x). nra.
Qed.
Lemma rnd_fmt x : F (rnd x). Proof. assert (HP : Prec_gt_0 prec) by (unfold Prec_gt_0; lia). apply generic_format_round; typeclasses eauto. Qed.
Lemma fmt_id x : F x -> rnd x = x. Proof. intros H. apply round_generic; auto with typeclass_instances. Qed.
Lemma fmt_Z k : (Z.abs k <= 2 ^ prec)%Z -> F (IZR k).
Proof.
  intros H. assert (HP : Prec_gt_0 prec) by (unfold Prec_gt_0; lia). destruct (Z.eq_dec (Z.abs k) (2 ^ prec)) as [E|E].
  - assert (B : F (bpow radix2 prec)) by (apply generic_format_bpow; unfold FLT_exp; lia). rewrite <- IZR_Zpower in B by lia. change (radix2 : Z) with 2%Z in B. rewrite <- E in B. 
    destruct (Z_le_gt_dec 0 k); [rewrite Z.abs_eq in B by lia; exact B|]. rewrite Z.abs_neq in B by lia. replace k with (- - k)%Z by lia. rewrite opp_IZR. apply generic_format_opp. exact B.
  - apply generic_format_FLT. exists (Float radix2 k 0); [unfold F2R; cbn; ring|cbn; lia|cbn; lia].
Qed.
Lemma rnd_mono x y : x <= y -> rnd x <= rnd y.
Proof. assert (HP : Prec_gt_0 prec) by (unfold Prec_gt_0; lia). intros H. apply round_le; auto with typeclass_instances. Qed.
Lemma rnd_0 : rnd 0 = 0. Proof. apply fmt_id, generic_format_0. Qed.
Lemma rnd_1 : rnd 1 = 1. Proof. apply fmt_id, (fmt_Z 1). cbn. pose proof (Z.pow_le_mono_r 2 0 prec). lia. Qed.

Fixpoint V (x : R) (k : nat) : R := match k with O => 1 | S k' => rnd (V x k' * rnd (x / IZR (2 * Z.of_nat k))) end.
Definition Vq (x : R) (k : nat) : R := rnd (V x k * V x k).
Definition K (x : R) (m : nat) : kahan R := fold_left (fun k x => fst (kahan_call (fun x y => rnd (x + y)) (fun x y => rnd (x - y)) k x)) (map (Vq x) (seq 1 m)) (kahan_new 0 1).
Lemma K_S x m : K x (S m) = fst (kahan_call (fun x y => rnd (x + y)) (fun x y => rnd (x - y)) (K x m) (Vq x (S m))).
Proof. unfold K. rewrite seq_S, map_app, fold_left_app. reflexivity. Qed.

Lemma small_int k : (0 <= k <= 100)%Z -> rnd (IZR k) = IZR k.
Proof. intros H. apply fmt_id, fmt_Z. pose proof (Z.pow_le_mono_r 2 20 prec). lia. Qed.
Lemma loop x : forall k m, (m + k = 34)%nat -> exists j, (j <= 34)%nat /\ i0_loop (Fn rnd) x k (Z.of_nat (S m)) (K x m) (V x m) = k_high (K x j) /\
  (j = 34%nat \/ exists i, j = S i /\ K x (S i) = K x i).
Proof.
  induction k as [|k IH]; intros m Hm; [exists m; split; [lia|]; split; [reflexivity|left; lia]|]. cbn [i0_loop].
  change (nmul (Fn rnd) (V x m) (ndiv (Fn rnd) x (nofZ (Fn rnd) (2 * Z.of_nat (S m))))) with (rnd (V x m * rnd (x / rnd (IZR (2 * Z.of_nat (S m)))))).
  rewrite small_int by lia. change (rnd (V x m * rnd (x / IZR (2 * Z.of_nat (S m))))) with (V x (S m)).
  change (nmul (Fn rnd) (V x (S m)) (V x (S m))) with (Vq x (S m)). unfold kahan_same. 
  change (nadd (Fn rnd)) with (fun x y => rnd (x + y)). change (nsub (Fn rnd)) with (fun x y => rnd (x - y)). rewrite <- K_S.
  unfold kahan_eq. change (neqb (Fn rnd)) with Req_bool.
  destruct (Req_bool_spec (k_low (K x m)) (k_low (K x (S m)))) as [E1|E1]; [destruct (Req_bool_spec (k_high (K x m)) (k_high (K x (S m)))) as [E2|E2]|]; cbn [andb].
  - exists (S m). split; [lia|]. split; [reflexivity|]. right. exists m. split; [reflexivity|]. destruct (K x m), (K x (S m)). cbn in E1, E2. congruence.
  - replace (Z.of_nat (S m) + 1)%Z with (Z.of_nat (S (S m))) by lia. apply IH. lia.
  - replace (Z.of_nat (S m) + 1)%Z with (Z.of_nat (S (S m))) by lia. apply IH. lia.
Qed.
Lemma i0_K x : exists j, (j <= 34)%nat /\ i0 (Fn rnd) x = k_high (K x j) /\ (j = 34%nat \/ exists i, j = S i /\ K x (S i) = K x i).
Proof.
  unfold i0. assert (E1 : nlit (Fn rnd) 1.0 = 1) by (cbn [nlit Fn]; replace 1.0 with 1 by lra; apply rnd_1). rewrite E1. 
  pose proof (loop x 34 0 eq_refl) as H. change (Z.of_nat 1) with 1%Z in H. change (K x 0) with (kahan_new (n0 (Fn rnd)) 1) in H. change (V x 0) with 1 in H. exact H.
Qed.
Lemma Vq_fmt x m : Forall F (map (Vq x) (seq 1 m)).
Proof. apply Forall_forall. intros y Hy. apply in_map_iff in Hy. destruct Hy as (k & <- & _). apply rnd_fmt. Qed.
Lemma K_inv x m : (m <= 34)%nat -> let A := 1 + absum (map (Vq x) (seq 1 m)) in
  F (k_high (K x m)) /\ F (k_low (K x m)) /\ Rabs (k_low (K x m)) <= 3 * u * A /\ Rabs (k_high (K x m) - (1 + Rsum (map (Vq x) (seq 1 m)))) <= 5.01 * u * A.
Proof.
  intros Hm A. pose proof u_range as U. pose proof (le_INR _ _ Hm) as HI. replace (INR 34) with 34 in HI by (cbn; lra).
  assert (L : length (map (Vq x) (seq 1 m)) = m) by (rewrite map_length, seq_length; reflexivity).
  assert (Z0 : F 0) by apply generic_format_0. assert (Z1 : F 1) by (rewrite <- rnd_1; apply rnd_fmt).
  destruct (kahan_inv F (fun x y => rnd (x + y)) (fun x y => rnd (x - y)) u ltac:(lra) (FLT_add emin prec ltac:(lia)) (FLT_sub emin prec ltac:(lia)) 1 (map (Vq x) (seq 1 m)) Z1 Z0 (Vq_fmt x m) ltac:(rewrite L; nra)) as (I1 & I2 & I3 & I4).
  cbv zeta in *. rewrite Rabs_R1, L in *. fold A in I3, I4. fold (K x m) in *. split; [exact I1|]. split; [exact I2|]. split; [exact I3|].
  assert (PA : 1 <= A) by (pose proof (absum_pos (map (Vq x) (seq 1 m))); unfold A; lra).
  replace (k_high (K x m) - (1 + Rsum (map (Vq x) (seq 1 m)))) with ((k_high (K x m) - k_low (K x m) - (1 + Rsum (map (Vq x) (seq 1 m)))) + k_low (K x m)) by ring.
  eapply Rle_trans; [apply rab; eauto|]. assert (UA : 0 <= u * A) by nra. assert (12 * INR m * (u * u) * A <= 0.01 * u * A); [|lra].
  replace (12 * INR m * (u * u) * A) with ((12 * INR m * u) * (u * A)) by ring. rewrite (Rmult_assoc 0.01). apply Rmult_le_compat_r; [exact UA|]. nra.
Qed.
(** the loop stops early only when the last term is negligible *)
Lemma K_stop x m : (m <= 33)%nat -> K x (S m) = K x m -> Rabs (Vq x (S m)) <= 3.1 * u * u * (1 + absum (map (Vq x) (seq 1 m))).
Proof.
  intros Hm H. destruct (K_inv x m ltac:(lia)) as (Fh & Fl & B & _). cbv zeta in B. set (A := 1 + absum _) in *. rewrite K_S in H. unfold kahan_call in H. cbn [fst] in H.
  destruct (K x m) as [h l] eqn:EK. cbn [k_high k_low] in *. injection H as H1 H2. rewrite H1 in H2. rewrite Rminus_eq_0, rnd_0 in H2.
  set (t := rnd (Vq x (S m) - l)) in *. assert (Ft : F t) by apply rnd_fmt. rewrite Rminus_0_l, fmt_id in H2 by (apply generic_format_opp; exact Ft).
  destruct (FLT_sub emin prec ltac:(lia) (Vq x (S m)) l (rnd_fmt _) Fl) as (_ & d & D & E). fold t in E. set (q := Vq x (S m)) in *.
  assert (Q : q * (1 + d) = l * d) by lra. pose proof u_range as U. assert (Q' : Rabs q * Rabs (1 + d) <= Rabs l * u) by (rewrite <- Rabs_mult, Q, Rabs_mult; apply Rmult_le_compat_l; [apply Rabs_pos|exact D]).
  apply Rabs_def2b in D || apply Rabs_le_inv in D. rewrite (Rabs_pos_eq (1 + d)) in Q' by lra. pose proof (Rabs_pos q). pose proof (Rabs_pos l).
  assert (PA : 1 <= A) by (pose proof (absum_pos (map (Vq x) (seq 1 m))); unfold A; lra).
  assert (Rabs q * (1 - 1e-6) <= 3 * u * A * u) by nra. assert (0 <= u * u * A) by (assert (0 <= u * u) by nra; nra). nra.
Qed.
End I0R.

Section I0R.
Context (emin prec : Z) (Hp : (20 <= prec)%Z) (He : (emin <= - prec - 110)%Z).
Notation rnd := (FLTrnd emin prec).
Notation u := (ulp_u prec).
Notation e := (bpow radix2 (emin - 1)).
Notation F := (FLTfmt emin prec).

Lemma V_err x k : Rabs x <= 9.5 -> (k <= 34)%nat -> Rabs (bterm x k) <= 5 ^ k /\ Rabs (V emin prec x k - bterm x k) <= 3 * INR k * u * Rabs (bterm x k) + 10 * 6 ^ k * e.
Proof.
  intros Hx. induction k as [|k IH]; intros Hk.
  { rewrite bterm_0. cbn [V pow INR]. rewrite Rminus_eq_0, Rabs_R0, Rabs_R1. pose proof (e_range emin prec He). lra. }
  destruct (IH ltac:(lia)) as (T & D). clear IH. pose proof (u_range prec Hp) as U. pose proof (e_range emin prec He) as E0.
  pose proof (le_INR _ _ Hk) as HI. replace (INR 34) with 34 in HI by (cbn; lra). rewrite S_INR in *. pose proof (pos_INR k) as P0.
  rewrite bterm_S. cbn [V]. set (t := bterm x k) in *. set (v := V emin prec x k) in *. set (q := x / IZR (2 * Z.of_nat (S k))). set (qh := rnd q).
  assert (Q : Rabs q <= 4.75).
  { unfold q, Rdiv. rewrite Rabs_mult, Rabs_inv, (Rabs_pos_eq (IZR _)) by (apply IZR_le; lia). assert (2 <= IZR (2 * Z.of_nat (S k))) by (apply IZR_le; lia).
    assert (0 < / IZR (2 * Z.of_nat (S k)) <= / 2) by (split; [apply Rinv_0_lt_compat; lra|apply Rinv_le_contravar; lra]). pose proof (Rabs_pos x). nra. }
  assert (P6 : 0 < 5 ^ k <= 6 ^ k) by (split; [apply pow_lt; lra|apply pow_incr; lra]).
  rewrite (Rabs_mult t q). pose proof (Rabs_pos t) as Pt. pose proof (Rabs_pos q) as Pq. set (t' := Rabs t) in *. set (q' := Rabs q) in *.
  split; [cbn [pow]; nra|].
  pose proof (rnd_err emin prec Hp q) as Eq. fold qh q' in Eq. pose proof (rnd_err emin prec Hp (v * qh)) as Ev.
  assert (Qh : Rabs qh <= q' * (1 + u) + e) by (replace qh with (q + (qh - q)) by ring; eapply Rle_trans; [apply Rabs_triang|]; fold q'; lra).
  set (b := 10 * 6 ^ k * e) in *. assert (Pb : 0 <= b) by (unfold b; nra). set (c := 3 * INR k * u) in *. assert (Pc : 0 <= c <= 102 * u) by (unfold c; assert (0 <= INR k * u <= 34 * u) by (split; [apply Rmult_le_pos; lra|apply Rmult_le_compat_r; lra]); lra).
  assert (Qh' : Rabs qh <= 4.76) by nra.
  assert (W : Rabs (v * qh - t * q) <= c * (1 + u) * (t' * q') + 1.01 * (t' * e) + 4.76 * b + u * (t' * q')).
  { replace (v * qh - t * q) with ((v - t) * qh + t * (qh - q)) by ring. eapply Rle_trans; [apply Rabs_triang|]. rewrite !Rabs_mult. fold t'.
    assert (W1 : Rabs (v - t) * Rabs qh <= c * t' * (q' * (1 + u) + e) + 4.76 * b).
    { apply Rle_trans with ((c * t' + b) * Rabs qh); [apply Rmult_le_compat_r; [apply Rabs_pos|exact D]|]. rewrite Rmult_plus_distr_r. apply Rplus_le_compat; [apply Rmult_le_compat_l; [nra|exact Qh]|]. rewrite (Rmult_comm b). apply Rmult_le_compat_r; lra. }
    assert (W2 : t' * Rabs (qh - q) <= t' * (u * q' + e)) by (apply Rmult_le_compat_l; lra).
    assert (W3 : c * (t' * e) <= 0.01 * (t' * e)) by (apply Rmult_le_compat_r; [nra|lra]).
    nra. }
  replace (rnd (v * qh) - t * q) with ((rnd (v * qh) - v * qh) + (v * qh - t * q)) by ring. eapply Rle_trans; [apply Rabs_triang|].
  assert (Z1 : Rabs (v * qh) <= t' * q' + Rabs (v * qh - t * q)) by (replace (v * qh) with (t * q + (v * qh - t * q)) at 1 by ring; eapply Rle_trans; [apply Rabs_triang|]; rewrite (Rabs_mult t q); unfold t', q'; lra).
  set (w := Rabs (v * qh - t * q)) in *. assert (Pw : 0 <= w) by apply Rabs_pos. set (pp := t' * q') in *. assert (Pp : 0 <= pp) by (unfold pp; nra).
  assert (Z2 : u * Rabs (v * qh) <= u * (pp + w)) by (apply Rmult_le_compat_l; lra).
  assert (Z3 : (1 + u) * w <= (1 + u) * (c * (1 + u) * pp + 1.01 * (t' * e) + 4.76 * b + u * pp)) by (apply Rmult_le_compat_l; lra).
  assert (Z4 : ((1 + u) * (c * (1 + u) + u) + u) * pp <= (c + 3 * u) * pp) by (apply Rmult_le_compat_r; [exact Pp|nra]).
  assert (Z5 : t' * e <= 6 ^ k * e) by (apply Rmult_le_compat_r; lra). set (g := 6 ^ k * e) in *. assert (Eb : b = 10 * g) by (unfold b, g; ring).
  assert (E1 : e <= g). { unfold g. rewrite <- (Rmult_1_l e) at 1. apply Rmult_le_compat_r; [lra|]. apply pow_R1_Rle. lra. }
  assert (Te : 0 <= t' * e) by nra.
  replace (10 * 6 ^ S k * e) with (60 * g) by (unfold g; cbn [pow]; ring). replace (3 * (INR k + 1) * u) with (c + 3 * u) by (unfold c; ring).
  assert (Z6 : (1 + u) * (1.01 * (t' * e) + 4.76 * b) <= 1.01 * (1.01 * g + 47.6 * g)) by (apply Rmult_le_compat; lra).
  lra.
Qed.
End I0R.

Section I0R.
Context (emin prec : Z) (Hp : (20 <= prec)%Z) (He : (emin <= - prec - 110)%Z).
Notation rnd := (FLTrnd emin prec).
Notation u := (ulp_u prec).
Notation e := (bpow radix2 (emin - 1)).
Notation F := (FLTfmt emin prec).

Lemma Vq_err x k : Rabs x <= 9.5 -> (k <= 34)%nat -> Rabs (Vq emin prec x k - bessel_term x k) <= (6 * INR k + 2) * u * bessel_term x k + 0.01 * u.
Proof.
  intros Hx Hk. destruct (V_err emin prec Hp He x k Hx Hk) as (_ & D). pose proof (u_range prec Hp) as U. pose proof (e_range emin prec He) as E0. pose proof (le_INR _ _ Hk) as HI. replace (INR 34) with 34 in HI by (cbn; lra). pose proof (pos_INR k) as P0.
  change (bessel_term x k) with (bterm x k ^ 2). set (t := bterm x k) in *. set (v := V emin prec x k) in *.
  assert (P6 : 1 <= 6 ^ k <= 1e27). { split; [apply pow_R1_Rle; lra|]. apply Rle_trans with (6 ^ 34); [apply Rle_pow; [lra|exact Hk]|]. interval. }
  set (b := 10 * 6 ^ k * e) in *. assert (Pb : 0 <= b <= 1e-4 * u) by (unfold b; split; [assert (0 <= 6 ^ k * e) by (apply Rmult_le_pos; lra); lra|assert (6 ^ k * e <= 1e27 * (1e-33 * u)) by (apply Rmult_le_compat; lra); lra]). set (c := 3 * INR k * u) in *. assert (Pc : 0 <= c <= 102 * u) by (unfold c; assert (0 <= INR k * u <= 34 * u) by (split; [apply Rmult_le_pos; lra|apply Rmult_le_compat_r; lra]); lra).
  assert (T2 : t ^ 2 = Rabs t * Rabs t) by (rewrite <- Rabs_mult, Rabs_pos_eq by (pose proof (Rle_0_sqr t) as S; exact S); cbn; ring). rewrite T2. pose proof (Rabs_pos t) as Pt. 
  assert (W : Rabs (v * v - t * t) <= (c * Rabs t + b) * (2 * Rabs t + (c * Rabs t + b))).
  { replace (v * v - t * t) with ((v - t) * (2 * t + (v - t))) by ring. rewrite Rabs_mult. apply Rmult_le_compat; try apply Rabs_pos; [exact D|]. eapply Rle_trans; [apply Rabs_triang|]. rewrite Rabs_mult, (Rabs_pos_eq 2) by lra. lra. }
  assert (S2 : Rabs t <= (Rabs t * Rabs t + 1) / 2) by (pose proof (Rle_0_sqr (Rabs t - 1)) as S; unfold Rsqr in S; lra).
  set (a := Rabs t) in *. set (s := a * a) in *. assert (Ps : 0 <= s) by (unfold s; apply Rmult_le_pos; lra).
  assert (W' : Rabs (v * v - t * t) <= (2.001 * c + 0.001 * u) * s + 0.001 * u).
  { eapply Rle_trans; [exact W|]. replace ((c * a + b) * (2 * a + (c * a + b))) with ((2 * c + c * c) * s + (2 * b + 2 * c * b) * a + b * b) by (unfold s; ring).
    assert (c * c <= 0.001 * c) by (apply Rmult_le_compat_r; lra). assert (c * b <= 0.001 * b) by (apply Rmult_le_compat_r; lra). assert (b * b <= 0.001 * b) by (apply Rmult_le_compat_r; lra).
    assert ((2 * c + c * c) * s <= (2.001 * c) * s) by (apply Rmult_le_compat_r; lra). assert (0 <= c * b) by (apply Rmult_le_pos; lra). assert (0 <= u * s) by (apply Rmult_le_pos; lra). assert ((2 * b + 2 * c * b) * a <= (2.1 * b) * ((s + 1) / 2)) by (apply Rmult_le_compat; lra). assert (b * s <= 1e-4 * u * s) by (apply Rmult_le_compat_r; lra). lra. }
  pose proof (rnd_err emin prec Hp (v * v)) as R. fold (Vq emin prec x k) in R. replace (rnd (v * v)) with (Vq emin prec x k) in R by reflexivity.
  assert (Vv : Rabs (v * v) <= s + Rabs (v * v - t * t)).
  { replace (v * v) with (t * t + (v * v - t * t)) at 1 by ring. eapply Rle_trans; [apply Rabs_triang|]. rewrite (Rabs_mult t t). unfold s, a. lra. }
  assert (T3 : s = t * t) by (unfold s, a; rewrite <- Rabs_mult; apply Rabs_pos_eq; apply Rle_0_sqr). rewrite T3 at 1.
  replace (Vq emin prec x k - t * t) with ((Vq emin prec x k - v * v) + (v * v - t * t)) by ring. eapply Rle_trans; [apply Rabs_triang|].
  set (w := Rabs (v * v - t * t)) in *. assert (u * Rabs (v * v) <= u * (s + w)) by (apply Rmult_le_compat_l; lra).
  assert (B1 : (1 + u) * w <= (1 + u) * ((2.001 * c + 0.001 * u) * s + 0.001 * u)) by (apply Rmult_le_compat_l; lra).
  assert (B2 : ((1 + u) * (2.001 * c + 0.001 * u) + u) * s <= ((6 * INR k + 2) * u) * s).
  { apply Rmult_le_compat_r; [exact Ps|]. assert (C1 : 2.001 * c <= 6 * INR k * u + 0.2 * u) by (unfold c; assert (INR k * u <= 34 * u) by (apply Rmult_le_compat_r; lra); lra).
    set (y := 2.001 * c + 0.001 * u) in *. assert (Y : u * y <= 1e-6 * y) by (apply Rmult_le_compat_r; unfold y; lra). assert (y <= 210 * u) by (unfold y; lra). unfold y in *. lra. }
  assert (B3 : u * (0.001 * u) <= 1 * (0.001 * u)) by (apply Rmult_le_compat_r; lra). assert (T4 : t * t = s) by (symmetry; exact T3). lra.
Qed.
End I0R.

Section I0R.
Context (emin prec : Z) (Hp : (20 <= prec)%Z) (He : (emin <= - prec - 110)%Z).
Notation rnd := (FLTrnd emin prec).
Notation u := (ulp_u prec).
Notation e := (bpow radix2 (emin - 1)).
Notation F := (FLTfmt emin prec).

Notation Vq := (Vq emin prec).
Notation K := (K emin prec).
Lemma Vq_pos x k : 0 <= Vq x k.
Proof. unfold Vq. rewrite <- (rnd_0 emin prec). apply rnd_mono; [exact Hp|]. apply Rle_0_sqr. Qed.
Lemma absum_Vq x m : absum (map (Vq x) (seq 1 m)) = Rsum (map (Vq x) (seq 1 m)).
Proof. unfold absum. f_equal. rewrite map_map. apply map_ext. intros k. apply Rabs_pos_eq, Vq_pos. Qed.
Lemma weighted x m : sum_f_R0 (fun k => INR k * bessel_term x k) m <= Rabs x / 2 * (sum_f_R0 (bessel_term x) m - bessel_term x m / 2).
Proof.
  induction m as [|m IH].
  - cbn [sum_f_R0 INR]. pose proof (bessel_pos x 0). pose proof (Rabs_pos x). assert (0 <= Rabs x * bessel_term x 0) by (apply Rmult_le_pos; lra). lra.
  - cbn [sum_f_R0]. assert (B : INR (S m) * bessel_term x (S m) <= Rabs x / 2 * ((bessel_term x m + bessel_term x (S m)) / 2)); [|lra].
    change (bessel_term x (S m)) with (bterm x (S m) ^ 2). change (bessel_term x m) with (bterm x m ^ 2). pose proof (bterm_S x m) as E. set (a := bterm x m) in *. set (b := bterm x (S m)) in *.
    rewrite mult_IZR, <- INR_IZR_INZ in E. set (n := INR (S m)) in *. assert (n <> 0) by (apply not_0_INR; lia).
    assert (E' : n * b = x / 2 * a) by (rewrite E; field; auto).
    replace (n * b ^ 2) with ((n * b) * b) by ring. rewrite E'. 
    apply Rle_trans with (Rabs x / 2 * (Rabs a * Rabs b)).
    + replace (x / 2 * a * b) with (x / 2 * (a * b)) by ring. eapply Rle_trans; [apply RRle_abs|]. unfold Rdiv. rewrite !Rabs_mult, (Rabs_pos_eq (/ 2)) by lra. lra.
    + apply Rmult_le_compat_l; [pose proof (Rabs_pos x); lra|]. rewrite <- (pow2_abs a), <- (pow2_abs b). pose proof (Rle_0_sqr (Rabs a - Rabs b)) as S. unfold Rsqr in S. cbn. lra.
Qed.
Lemma sum_err x m : Rabs x <= 9.5 -> (m <= 34)%nat ->
  Rabs (1 + Rsum (map (Vq x) (seq 1 m)) - sum_f_R0 (bessel_term x) m) <= 6 * u * sum_f_R0 (fun k => INR k * bessel_term x k) m + 2 * u * (sum_f_R0 (bessel_term x) m - 1) + 0.01 * u * INR m.
Proof.
  intros Hx. induction m as [|m IH]; intros Hm.
  - cbn [seq map sum_f_R0 INR]. change (Rsum []) with 0. replace (bessel_term x 0) with 1 by (unfold bessel_term; cbn; field). rewrite Rplus_0_r, Rminus_eq_0, Rabs_R0. lra.
  - specialize (IH ltac:(lia)). rewrite seq_S, map_app. cbn [map Nat.add]. rewrite Rsum_snoc. cbn [sum_f_R0]. pose proof (Vq_err emin prec Hp He x (S m) Hx Hm) as E. rewrite S_INR in *.
    set (B := bessel_term x (S m)) in *. set (q := Vq x (S m)) in *. set (R1 := Rsum _) in *. set (S1 := sum_f_R0 (bessel_term x) m) in *.
    replace (1 + (R1 + q) - (S1 + B)) with ((1 + R1 - S1) + (q - B)) by ring. eapply Rle_trans; [apply Rabs_triang|]. set (S2 := sum_f_R0 (fun k => INR k * bessel_term x k) m) in *. lra.
Qed.
Lemma S_bound x m : Rabs x <= 9.5 -> (m <= 34)%nat -> sum_f_R0 (bessel_term x) m <= 2e9.
Proof.
  intros Hx Hm. assert (B : forall k, (k <= 6)%nat -> bessel_term x k <= 244140625).
  { intros k Hk. destruct (V_err emin prec Hp He x k Hx ltac:(lia)) as (T & _). change (bessel_term x k) with (bterm x k ^ 2). rewrite <- pow2_abs.
    apply Rle_trans with ((5 ^ 6) ^ 2); [|lra]. apply pow_incr. split; [apply Rabs_pos|]. eapply Rle_trans; [exact T|]. apply Rle_pow; [lra|exact Hk]. }
  assert (L : forall k, (k <= 6)%nat -> sum_f_R0 (bessel_term x) k <= 244140625 * INR (S k)).
  { induction k as [|k IH]; intros Hk; [cbn [sum_f_R0 INR]; pose proof (B 0%nat Hk); lra|]. cbn [sum_f_R0]. rewrite S_INR. pose proof (B (S k) Hk). specialize (IH ltac:(lia)). lra. }
  destruct (le_lt_dec m 6) as [H6|H6].
  - eapply Rle_trans; [apply L; exact H6|]. apply Rle_trans with (244140625 * INR 7); [|cbn; lra]. apply Rmult_le_compat_l; [lra|]. apply le_INR. lia.
  - assert (G : forall j, sum_f_R0 (bessel_term x) (6 + j) <= sum_f_R0 (bessel_term x) 6 + bessel_term x 6 - bessel_term x (6 + j)).
    { induction j as [|j IH]; [rewrite Nat.add_0_r; lra|]. rewrite Nat.add_succ_r. change (sum_f_R0 (bessel_term x) (S (6 + j))) with (sum_f_R0 (bessel_term x) (6 + j) + bessel_term x (S (6 + j))). pose proof (bt_half x (6 + j) Hx ltac:(lia)). lra. }
    specialize (G (m - 6)%nat). replace (6 + (m - 6))%nat with m in G by lia. pose proof (bessel_pos x m). pose proof (B 6%nat ltac:(lia)). pose proof (L 6%nat ltac:(lia)) as L6. replace (INR 7) with 7 in L6 by (cbn; lra). lra.
Qed.
Lemma i0_round x : Rabs x <= 9.5 -> exists v, is_I0 x v /\ Rabs (i0 (Fn rnd) x - v) <= 37 * u * v + 2e-31.
Proof.
  intros Hx. pose proof (u_range prec Hp) as U. destruct (i0_K emin prec Hp He x) as (j & Hj & E & C). rewrite E.
  assert (SE : forall m, (m <= 34)%nat -> Rabs (1 + Rsum (map (Vq x) (seq 1 m)) - sum_f_R0 (bessel_term x) m) <= 31 * u * sum_f_R0 (bessel_term x) m).
  { intros m Hm. eapply Rle_trans; [apply sum_err; auto|]. pose proof (weighted x m) as W. pose proof (bessel_pos x m). pose proof (bsum_ge1 x m). pose proof (le_INR _ _ Hm) as HI. replace (INR 34) with 34 in HI by (cbn; lra).
    set (Sm := sum_f_R0 (bessel_term x) m) in *. set (Wm := sum_f_R0 (fun k => INR k * bessel_term x k) m) in *.
    assert (Wm <= 4.75 * Sm). { eapply Rle_trans; [exact W|]. apply Rle_trans with (Rabs x / 2 * Sm); [apply Rmult_le_compat_l; [pose proof (Rabs_pos x); lra|lra]|apply Rmult_le_compat_r; lra]. }
    assert (u * Wm <= u * (4.75 * Sm)) by (apply Rmult_le_compat_l; lra). assert (u * INR m <= u * 34) by (apply Rmult_le_compat_l; lra). assert (u * 1 <= u * Sm) by (apply Rmult_le_compat_l; lra). lra. }
  destruct (K_inv emin prec Hp He x j Hj) as (_ & _ & _ & KE). cbv zeta in KE. rewrite absum_Vq in KE. pose proof (SE j Hj) as SJ. pose proof (bsum_ge1 x j) as G1.
  set (Sj := sum_f_R0 (bessel_term x) j) in *. set (Rj := Rsum (map (Vq x) (seq 1 j))) in *.
  assert (US : u * Sj <= 1e-6 * Sj) by (apply Rmult_le_compat_r; lra).
  assert (A2 : 1 + Rj <= 1.001 * Sj) by (apply Rabs_le_inv in SJ; lra).
  assert (D : Rabs (k_high (K x j) - Sj) <= 36.1 * u * Sj).
  { replace (k_high (K x j) - Sj) with ((k_high (K x j) - (1 + Rj)) + (1 + Rj - Sj)) by ring. eapply Rle_trans; [apply Rabs_triang|].
    assert (u * (1 + Rj) <= u * (1.001 * Sj)) by (apply Rmult_le_compat_l; lra). assert (0 <= u * Sj) by (apply Rmult_le_pos; lra). lra. }
  assert (T : exists v, is_I0 x v /\ 0 <= v - Sj <= 0.02 * u * Sj + 2e-31).
  { assert (PUS : 0 <= u * Sj) by (apply Rmult_le_pos; lra). destruct C as [->|(i & -> & C)].
    - destruct (tail_at x 34) as (v & V1 & V2); [intros k Hk; apply bt_half; auto; lia|]. exists v. split; [exact V1|]. pose proof (bt_34 x Hx). fold Sj in V2. lra.
    - pose proof (K_stop emin prec Hp He x i ltac:(lia) C) as Q. rewrite absum_Vq in Q. pose proof (Vq_err emin prec Hp He x (S i) Hx Hj) as QE. pose proof (le_INR _ _ Hj) as HI. replace (INR 34) with 34 in HI by (cbn; lra).
      pose proof (Vq_pos x (S i)) as QP. rewrite Rabs_pos_eq in Q by exact QP. assert (RR : Rsum (map (Vq x) (seq 1 i)) <= Rj) by (unfold Rj; rewrite seq_S, map_app; cbn [map Nat.add]; rewrite Rsum_snoc; lra).
      set (b := bessel_term x (S i)) in *. set (q := Vq x (S i)) in *. pose proof (bessel_pos x (S i)) as PB. fold b in PB.
      assert (Q2 : q <= 3.2 * (u * (u * Sj))).
      { eapply Rle_trans; [exact Q|]. assert (u * u * (1 + Rsum (map (Vq x) (seq 1 i))) <= u * u * (1.001 * Sj)) by (apply Rmult_le_compat_l; [apply Rmult_le_pos; lra|lra]). assert (0 <= u * (u * Sj)) by (apply Rmult_le_pos; lra). lra. }
      assert (Q3 : u * (u * Sj) <= 1e-6 * (u * Sj)) by (apply Rmult_le_compat_r; lra).
      assert (Q4 : (6 * INR (S i) + 2) * u * b <= 0.001 * b). { apply Rmult_le_compat_r; [exact PB|]. assert (INR (S i) * u <= 34 * u) by (apply Rmult_le_compat_r; lra). lra. }
      apply Rabs_le_inv in QE. assert (B : b <= 0.019 * u * Sj) by (assert (u * 1 <= u * Sj) by (apply Rmult_le_compat_l; lra); lra).
      assert (B9 : b <= 0.9). { pose proof (S_bound x (S i) Hx Hj) as SB. fold Sj in SB. assert (u * Sj <= 1e-6 * 2e9) by (apply Rmult_le_compat; lra). assert (u * (u * Sj) <= 1e-6 * (1e-6 * 2e9)) by (apply Rmult_le_compat; lra). lra. }
      destruct (tail_at x (S i) (bt_small x (S i) Hx B9)) as (v & V1 & V2). exists v. split; [exact V1|]. fold Sj b in V2. lra. }
  destruct T as (v & V1 & V2). exists v. split; [exact V1|]. replace (k_high (K x j) - v) with ((k_high (K x j) - Sj) - (v - Sj)) by ring.
  apply Rabs_le_inv in D. assert (u * Sj <= u * v) by (apply Rmult_le_compat_l; lra). apply Rabs_le. assert (0 <= u * Sj) by (apply Rmult_le_pos; lra). lra.
Qed.
End I0R.

Section I0R.
Context (emin prec : Z) (Hp : (20 <= prec)%Z) (He : (emin <= - prec - 110)%Z).
Notation rnd := (FLTrnd emin prec).
Notation u := (ulp_u prec).
Notation e := (bpow radix2 (emin - 1)).
Notation F := (FLTfmt emin prec).

Notation Vq := (Vq emin prec).
Notation K := (K emin prec).
Lemma rnd_between a b x : F a -> F b -> a <= x <= b -> a <= rnd x <= b.
Proof. intros Ha Hb H. rewrite <- (fmt_id emin prec a Ha) at 1. rewrite <- (fmt_id emin prec b Hb). split; apply rnd_mono; try exact Hp; lra. Qed.
Lemma fZ k : (Z.abs k <= 2)%Z -> F (IZR k).
Proof. intros H. apply fmt_Z; auto. pose proof (Z.pow_le_mono_r 2 20 prec). lia. Qed.
Lemma arg_range n N : (2 <= N)%Z -> (N <= 2 ^ prec)%Z -> (0 <= n < N)%Z -> 0 <= kaiser_arg (Fn rnd) n N <= 1 /\ Rabs (kaiser_arg (Fn rnd) n N - (1 - kq n N * kq n N)) <= 8.01 * u.
Proof.
  intros H1 H2 H3. pose proof (u_range prec Hp) as U. pose proof (e_range emin prec He) as E0.
  assert (F2 : rnd (IZR (2 * n)) = IZR (2 * n)).
  { apply (fmt_id emin prec). apply generic_format_FLT. exists (Float radix2 n 1); [unfold F2R; cbn [Fnum Fexp]; rewrite mult_IZR; change (bpow radix2 1) with 2; ring|cbn [Fnum]; change (radix2 : Z) with 2%Z; lia|cbn [Fexp]; lia]. }
  unfold kaiser_arg. cbn [nsub ndiv nmul nofZ n1 Fn]. rewrite F2, (fmt_id emin prec (IZR (N - 1))) by (apply fmt_Z; auto; lia).
  assert (PN : 1 <= IZR (N - 1)) by (apply IZR_le; lia). assert (Pn : 0 <= IZR n <= IZR (N - 1)) by (split; apply IZR_le; lia). rewrite mult_IZR.
  assert (R : 0 <= 2 * IZR n / IZR (N - 1) <= 2).
  { unfold Rdiv. split; [apply Rmult_le_pos; [lra|apply Rlt_le, Rinv_0_lt_compat; lra]|]. apply (Rmult_le_reg_r (IZR (N - 1))); [lra|]. rewrite Rmult_assoc, Rinv_l by lra. lra. }
  unfold kq. set (r := 2 * IZR n / IZR (N - 1)) in *. pose proof (rnd_err emin prec Hp r) as E1. pose proof (rnd_between 0 2 r (fZ 0 ltac:(lia)) (fZ 2 ltac:(lia)) R) as R1. rewrite (Rabs_pos_eq r) in E1 by lra. set (rh := rnd r) in *.
  pose proof (rnd_err emin prec Hp (rh - 1)) as E2. pose proof (rnd_between (-1) 1 (rh - 1) (fZ (-1) ltac:(lia)) (fZ 1 ltac:(lia)) ltac:(lra)) as R2. set (q := rnd (rh - 1)) in *.
  assert (A2 : Rabs (rh - 1) <= 1) by (apply Rabs_le; lra). assert (u * Rabs (rh - 1) <= u * 1) by (apply Rmult_le_compat_l; lra). assert (u * r <= u * 2) by (apply Rmult_le_compat_l; lra).
  apply Rabs_le_inv in E1. apply Rabs_le_inv in E2. assert (Q : - (3 * u + 2 * e) <= q - (r - 1) <= 3 * u + 2 * e) by lra.
  assert (Rq : 0 <= q * q <= 1) by nra. pose proof (rnd_err emin prec Hp (q * q)) as E3. pose proof (rnd_between 0 1 (q * q) (fZ 0 ltac:(lia)) (fZ 1 ltac:(lia)) Rq) as R3. rewrite (Rabs_pos_eq (q * q)) in E3 by lra. set (c := rnd (q * q)) in *.
  assert (u * (q * q) <= u * 1) by (apply Rmult_le_compat_l; lra). apply Rabs_le_inv in E3.
  pose proof (rnd_err emin prec Hp (1 - c)) as E4. pose proof (rnd_between 0 1 (1 - c) (fZ 0 ltac:(lia)) (fZ 1 ltac:(lia)) ltac:(lra)) as R4. rewrite (Rabs_pos_eq (1 - c)) in E4 by lra.
  split; [exact R4|]. assert (u * (1 - c) <= u * 1) by (apply Rmult_le_compat_l; lra). apply Rabs_le_inv in E4.
  set (g := r - 1) in *. assert (G : -1 <= g <= 1) by (unfold g; lra).
  assert (QQ : - (2 * (3 * u + 2 * e)) <= q * q - g * g <= 2 * (3 * u + 2 * e)).
  { apply Rabs_le_inv. replace (q * q - g * g) with ((q + g) * (q - g)) by ring. rewrite Rabs_mult. apply Rmult_le_compat; try apply Rabs_pos; apply Rabs_le; lra. }
  apply Rabs_le. lra.
Qed.
Lemma sqrt_sq y Y : 0 <= y <= 1 -> Rabs (y - Y) <= 8.01 * u -> 0 <= rnd (sqrt y) <= 1 /\ Rabs (rnd (sqrt y) * rnd (sqrt y) - Y) <= 10.2 * u.
Proof.
  intros Hy HY. pose proof (u_range prec Hp) as U. pose proof (e_range emin prec He) as E0.
  assert (S : 0 <= sqrt y <= 1) by (split; [apply sqrt_pos|rewrite <- sqrt_1; apply sqrt_le_1_alt; lra]).
  pose proof (rnd_between 0 1 (sqrt y) (fZ 0 ltac:(lia)) (fZ 1 ltac:(lia)) S) as R. split; [exact R|].
  pose proof (rnd_err emin prec Hp (sqrt y)) as E. rewrite (Rabs_pos_eq (sqrt y)) in E by lra. assert (u * sqrt y <= u * 1) by (apply Rmult_le_compat_l; lra).
  set (s := rnd (sqrt y)) in *. assert (Q : y = sqrt y * sqrt y) by (rewrite sqrt_sqrt; lra).
  assert (D : Rabs (s * s - y) <= (u + e) * 2). { replace (s * s - y) with (s * s - sqrt y * sqrt y) by lra. replace (s * s - sqrt y * sqrt y) with ((s - sqrt y) * (s + sqrt y)) by ring. rewrite Rabs_mult. apply Rmult_le_compat; try apply Rabs_pos; [lra|apply Rabs_le; lra]. }
  replace (s * s - Y) with ((s * s - y) + (y - Y)) by ring. eapply Rle_trans; [apply Rabs_triang|]. lra.
Qed.
Lemma pi_rnd : (prec <= 64)%Z -> Rabs (Pi (Fn rnd) - PI) <= 3.15 * u.
Proof.
  intros H64. pose proof (u_range prec Hp) as U. pose proof (e_range emin prec He) as E0.
  assert (UL : 1e-20 <= u). { unfold ulp_u. apply Rle_trans with (bpow radix2 (-64)); [|apply bpow_le; lia]. replace (bpow radix2 (-64)) with (/ IZR 18446744073709551616) by reflexivity. interval. }
  unfold Pi. cbn [nlit Fn]. pose proof (rnd_err emin prec Hp Pi_lit) as E. 
  assert (L : Rabs (Pi_lit - PI) <= 1e-30) by (unfold Pi_lit; interval with (i_prec 200)).
  assert (P : Rabs Pi_lit <= 3.1416) by (unfold Pi_lit; interval).
  replace (rnd Pi_lit - PI) with ((rnd Pi_lit - Pi_lit) + (Pi_lit - PI)) by ring. eapply Rle_trans; [apply Rabs_triang|]. assert (u * Rabs Pi_lit <= u * 3.1416) by (apply Rmult_le_compat_l; lra). lra.
Qed.
Lemma I0_ex x : Rabs x <= 9.5 -> exists v, is_I0 x v.
Proof. intros H. destruct (i0_round emin prec Hp He x H) as (v & V & _). exists v. exact V. Qed.
(** two arguments *)
Lemma I0_two x y v w M : is_I0 x v -> is_I0 y w -> v <= M -> w <= M -> Rabs (v - w) <= Rabs (x * x - y * y) / 4 * M.
Proof.
  intros A B Hv Hw. pose proof (I0_ge1 x v A). pose proof (I0_ge1 y w B). pose proof (Rabs_pos (x * x - y * y)).
  destruct (Rle_dec (Rabs x) (Rabs y)) as [L|L].
  - pose proof (I0_lip x y v w L A B). pose proof (I0_mono x y v w L A B). rewrite Rabs_left1 by lra. pose proof (RRle_abs (- (x * x - y * y))) as Q. rewrite Rabs_Ropp in Q.
    assert ((y * y / 4 - x * x / 4) * w <= Rabs (x * x - y * y) / 4 * M); [|lra].
    apply Rle_trans with (Rabs (x * x - y * y) / 4 * w); [apply Rmult_le_compat_r; lra|apply Rmult_le_compat_l; lra].
  - assert (L' : Rabs y <= Rabs x) by lra. pose proof (I0_lip y x w v L' B A). pose proof (I0_mono y x w v L' B A). rewrite Rabs_pos_eq by lra. pose proof (RRle_abs (x * x - y * y)) as Q.
    assert ((x * x / 4 - y * y / 4) * v <= Rabs (x * x - y * y) / 4 * M); [|lra].
    apply Rle_trans with (Rabs (x * x - y * y) / 4 * v); [apply Rmult_le_compat_r; lra|apply Rmult_le_compat_l; lra].
Qed.
Lemma quot (A B X M : R) : 0 < X <= M -> Rabs (A - X) <= 399.6 * u * M -> Rabs (B - M) <= 128.3 * u * M -> Rabs (rnd (A / B) - X / M) <= 530 * u.
Proof.
  intros HX HA HB. pose proof (u_range prec Hp) as U. pose proof (e_range emin prec He) as E0. assert (PM : 0 < M) by lra.
  assert (UM : 0 <= u * M <= 1e-6 * M) by (split; [apply Rmult_le_pos; lra|apply Rmult_le_compat_r; lra]).
  assert (PB : 0.999 * M <= B) by (apply Rabs_le_inv in HB; lra).
  assert (W : 0 < X / M <= 1) by (split; [apply Rdiv_lt_0_compat; lra|apply (Rmult_le_reg_r M); [lra|]; unfold Rdiv; rewrite Rmult_assoc, Rinv_l by lra; lra]).
  assert (D : Rabs (A / B - X / M) <= 528.5 * u).
  { replace (A / B - X / M) with (((A - X) - X / M * (B - M)) * / B) by (field; lra). rewrite Rabs_mult, Rabs_inv, (Rabs_pos_eq B) by lra.
    apply (Rmult_le_reg_r B); [lra|]. rewrite Rmult_assoc, Rinv_l, Rmult_1_r by lra. apply Rle_trans with (527.9 * u * M).
    - unfold Rminus at 1. eapply Rle_trans; [apply Rabs_triang|]. rewrite Rabs_Ropp, Rabs_mult, (Rabs_pos_eq (X / M)) by lra.
      assert (X / M * Rabs (B - M) <= 1 * (128.3 * u * M)) by (apply Rmult_le_compat; try apply Rabs_pos; lra). lra.
    - apply Rle_trans with (528.5 * u * (0.999 * M)); [lra|]. apply Rmult_le_compat_l; lra. }
  pose proof (rnd_err emin prec Hp (A / B)) as E. set (q := A / B) in *. set (w := X / M) in *. assert (Q : Rabs q <= 1.001) by (replace q with (w + (q - w)) by ring; eapply Rle_trans; [apply Rabs_triang|]; rewrite (Rabs_pos_eq w) by lra; lra).
  assert (u * Rabs q <= u * 1.001) by (apply Rmult_le_compat_l; lra). replace (rnd q - w) with ((rnd q - q) + (q - w)) by ring. eapply Rle_trans; [apply Rabs_triang|]. lra.
Qed.
Lemma kaiser_round a n N : (prec <= 64)%Z -> Rabs a <= 3 -> wdom n N -> (N <= 2 ^ prec)%Z ->
  exists v x m, win_kaiser (Fn rnd) a n N = Ok v /\ is_I0 (PI * a * sqrt (1 - kq n N * kq n N)) x /\ is_I0 (PI * a) m /\ Rabs (v - x / m) <= 530 * u.
Proof.
  intros H64 Ha Hd HN. pose proof (u_range prec Hp) as U. pose proof (e_range emin prec He) as E0.
  assert (UL : 1e-20 <= u). { unfold ulp_u. apply Rle_trans with (bpow radix2 (-64)); [|apply bpow_le; lia]. replace (bpow radix2 (-64)) with (/ IZR 18446744073709551616) by reflexivity. interval. }
  pose proof (kq_range n N Hd) as KQ. assert (Hd' := Hd). destruct Hd' as (D1 & D2 & D3). destruct (arg_range n N D1 HN D2) as (AR & AE).
  set (Y := 1 - kq n N * kq n N) in *. assert (PY : 0 <= Y <= 1) by (unfold Y; nra). set (y := kaiser_arg (Fn rnd) n N) in *.
  destruct (sqrt_sq y Y AR AE) as (SR & SE). pose proof (pi_rnd H64) as PE. set (p := Pi (Fn rnd)) in *. assert (P3 : 3.1415 <= PI <= 3.1416) by (split; interval).
  set (A := PI * a). set (Ah := rnd (p * a)). set (s := rnd (sqrt y)) in *. set (xh := rnd (Ah * s)).
  assert (BA : Rabs A <= 9.4248) by (unfold A; rewrite Rabs_mult, (Rabs_pos_eq PI) by lra; pose proof (Rabs_pos a); assert (PI * Rabs a <= 3.1416 * 3) by (apply Rmult_le_compat; lra); lra).
  assert (EA : Rabs (Ah - A) <= 19 * u).
  { pose proof (rnd_err emin prec Hp (p * a)) as E. fold Ah in E. assert (E1 : Rabs (p * a - A) <= 3.15 * u * 3) by (unfold A; replace (p * a - PI * a) with ((p - PI) * a) by ring; rewrite Rabs_mult; apply Rmult_le_compat; try apply Rabs_pos; lra).
    assert (E2 : Rabs (p * a) <= 9.43) by (replace (p * a) with (A + (p * a - A)) by ring; eapply Rle_trans; [apply Rabs_triang|]; lra). assert (u * Rabs (p * a) <= u * 9.43) by (apply Rmult_le_compat_l; lra).
    replace (Ah - A) with ((Ah - p * a) + (p * a - A)) by ring. eapply Rle_trans; [apply Rabs_triang|]. lra. }
  assert (BAh : Rabs Ah <= 9.425) by (replace Ah with (A + (Ah - A)) by ring; eapply Rle_trans; [apply Rabs_triang|]; lra).
  assert (Bas : Rabs (Ah * s) <= Rabs Ah) by (rewrite Rabs_mult, (Rabs_pos_eq s) by lra; pose proof (Rabs_pos Ah); rewrite <- (Rmult_1_r (Rabs Ah)) at 2; apply Rmult_le_compat_l; lra).
  assert (Bx : Rabs xh <= Rabs Ah).
  { assert (FA : F (Rabs Ah)) by (apply generic_format_abs; apply rnd_fmt; exact Hp). apply Rabs_le. apply rnd_between; [apply generic_format_opp; exact FA|exact FA|]. apply Rabs_le_inv. exact Bas. }
  assert (Ex : Rabs (xh - Ah * s) <= 9.43 * u).
  { pose proof (rnd_err emin prec Hp (Ah * s)) as E. fold xh in E. assert (u * Rabs (Ah * s) <= u * 9.425) by (apply Rmult_le_compat_l; lra). lra. }
  set (X := A * sqrt Y). assert (SY : sqrt Y * sqrt Y = Y) by (apply sqrt_sqrt; lra). assert (SY1 : 0 <= sqrt Y <= 1) by (split; [apply sqrt_pos|rewrite <- sqrt_1; apply sqrt_le_1_alt; lra]).
  assert (BX : Rabs X <= Rabs A) by (unfold X; rewrite Rabs_mult, (Rabs_pos_eq (sqrt Y)) by lra; pose proof (Rabs_pos A); rewrite <- (Rmult_1_r (Rabs A)) at 2; apply Rmult_le_compat_l; lra).
  assert (SA : Rabs (Ah * Ah - A * A) <= 19 * u * 18.85).
  { replace (Ah * Ah - A * A) with ((Ah - A) * (Ah + A)) by ring. rewrite Rabs_mult. apply Rmult_le_compat; try apply Rabs_pos; [exact EA|]. eapply Rle_trans; [apply Rabs_triang|]. lra. }
  assert (SX : Rabs (xh * xh - X * X) <= 1444 * u).
  { replace (X * X) with (A * A * Y) by (unfold X; rewrite <- SY at 1; ring).
    replace (xh * xh - A * A * Y) with ((xh - Ah * s) * (xh + Ah * s) + (Ah * Ah) * (s * s - Y) + Y * (Ah * Ah - A * A)) by ring.
    eapply Rle_trans; [apply Rabs_triang|]. eapply Rle_trans; [apply Rplus_le_compat_r; apply Rabs_triang|]. rewrite !(Rabs_mult (xh - Ah * s)), (Rabs_mult (Ah * Ah)), (Rabs_mult Y), (Rabs_pos_eq Y) by lra.
    assert (T1 : Rabs (xh - Ah * s) * Rabs (xh + Ah * s) <= 9.43 * u * 18.85) by (apply Rmult_le_compat; try apply Rabs_pos; [exact Ex|]; eapply Rle_trans; [apply Rabs_triang|]; lra).
    assert (T2 : Rabs (Ah * Ah) * Rabs (s * s - Y) <= 9.425 * 9.425 * (10.2 * u)) by (apply Rmult_le_compat; try apply Rabs_pos; [rewrite Rabs_mult; apply Rmult_le_compat; try apply Rabs_pos; exact BAh|exact SE]).
    assert (T3 : Y * Rabs (Ah * Ah - A * A) <= 1 * (19 * u * 18.85)) by (apply Rmult_le_compat; try apply Rabs_pos; lra). lra. }
  destruct (i0_round emin prec Hp He xh ltac:(lra)) as (vx & Vx & Ix). destruct (i0_round emin prec Hp He Ah ltac:(lra)) as (va & Va & Ia).
  destruct (I0_ex X ltac:(lra)) as (x & VX). destruct (I0_ex A ltac:(lra)) as (m & VA).
  pose proof (I0_ge1 _ _ Vx) as G1. pose proof (I0_ge1 _ _ Va) as G2. pose proof (I0_ge1 _ _ VX) as G3. pose proof (I0_ge1 _ _ VA) as G4.
  pose proof (I0_mono _ _ _ _ Bx Vx Va) as M1. pose proof (I0_mono _ _ _ _ BX VX VA) as M2.
  assert (Am : va <= 1.001 * m).
  { pose proof (I0_two _ _ _ _ (Rmax va m) Va VA (Rmax_l _ _) (Rmax_r _ _)) as T. unfold Rmax in T. destruct (Rle_dec va m); [lra|]. apply Rabs_le_inv in T.
    assert (Rabs (Ah * Ah - A * A) / 4 * va <= 0.0009 * va) by (apply Rmult_le_compat_r; lra). lra. }
  assert (DA : Rabs (va - m) <= 90 * u * m).
  { pose proof (I0_two _ _ _ _ (1.001 * m) Va VA Am ltac:(lra)) as T. eapply Rle_trans; [exact T|]. apply Rle_trans with (19 * u * 18.85 / 4 * (1.001 * m)); [apply Rmult_le_compat_r; lra|]. assert (0 <= u * m) by (apply Rmult_le_pos; lra). lra. }
  assert (DX : Rabs (vx - x) <= 361.4 * u * m).
  { pose proof (I0_two _ _ _ _ (1.001 * m) Vx VX ltac:(lra) ltac:(lra)) as T. eapply Rle_trans; [exact T|]. apply Rle_trans with (1444 * u / 4 * (1.001 * m)); [apply Rmult_le_compat_r; lra|]. assert (0 <= u * m) by (apply Rmult_le_pos; lra). lra. }
  exists (rnd (i0 (Fn rnd) xh / i0 (Fn rnd) Ah)), x, m. split; [|split; [exact VX|split; [exact VA|]]].
  - wd Hd. unfold win_kaiser. rewrite !ichk_ok by (unfold INT_MIN, INT_MAX; lia). reflexivity.
  - assert (Um : 0 <= u * m) by (apply Rmult_le_pos; lra). assert (Um1 : u * 1 <= u * m) by (apply Rmult_le_compat_l; lra).
    assert (Ux : u * vx <= u * (1.001 * m)) by (apply Rmult_le_compat_l; lra). assert (Ua : u * va <= u * (1.001 * m)) by (apply Rmult_le_compat_l; lra).
    apply quot; [lra| |].
    + replace (i0 (Fn rnd) xh - x) with ((i0 (Fn rnd) xh - vx) + (vx - x)) by ring. eapply Rle_trans; [apply Rabs_triang|]. lra.
    + replace (i0 (Fn rnd) Ah - m) with ((i0 (Fn rnd) Ah - va) + (va - m)) by ring. eapply Rle_trans; [apply Rabs_triang|]. lra.
Qed.
End I0R.
