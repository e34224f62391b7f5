(* ldexp, exp10, decibel *)
From Coq Require Import Reals ZArith Lia Lra Bool.
From Coquelicot Require Import Coquelicot.
From Interval Require Import Tactic.
From Flocq Require Import Core.
From Verif Require Import Proofs.BaseLemmas Model.Exp.
Open Scope R_scope.

Lemma shl1_lt a : (0 <= a <= 30)%Z -> shl1 a = Ok (2 ^ a)%Z.
Proof.
  intros H. unfold shl1. destruct (Z.ltb_spec a 0), (Z.leb_spec 32 a), (Z.eqb_spec a 31); cbn; auto; lia.
Qed.
Lemma shl1_31 : shl1 31 = Ok INT_MIN. Proof. reflexivity. Qed.
Lemma shl1_big a : (32 <= a)%Z -> shl1 a = Undefined.
Proof. intros H. unfold shl1. destruct (Z.ltb_spec a 0), (Z.leb_spec 32 a); cbn; auto; lia. Qed.

Lemma ldexp_ok x n : (Z.abs n <= 255)%Z -> ldexp Rn x n = Ok (x * bpow radix2 n).
Proof.
  intros H. unfold ldexp. set (a := Z.abs n) in *.
  assert (E : (if (n <? 0)%Z then ichk (- n) else Ok n) = Ok a).
  { destruct (Z.ltb_spec n 0); [|f_equal; lia]. unfold ichk, int_ok, INT_MIN, INT_MAX. destruct (Z.leb_spec (-2147483648) (-n)), (Z.leb_spec (-n) 2147483647); cbn; try lia. f_equal; lia. }
  rewrite E. cbn [bind]. assert (A0 : (0 <= a)%Z) by lia. rewrite Z.quot_div_nonneg by lia. set (q := (a / 8)%Z).
  assert (Q : (0 <= q <= 31)%Z) by (unfold q; split; [apply Z.div_pos; lia|assert (a / 8 < 32)%Z by (apply Z.div_lt_upper_bound; lia); lia]).
  set (r := (a - q * 8)%Z). assert (Rr : (0 <= r <= 7)%Z) by (unfold r, q; pose proof (Z.div_mod a 8); pose proof (Z.mod_pos_bound a 8); lia).
  assert (P : forall z, (0 <= z)%Z -> IZR (2 ^ z) = bpow radix2 z) by (intros; rewrite <- IZR_Zpower by auto; reflexivity).
  assert (T : exists t0, shl1 q = Ok t0 /\ IZR t0 * IZR t0 = bpow radix2 (2 * q)).
  { destruct (Z.eq_dec q 31) as [->|].
    - exists INT_MIN. split; auto. rewrite <- mult_IZR. change (INT_MIN * INT_MIN)%Z with (2 ^ 62)%Z. apply P. lia.
    - exists (2 ^ q)%Z. split; [apply shl1_lt; lia|]. rewrite P by lia. rewrite <- bpow_plus. f_equal. lia. }
  destruct T as (t0 & -> & T). cbn [bind nmul ndiv nofZ Rn]. rewrite shl1_lt by lia. cbn [bind]. rewrite T, P by lia.
  rewrite <- !bpow_plus. replace (2 * q + 2 * q + (2 * q + 2 * q) + r)%Z with a by lia. f_equal. destruct (Z.ltb_spec n 0).
  - unfold Rdiv. rewrite <- bpow_opp. do 2 f_equal. lia.
  - do 2 f_equal. lia.
Qed.
Lemma ldexp_undefined x n : (256 <= Z.abs n)%Z -> (INT_MIN <= n <= INT_MAX)%Z -> ldexp Rn x n = Undefined.
Proof.
  intros H HI. unfold ldexp. destruct (Z.ltb_spec n 0) as [L|L].
  - unfold ichk, int_ok. destruct (INT_MIN <=? - n)%Z eqn:E1, (- n <=? INT_MAX)%Z eqn:E2; cbn [bind andb]; auto.
    rewrite Z.quot_div_nonneg, shl1_big; auto; try lia. apply Z.div_le_lower_bound; lia.
  - cbn [bind]. rewrite Z.quot_div_nonneg, shl1_big; auto; try lia. apply Z.div_le_lower_bound; lia.
Qed.

Lemma pade_acc r : Rabs r <= 0.1506 ->
  let py := r * (r*r * (r*r * (r*r * ex_P0 + ex_P1) + ex_P2) + ex_P3) in
  let qy := r*r * (r*r * (r*r + ex_Q0) + ex_Q1) + ex_Q2 in
  Rabs (1 + 2 * py / (qy - py) - exp (r * ln 10)) <= 1e-16.
Proof.
  intros H. apply Rabs_le_inv in H. cbv zeta. unfold ex_P0, ex_P1, ex_P2, ex_P3, ex_Q0, ex_Q1, ex_Q2.
  interval with (i_taylor r, i_bisect r, i_degree 14, i_prec 100).
Qed.

Lemma bpow_exp k : bpow radix2 k = exp (IZR k * ln 2).
Proof. rewrite bpow_powerRZ. change (IZR radix2) with 2. rewrite powerRZ_Rpower by lra. reflexivity. Qed.

Lemma exp10_acc rint x : (forall z, Rabs (IZR (rint z) - z) <= 1/2) -> Rabs x <= 76.9 ->
  exists v, exp10 Rn rint x = Ok v /\ Rabs (v - Rpower 10 x) <= 2e-16 * Rpower 10 x.
Proof.
  intros Hr Hx. unfold exp10. cbn [nmul nsub nadd ndiv nofZ nlit n1 Rn]. set (k := rint (x * ex_LOG210)).
  pose proof (Hr (x * ex_LOG210)) as K. fold k in K. apply Rabs_le_inv in K, Hx.
  set (r := x - IZR k * ex_LG102A - IZR k * ex_LG102B).
  assert (Kb : Rabs (IZR k) < 256).
  { unfold ex_LOG210 in K. apply Rabs_lt. lra. }
  assert (Kz : (Z.abs k <= 255)%Z).
  { rewrite <- abs_IZR in Kb. apply lt_IZR in Kb. lia. }
  assert (Rb : Rabs r <= 0.1506).
  { unfold r, ex_LG102A, ex_LG102B. unfold ex_LOG210 in K. apply Rabs_lt_inv in Kb. apply Rabs_le. lra. }
  assert (I : ichk k = Ok k).
  { unfold ichk, int_ok, INT_MIN, INT_MAX. destruct (Z.leb_spec (-2147483648) k), (Z.leb_spec k 2147483647); cbn; auto; lia. }
  rewrite I. cbn [bind]. rewrite ldexp_ok by auto. eexists. split; [reflexivity|].
  pose proof (pade_acc r Rb) as P. cbv zeta in P. set (pq := 1 + _) in *. clearbody pq.
  set (d := x * ln 10 - IZR k * ln 2 - r * ln 10).
  assert (D : Rabs d <= 1e-20).
  { unfold d, r. replace (x * ln 10 - IZR k * ln 2 - (x - IZR k * ex_LG102A - IZR k * ex_LG102B) * ln 10) with (IZR k * ((ex_LG102A + ex_LG102B) * ln 10 - ln 2)) by ring.
    rewrite Rabs_mult. apply Rle_trans with (256 * 1e-23); [|lra]. apply Rmult_le_compat; try apply Rabs_pos; [lra|]. unfold ex_LG102A, ex_LG102B. interval with (i_prec 150). }
  assert (X : Rpower 10 x = bpow radix2 k * (exp (r * ln 10) * exp d)).
  { rewrite bpow_exp, <- !exp_plus. unfold Rpower. f_equal. unfold d. ring. }
  rewrite X. set (b := bpow radix2 k). assert (B : 0 < b) by apply bpow_gt_0.
  replace (pq * b - b * (exp (r * ln 10) * exp d)) with (b * (pq - exp (r * ln 10) * exp d)) by ring.
  rewrite Rabs_mult, (Rabs_pos_eq b) by lra. replace (2e-16 * (b * (exp (r * ln 10) * exp d))) with (b * (2e-16 * (exp (r * ln 10) * exp d))) by ring.
  apply Rmult_le_compat_l; [lra|].
  assert (Ed : Rabs (exp d - 1) <= 2e-20) by (apply Rabs_le_inv in D; interval with (i_taylor d, i_prec 100)).
  assert (Er : 0.7 <= exp (r * ln 10) <= 1.5) by (apply Rabs_le_inv in Rb; interval).
  set (e := exp (r * ln 10)) in *. clearbody e. set (f := exp d) in *. clearbody f.
  apply Rabs_le_inv in P, Ed. apply Rabs_le. split; nra.
Qed.

(** decibel *)
Lemma iter_sqrt n v : 0 < v -> Nat.iter n sqrt v = exp (ln v / 2 ^ n).
Proof.
  intros H. induction n as [|n IH].
  - cbn. unfold Rdiv. rewrite Rinv_1, Rmult_1_r, exp_ln; auto.
  - change (Nat.iter (S n) sqrt v) with (sqrt (Nat.iter n sqrt v)). rewrite IH.
    rewrite <- (sqrt_square (exp (ln v / 2 ^ S n))) by (left; apply exp_pos). f_equal. rewrite <- exp_plus. f_equal.
    cbn [pow]. field. apply pow_nonzero. lra.
Qed.

Definition Pser (y : R) : R := y + y^3/3 + y^5/5 + y^7/7 + y^9/9 + y^11/11 + y^13/13.
Definition db_y (v : R) : R := (exp (ln v / 1024) - 1) / (exp (ln v / 1024) + 1).
Lemma decibel_eq v : 0 < v -> decibel Rn v = db_scale * Pser (db_y v).
Proof.
  intros H. unfold decibel, db_inv. cbn [nmul nsub nadd ndiv nofZ nlit n1 nsqrt Rn]. rewrite iter_sqrt by auto.
  replace (2 ^ 10) with 1024 by (cbn; ring). fold (db_y v). unfold Pser. field.
Qed.
Lemma db_y_range v : -1 < db_y v < 1.
Proof.
  unfold db_y. set (x := exp _). assert (0 < x) by apply exp_pos.
  split; apply (Rmult_lt_reg_r (x + 1)); try lra; unfold Rdiv; rewrite Rmult_assoc, Rinv_l; lra.
Qed.
Lemma db_y_ln v : ln v = 1024 * ln ((1 + db_y v) / (1 - db_y v)).
Proof.
  unfold db_y. set (x := exp (ln v / 1024)). assert (P : 0 < x) by apply exp_pos.
  replace ((1 + (x - 1) / (x + 1)) / (1 - (x - 1) / (x + 1))) with x by (field; lra).
  unfold x. rewrite ln_exp. field.
Qed.
Lemma db_y_incr v w : 0 < v < w -> db_y v < db_y w.
Proof.
  intros H. unfold db_y. assert (E : exp (ln v / 1024) < exp (ln w / 1024)) by (apply exp_increasing; assert (ln v < ln w) by (apply ln_increasing; lra); lra).
  pose proof (exp_pos (ln v / 1024)). set (a := exp (ln v / 1024)) in *. set (b := exp (ln w / 1024)) in *. clearbody a b.
  replace ((a - 1) / (a + 1)) with (1 - 2 / (a + 1)) by (field; lra). replace ((b - 1) / (b + 1)) with (1 - 2 / (b + 1)) by (field; lra).
  assert (2 / (b + 1) < 2 / (a + 1)); [|lra]. unfold Rdiv. apply Rmult_lt_compat_l; [lra|]. apply Rinv_lt_contravar; nra.
Qed.
Lemma pow_odd_incr k a b : a < b -> a ^ (2 * k + 1) < b ^ (2 * k + 1).
Proof.
  intros H. assert (P : forall a b, 0 <= a < b -> a ^ (2 * k + 1) < b ^ (2 * k + 1)).
  { clear. intros a b [H0 H]. destruct H0 as [H0|<-].
    - replace (2 * k + 1)%nat with (S (2 * k)) by lia. induction (2 * k)%nat; cbn in *; [lra|]. apply Rmult_le_0_lt_compat; try lra. cbn. apply Rmult_le_pos; [lra|]. apply pow_le; lra.
    - replace (2 * k + 1)%nat with (S (2 * k)) by lia. rewrite pow_i by lia. apply pow_lt; auto. }
  assert (O : forall x, (- x) ^ (2 * k + 1) = - x ^ (2 * k + 1)).
  { intros x. replace (2 * k + 1)%nat with (S (2 * k)) by lia. cbn [pow]. rewrite !pow_mult. replace ((- x) ^ 2) with (x ^ 2) by ring. ring. }
  destruct (Rle_dec 0 a) as [A|A]; [apply P; lra|]. destruct (Rle_dec b 0) as [B|B].
  - pose proof (P (- b) (- a) ltac:(lra)) as Q. rewrite !O in Q. lra.
  - pose proof (P 0 b ltac:(lra)) as Q. pose proof (P 0 (- a) ltac:(lra)) as Q'. rewrite O in Q'.
    replace (2 * k + 1)%nat with (S (2 * k)) in * by lia. rewrite pow_i in Q, Q' by lia. lra.
Qed.
Lemma Pser_incr a b : a < b -> Pser a < Pser b.
Proof.
  intros H. unfold Pser.
  pose proof (pow_odd_incr 1 a b H). pose proof (pow_odd_incr 2 a b H). pose proof (pow_odd_incr 3 a b H). pose proof (pow_odd_incr 4 a b H). pose proof (pow_odd_incr 5 a b H). pose proof (pow_odd_incr 6 a b H).
  cbn [Nat.mul Nat.add] in *. lra.
Qed.
Lemma Pser_odd y : Pser (- y) = - Pser y.
Proof. unfold Pser. field. Qed.
Lemma Pser_0 : Pser 0 = 0.
Proof. unfold Pser. field. Qed.

(** truncation error of the series *)
Definition artanh (y : R) : R := ln ((1 + y) / (1 - y)) / 2.
Lemma artanh_der y : -1 < y < 1 -> derivable_pt_lim artanh y (1 / (1 - y * y)).
Proof.
  intros H. apply is_derive_Reals. unfold artanh. auto_derive.
  - split; [lra|]. split; auto. apply Rdiv_lt_0_compat; lra.
  - field. split; [|split]; nra.
Qed.

Lemma series_tail y : 0 <= y < 1 -> 0 <= artanh y - Pser y <= y ^ 15 / (15 * (1 - y * y)).
Proof.
  intros [[H0|<-] H1].
  2:{ unfold artanh. rewrite Pser_0. replace ((1 + 0) / (1 - 0)) with 1 by field. rewrite ln_1. rewrite pow_i by lia. unfold Rdiv. rewrite !Rmult_0_l. lra. }
  assert (D : forall c, 0 <= c <= y -> derivable_pt_lim (fun t => artanh t - Pser t) c (c ^ 14 / (1 - c * c))).
  { intros c Hc. pose proof (artanh_der c ltac:(lra)) as A. apply is_derive_Reals in A. apply is_derive_Reals.
    replace (c ^ 14 / (1 - c * c)) with (minus (1 / (1 - c * c)) (1 + c^2 + c^4 + c^6 + c^8 + c^10 + c^12)).
    2:{ unfold minus, plus, opp. cbn -[pow]. field. nra. }
    apply is_derive_minus with (f := artanh) (g := Pser); auto. unfold Pser. auto_derive; auto. field. }
  assert (Z0 : artanh 0 - Pser 0 = 0).
  { unfold artanh. rewrite Pser_0. replace ((1 + 0) / (1 - 0)) with 1 by field. rewrite ln_1. field. }
  split.
  - destruct (MVT_cor2 _ _ 0 y H0 D) as (c & E & Hc). rewrite Z0 in E. rewrite Rminus_0_r in E. rewrite E.
    apply Rmult_le_pos; [|lra]. apply Rmult_le_pos; [apply pow_le; lra|]. apply Rlt_le, Rinv_0_lt_compat. nra.
  - assert (D' : forall c, 0 <= c <= y -> derivable_pt_lim (fun t => t ^ 15 / (15 * (1 - y * y)) - (artanh t - Pser t)) c (c ^ 14 / (1 - y * y) - c ^ 14 / (1 - c * c))).
    { intros c Hc. pose proof (D c Hc) as A. apply is_derive_Reals in A. apply is_derive_Reals.
      apply is_derive_minus with (f := fun t => t ^ 15 / (15 * (1 - y * y))) (g := fun t => artanh t - Pser t); auto.
      auto_derive; auto. field. nra. }
    destruct (MVT_cor2 _ _ 0 y H0 D') as (c & E & Hc). rewrite Z0 in E. rewrite pow_i in E by lia. unfold Rdiv at 2 in E. rewrite Rmult_0_l, !Rminus_0_r in E.
    assert (0 <= (c ^ 14 / (1 - y * y) - c ^ 14 / (1 - c * c)) * y); [|lra].
    apply Rmult_le_pos; [|lra]. unfold Rdiv. rewrite <- Rmult_minus_distr_l. apply Rmult_le_pos; [apply pow_le; lra|].
    assert (/ (1 - c * c) <= / (1 - y * y)); [|lra]. apply Rinv_le_contravar; nra.
Qed.

Lemma scale_acc : Rabs (db_scale - 20480 / ln 10) <= 1e-60.
Proof. unfold db_scale. interval with (i_prec 300). Qed.

Lemma decibel_ideal v : 0 < v -> 10 * (ln v / ln 10) = 20480 / ln 10 * artanh (db_y v).
Proof.
  intros H. rewrite (db_y_ln v) at 1. unfold artanh. field. apply Rgt_not_eq. rewrite <- ln_1. apply ln_increasing; lra.
Qed.
Lemma db_y_inv v : 0 < v -> db_y (/ v) = - db_y v.
Proof.
  intros H. unfold db_y. rewrite ln_Rinv by auto. replace (- ln v / 1024) with (- (ln v / 1024)) by field. rewrite exp_Ropp.
  pose proof (exp_pos (ln v / 1024)). field. split; lra.
Qed.
Lemma db_y_1 : db_y 1 = 0.
Proof. unfold db_y. rewrite ln_1. replace (0 / 1024) with 0 by field. rewrite exp_0. field. Qed.

Lemma decibel_acc_pos v L : 1 <= v -> ln v <= 1024 * L -> 0 <= L ->
  let y := (exp L - 1) / (exp L + 1) in
  Rabs (decibel Rn v - 10 * (ln v / ln 10)) <= 8895 * (y ^ 15 / (15 * (1 - y * y))) + 1e-59.
Proof.
  intros H HL L0 y. rewrite decibel_eq, decibel_ideal by lra.
  assert (Y0 : 0 <= db_y v).
  { destruct H as [H|<-]; [|rewrite db_y_1; lra]. rewrite <- db_y_1. left. apply db_y_incr. lra. }
  pose proof (db_y_range v) as Yr. pose proof (series_tail (db_y v) ltac:(lra)) as S.
  assert (Yy : db_y v <= y).
  { unfold db_y, y. set (a := exp (ln v / 1024)). assert (A : a <= exp L).
    { unfold a. destruct (Req_dec (ln v / 1024) L) as [->|N]; [lra|]. left. apply exp_increasing. lra. }
    assert (0 < a) by apply exp_pos. clearbody a. set (b := exp L) in *. clearbody b.
    replace ((a - 1) / (a + 1)) with (1 - 2 / (a + 1)) by (field; lra). replace ((b - 1) / (b + 1)) with (1 - 2 / (b + 1)) by (field; lra).
    assert (2 / (b + 1) <= 2 / (a + 1)); [|lra]. unfold Rdiv. apply Rmult_le_compat_l; [lra|]. apply Rinv_le_contravar; lra. }
  assert (Y1 : y < 1).
  { unfold y. pose proof (exp_pos L). apply (Rmult_lt_reg_r (exp L + 1)); [lra|]. unfold Rdiv. rewrite Rmult_assoc, Rinv_l; lra. }
  assert (T : db_y v ^ 15 / (15 * (1 - db_y v * db_y v)) <= y ^ 15 / (15 * (1 - y * y))).
  { unfold Rdiv. apply Rmult_le_compat.
    - apply pow_le; auto. - apply Rlt_le, Rinv_0_lt_compat. nra.
    - apply pow_incr; lra.
    - apply Rinv_le_contravar; nra. }
  assert (Ps : 0 <= Pser (db_y v) <= 2).
  { split. { rewrite <- Pser_0. destruct Y0 as [Y0|<-]; [|lra]. left. apply Pser_incr. auto. }
    apply Rle_trans with (Pser 1); [left; apply Pser_incr; lra|]. unfold Pser. cbn. lra. }
  pose proof scale_acc as A. apply Rabs_le_inv in A.
  assert (Sc : 8894 <= 20480 / ln 10 <= 8895) by interval.
  set (s := 20480 / ln 10) in *. set (E := y ^ 15 / (15 * (1 - y * y))) in *. set (p := Pser (db_y v)) in *. set (t := artanh (db_y v)) in *.
  replace (db_scale * p - s * t) with ((db_scale - s) * p - s * (t - p)) by ring. clearbody s E p t.
  assert (0 <= s * (t - p) <= 8895 * E) by (split; [apply Rmult_le_pos; lra|apply Rmult_le_compat; lra]).
  assert (- (1e-59) <= (db_scale - s) * p <= 1e-59) by (split; nra).
  apply Rabs_le. lra.
Qed.
Lemma decibel_inv v : 0 < v -> decibel Rn (/ v) = - decibel Rn v.
Proof. intros H. rewrite !decibel_eq by (auto; apply Rinv_0_lt_compat; auto). rewrite db_y_inv, Pser_odd by auto. ring. Qed.
Lemma decibel_acc v L E : 0 < v -> Rabs (ln v) <= 1024 * L -> 
  let y := (exp L - 1) / (exp L + 1) in 8895 * (y ^ 15 / (15 * (1 - y * y))) + 1e-59 <= E ->
  Rabs (decibel Rn v - 10 * (ln v / ln 10)) <= E.
Proof.
  intros H HL y HE. assert (L0 : 0 <= L) by (pose proof (Rabs_pos (ln v)); lra). apply Rabs_le_inv in HL.
  eapply Rle_trans; [|exact HE]. destruct (Rle_dec 1 v) as [V|V].
  - apply decibel_acc_pos; lra.
  - pose proof (decibel_acc_pos (/ v) L) as A. rewrite decibel_inv, ln_Rinv in A by auto. rewrite <- Rabs_Ropp.
    replace (- (decibel Rn v - 10 * (ln v / ln 10))) with (- decibel Rn v - 10 * (- ln v / ln 10)) by (field; apply Rgt_not_eq; rewrite <- ln_1; apply ln_increasing; lra).
    apply A; try lra. rewrite <- Rinv_1. apply Rinv_le_contravar; lra.
Qed.
Lemma decibel_incr v w : 0 < v < w -> decibel Rn v < decibel Rn w.
Proof.
  intros H. rewrite !decibel_eq by lra. apply Rmult_lt_compat_l; [unfold db_scale; lra|]. apply Pser_incr, db_y_incr; auto.
Qed.
Lemma decibel_1 : decibel Rn 1 = 0.
Proof. rewrite decibel_eq by lra. rewrite db_y_1, Pser_0. ring. Qed.
