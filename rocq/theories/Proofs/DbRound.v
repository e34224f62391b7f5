(* decibel in floating point *)
From Coq Require Import Reals ZArith Lia Lra Psatz.
From Flocq Require Import Core.
From Interval Require Import Tactic.
From Verif Require Import Spec.Rounding Model.Num Proofs.BaseLemmas Model.Exp Proofs.ExpProofs.
Open Scope R_scope.

Section Db.
Context (u e : R) (rnd : R -> R).
Hypothesis Hu : 0 < u <= 1 / 10000000.
Hypothesis He : 0 <= e <= u * 1e-20.
Hypothesis Hr : rounding u e rnd.

Lemma rnd_abs x b : Rabs x <= b -> 1e-15 <= b -> Rabs (rnd x - x) <= 1.0001 * u * b.
Proof. intros H Hb. eapply Rle_trans; [apply Hr|]. assert (u * Rabs x <= u * b) by (apply Rmult_le_compat_l; lra). assert (u * 1e-15 <= u * b) by (apply Rmult_le_compat_l; lra). lra. Qed.

Lemma sqrt_1d d : Rabs d <= 1e-3 -> Rabs (sqrt (1 + d) - 1) <= 0.501 * Rabs d.
Proof.
  intros H. apply Rabs_le_inv in H. assert (S : 0.999 <= sqrt (1 + d)). { rewrite <- (sqrt_square 0.999) by lra. apply sqrt_le_1_alt. lra. }
  assert (E : sqrt (1 + d) * sqrt (1 + d) = 1 + d) by (apply sqrt_sqrt; lra).
  replace (sqrt (1 + d) - 1) with (d * / (1 + sqrt (1 + d))) by (field_simplify_eq; [|lra]; lra). rewrite Rabs_mult, Rmult_comm. apply Rmult_le_compat_r; [apply Rabs_pos|].
  rewrite Rabs_pos_eq by (apply Rlt_le, Rinv_0_lt_compat; lra). apply Rle_trans with (/ 1.999); [apply Rinv_le_contravar; lra|lra].
Qed.
(** one rounded square root of Y(1+d) *)
Lemma sqrt_round Y d : 1e-30 <= Y -> Rabs d <= 2.01 * u -> exists d', rnd (sqrt (Y * (1 + d))) = sqrt Y * (1 + d') /\ Rabs d' <= 2.01 * u.
Proof.
  intros HY Hd. assert (Hd3 : Rabs d <= 1e-3) by lra. pose proof (sqrt_1d d Hd3) as S1. apply Rabs_le_inv in Hd3.
  rewrite sqrt_mult by lra. set (q := sqrt (1 + d)) in *.
  assert (Y0 : 1e-15 <= sqrt Y). { rewrite <- (sqrt_square 1e-15) by lra. apply sqrt_le_1_alt. lra. }
  set (s := sqrt Y) in *. assert (Q : Rabs (q - 1) <= 1.00702 * u) by lra.
  pose proof (Hr (s * q)) as R1. apply Rabs_le_inv in Q. rewrite (Rabs_pos_eq (s * q)) in R1 by (apply Rmult_le_pos; lra).
  exists (rnd (s * q) / s - 1). split; [field; lra|].
  replace (rnd (s * q) / s - 1) with ((rnd (s * q) - s * q) / s + (q - 1)) by (field; lra).
  eapply Rle_trans; [apply Rabs_triang|].
  assert (A : Rabs ((rnd (s * q) - s * q) / s) <= 1.0002 * u).
  { unfold Rdiv. rewrite Rabs_mult, (Rabs_pos_eq (/ s)) by (apply Rlt_le, Rinv_0_lt_compat; lra). apply Rmult_le_reg_r with s; [lra|]. rewrite Rmult_assoc, Rinv_l, Rmult_1_r by lra.
    eapply Rle_trans; [exact R1|]. assert (u * 1e-15 <= u * s) by (apply Rmult_le_compat_l; lra). assert (u * (s * q) <= 1.0001 * (u * s)) by (replace (u * (s * q)) with (q * (u * s)) by ring; apply Rmult_le_compat_r; nra). lra. }
  assert (Rabs (q - 1) <= 1.00702 * u) by (apply Rabs_le; lra). lra.
Qed.
Lemma iter_round v k : 1e-30 <= v -> exists d, Nat.iter k (fun a => rnd (sqrt a)) v = exp (ln v / 2 ^ k) * (1 + d) /\ Rabs d <= 2.01 * u.
Proof.
  intros Hv. assert (V0 : 0 < v) by lra. assert (L30 : -70 <= ln v). { apply Rle_trans with (ln 1e-30); [interval|]. destruct Hv as [Hv|<-]; [left; apply ln_increasing; lra|lra]. }
  induction k as [|k (d & E & B)].
  - exists 0. cbn [Nat.iter nat_rect pow]. unfold Rdiv; rewrite Rinv_1, Rmult_1_r, exp_ln, Rabs_R0 by auto. split; [ring|lra].
  - change (Nat.iter (S k) (fun a => rnd (sqrt a)) v) with (rnd (sqrt (Nat.iter k (fun a => rnd (sqrt a)) v))). rewrite E.
    destruct (sqrt_round (exp (ln v / 2 ^ k)) d) as (d' & E' & B'); auto.
    { rewrite <- (exp_ln 1e-30) by lra. assert (P : 1 <= 2 ^ k) by (apply pow_R1_Rle; lra).
      assert (Q : ln 1e-30 <= ln v / 2 ^ k).
      { apply Rmult_le_reg_r with (2 ^ k); [lra|]. unfold Rdiv. rewrite Rmult_assoc, Rinv_l, Rmult_1_r by lra. assert (N : ln 1e-30 <= 0) by interval. assert (ln 1e-30 <= ln v) by (destruct Hv as [Hv|<-]; [left; apply ln_increasing; lra|lra]). nra. }
      destruct Q as [Q|Q]; [left; apply exp_increasing; auto|rewrite Q; lra]. }
    exists d'. split; auto. rewrite E'. f_equal. rewrite <- (exp_ln v V0) at 1.
    assert (P : 0 < 2 ^ k) by (apply pow_lt; lra). rewrite ln_exp.
    transitivity (sqrt (exp (ln v / 2 ^ S k) * exp (ln v / 2 ^ S k))); [|apply sqrt_square, Rlt_le, exp_pos]. f_equal. rewrite <- exp_plus. f_equal. cbn [pow]. field. lra.
Qed.

(** the series is nearly 1-Lipschitz for small arguments *)
Lemma Pser_lip a b : Rabs a <= 0.035 -> Rabs b <= 0.035 -> Rabs (Pser a - Pser b) <= 1.0013 * Rabs (a - b).
Proof.
  intros Ha Hb. apply Rabs_le_inv in Ha, Hb. unfold Pser.
  match goal with |- Rabs ?l <= _ => set (D := l) end.
  assert (F : exists c, D = (a - b) * c /\ Rabs c <= 1.0013).
  { exists ((b * b + a * b + a * a) / 3 + (b ^ 4 + a * b ^ 3 + a ^ 2 * b ^ 2 + a ^ 3 * b + a ^ 4) / 5
      + (b ^ 6 + a * b ^ 5 + a ^ 2 * b ^ 4 + a ^ 3 * b ^ 3 + a ^ 4 * b ^ 2 + a ^ 5 * b + a ^ 6) / 7
      + (b ^ 8 + a * b ^ 7 + a ^ 2 * b ^ 6 + a ^ 3 * b ^ 5 + a ^ 4 * b ^ 4 + a ^ 5 * b ^ 3 + a ^ 6 * b ^ 2 + a ^ 7 * b + a ^ 8) / 9
      + (b ^ 10 + a * b ^ 9 + a ^ 2 * b ^ 8 + a ^ 3 * b ^ 7 + a ^ 4 * b ^ 6 + a ^ 5 * b ^ 5 + a ^ 6 * b ^ 4 + a ^ 7 * b ^ 3 + a ^ 8 * b ^ 2 + a ^ 9 * b + a ^ 10) / 11
      + (b ^ 12 + a * b ^ 11 + a ^ 2 * b ^ 10 + a ^ 3 * b ^ 9 + a ^ 4 * b ^ 8 + a ^ 5 * b ^ 7 + a ^ 6 * b ^ 6 + a ^ 7 * b ^ 5 + a ^ 8 * b ^ 4 + a ^ 9 * b ^ 3 + a ^ 10 * b ^ 2 + a ^ 11 * b + a ^ 12) / 13 + 1).
    split; [unfold D; field|]. clear D. interval. }
  destruct F as (c & -> & C). rewrite Rabs_mult, Rmult_comm. apply Rmult_le_compat_r; [apply Rabs_pos|auto].
Qed.

Lemma rnd_ex x b : Rabs x <= b -> 1e-15 <= b -> exists t, rnd x = x + u * t /\ Rabs t <= 1.0001 * b.
Proof.
  intros H Hb. exists ((rnd x - x) / u). split; [field; lra|]. pose proof (rnd_abs x b H Hb) as A. unfold Rdiv. rewrite Rabs_mult, (Rabs_pos_eq (/ u)) by (apply Rlt_le, Rinv_0_lt_compat; lra).
  apply Rmult_le_reg_r with u; [lra|]. rewrite Rmult_assoc, Rinv_l, Rmult_1_r by lra. lra.
Qed.
Lemma u_range : 0 <= u <= 1e-7. Proof. lra. Qed.
(** the reciprocals *)
Lemma inv_round k : 1 <= IZR k <= 13 -> exists d, rnd (1 / rnd (IZR k)) = / IZR k + u * d /\ Rabs d <= 2.001 / IZR k.
Proof.
  intros Hk. pose proof u_range as U. set (K := IZR k) in *. destruct (rnd_ex K K) as (t & E & B); [rewrite Rabs_pos_eq; lra|lra|]. rewrite E.
  assert (T : exists t', t = K * t' /\ Rabs t' <= 1.0001). { exists (t / K). split; [field; lra|]. unfold Rdiv. rewrite Rabs_mult, (Rabs_pos_eq (/ K)) by (apply Rlt_le, Rinv_0_lt_compat; lra). apply Rmult_le_reg_r with K; [lra|]. rewrite Rmult_assoc, Rinv_l, Rmult_1_r by lra. auto. }
  destruct T as (t' & -> & B'). clear B E. assert (N : 0 < 1 + u * t') by interval. replace (1 / (K + u * (K * t'))) with (/ K * / (1 + u * t')) by (unfold Rdiv; rewrite Rmult_1_l; replace (K + u * (K * t')) with (K * (1 + u * t')) by ring; rewrite Rinv_mult; reflexivity).
  assert (I0 : 0 < / K) by (apply Rinv_0_lt_compat; lra). assert (I1 : / K <= 1) by (rewrite <- Rinv_1; apply Rinv_le_contravar; lra). assert (I2 : 1 / 13 <= / K) by (unfold Rdiv; rewrite Rmult_1_l; apply Rinv_le_contravar; lra).
  assert (Q : Rabs (/ (1 + u * t')) <= 1.00001) by interval. 
  destruct (rnd_ex (/ K * / (1 + u * t')) (/ K * 1.00001)) as (d & E & B).
  { rewrite Rabs_mult, (Rabs_pos_eq (/ K)) by lra. apply Rmult_le_compat_l; lra. } { lra. }
  exists (/ K * (d / / K - t' / (1 + u * t'))). split.
  - rewrite E. field. lra.
  - rewrite Rabs_mult, (Rabs_pos_eq (/ K)), Rmult_comm by lra. unfold Rdiv at 3. apply Rmult_le_compat_r; [lra|].
    assert (D : Rabs (d / / K) <= 1.0001 * 1.00001). { unfold Rdiv. rewrite Rabs_mult, (Rabs_pos_eq (/ / K)) by (rewrite Rinv_inv; lra). apply Rmult_le_reg_r with (/ K); [lra|]. rewrite Rmult_assoc, Rinv_l, Rmult_1_r by lra. lra. }
    set (dd := d / / K) in *. interval.
Qed.
(** one Horner step *)
Lemma horner_round w t0 h c i d D I : 0 <= w <= 0.0013 -> Rabs t0 <= 0.0014 -> Rabs h <= 1.01 -> Rabs c <= 3.1 -> 0.0001 <= i <= 1 -> i <= I <= 1.001 -> Rabs d <= D -> D <= 2.1 ->
  exists c', rnd (rnd ((w + u * t0) * (h + u * c)) + (i + u * d)) = (w * h + i) + u * c' /\ Rabs c' <= D + 1.0001 * I + 0.011.
Proof.
  intros Hw Ht Hh Hc Hi HI Hd HD. assert (Hd2 : Rabs d <= 2.1) by lra. pose proof u_range as U.
  destruct (rnd_ex ((w + u * t0) * (h + u * c)) 0.00132) as (t1 & E1 & B1); [interval|lra|]. rewrite E1.
  destruct (rnd_ex ((w + u * t0) * (h + u * c) + u * t1 + (i + u * d)) (I + 0.0014)) as (t2 & E2 & B2).
  { apply Rabs_le. assert (A : Rabs ((w + u * t0) * (h + u * c) + u * t1 + u * d) <= 0.0014) by interval. apply Rabs_le_inv in A. lra. }
  { lra. }
  rewrite E2. exists (w * c + t0 * (h + u * c) + t1 + d + t2). split; [ring|].
  assert (A : Rabs (w * c + t0 * (h + u * c) + t1) <= 0.009) by interval. apply Rabs_le_inv in A, Hd, B2. apply Rabs_le. lra.
Qed.
(** (x-1)/(x+1) *)
Lemma ratio_round y d : 0.9345 <= y <= 1.0701 -> Rabs d <= 2.01 * u ->
  exists t, rnd (rnd (y * (1 + d) - 1) / rnd (y * (1 + d) + 1)) = (y - 1) / (y + 1) + u * t /\ Rabs t <= 1.127.
Proof.
  intros Hy Hd. pose proof u_range as U.
  assert (T : exists t, d = u * t /\ Rabs t <= 2.01). { exists (d / u). split; [field; lra|]. unfold Rdiv. rewrite Rabs_mult, (Rabs_pos_eq (/ u)) by (apply Rlt_le, Rinv_0_lt_compat; lra). apply Rmult_le_reg_r with u; [lra|]. rewrite Rmult_assoc, Rinv_l, Rmult_1_r by lra. auto. }
  destruct T as (t & -> & Bt). clear Hd.
  destruct (rnd_ex (y * (1 + u * t) - 1) 0.07011) as (t1 & E1 & B1); [interval|lra|].
  destruct (rnd_ex (y * (1 + u * t) + 1) 2.07011) as (t2 & E2 & B2); [interval|lra|].
  rewrite E1, E2. set (A := y * (1 + u * t) - 1 + u * t1). set (B := y * (1 + u * t) + 1 + u * t2).
  assert (HB : 1.9344 <= B) by (unfold B; interval). assert (HA : Rabs A <= 0.0702) by (unfold A; interval).
  destruct (rnd_ex (A / B) 0.0363) as (t3 & E3 & B3).
  { interval. }
  { lra. }
  rewrite E3. exists ((2 * y * t + t1 * (y + 1) - t2 * (y - 1)) / (B * (y + 1)) + t3). split; [unfold A, B; field; fold B; lra|].
  assert (HB' : B <= 2.0702) by (unfold B; interval).
  clear E3. unfold A in *; clear A E1 E2. 
  replace ((2 * y * t + t1 * (y + 1) - t2 * (y - 1)) / (B * (y + 1)) + t3) with (t * (2 * y / (y + 1)) / B + t1 / B - t2 * ((y - 1) / (y + 1)) / B + t3) by (field; lra).
  assert (BB : exists b, B = y + 1 + b /\ Rabs b <= 1e-5). { exists (B - (y + 1)). split; [lra|]. unfold B. replace (y * (1 + u * t) + 1 + u * t2 - (y + 1)) with (u * (y * t + t2)) by ring. interval. }
  destruct BB as (b & BB & Hb). clearbody B. subst B. clear HB HB' HA. 
  interval with (i_bisect y, i_autodiff y, i_depth 12).
Qed.

Lemma decibel_round v : 1e-30 <= v <= 1e30 -> Rabs (decibel (Fn rnd) v - db_scale * Pser (db_y v)) <= 11990 * u.
Proof.
  intros Hv. pose proof u_range as U. destruct (iter_round v 10) as (d & E & Bd); [lra|].
  assert (L : Rabs (ln v) <= 69.0776).
  { assert (V0 : 0 < v) by lra. apply Rabs_le. split; [apply Rle_trans with (ln 1e-30); [interval|]|apply Rle_trans with (ln 1e30); [|interval]];
      [destruct Hv as [[Hv| <-] _]|destruct Hv as [_ [Hv| ->]]]; try (left; apply ln_increasing; lra); lra. }
  assert (Y : 0.9345 <= exp (ln v / 1024) <= 1.0701) by (split; interval).
  unfold decibel. cbn [nadd nsub nmul ndiv nsqrt n1 nlit Fn]. rewrite E. replace (2 ^ 10) with 1024 by (cbn; lra). 
  destruct (ratio_round (exp (ln v / 1024)) d Y Bd) as (t & Ez & Bt).
  fold (db_y v) in Ez. rewrite Ez. assert (Hzy : Rabs (db_y v) <= 0.0339) by (unfold db_y; set (yy := exp (ln v / 1024)) in *; interval with (i_bisect yy, i_autodiff yy)).
  set (zy := db_y v) in *. set (z := zy + u * t) in *. assert (Hz : Rabs z <= 0.03391) by (unfold z; interval).
  assert (HW : 0 <= z * z <= 0.00116) by (apply Rabs_le_inv in Hz; split; [apply Rle_0_sqr|interval]).
  destruct (rnd_ex (z * z) 0.00116) as (t0 & E0 & B0); [rewrite Rabs_pos_eq; lra|lra|]. rewrite E0. 
  unfold db_inv. cbn [n1 ndiv nofZ Fn].
  destruct (inv_round 13) as (d13 & I13 & B13); [lra|]. destruct (inv_round 11) as (d11 & I11 & B11); [lra|]. destruct (inv_round 9) as (d9 & I9 & B9); [lra|].
  destruct (inv_round 7) as (d7 & I7 & B7); [lra|]. destruct (inv_round 5) as (d5 & I5 & B5); [lra|]. destruct (inv_round 3) as (d3 & I3 & B3); [lra|]. destruct (inv_round 1) as (d1 & I1 & B1); [lra|].
  rewrite I13, I11, I9, I7, I5, I3, I1. assert (W : 0 <= z * z <= 0.0013) by lra. assert (T0 : Rabs t0 <= 0.0014) by lra. set (w := z * z) in *.
  destruct (horner_round w t0 (/ 13) d13 (/ 11) d11 (2.001 / 11) (/ 11) W T0) as (c1 & F1 & C1); try lra. { interval. } rewrite F1.
  destruct (horner_round w t0 (w * / 13 + / 11) c1 (/ 9) d9 (2.001 / 9) (/ 9) W T0) as (c2 & F2 & C2); try lra. { interval. } rewrite F2.
  destruct (horner_round w t0 (w * (w * / 13 + / 11) + / 9) c2 (/ 7) d7 (2.001 / 7) (/ 7) W T0) as (c3 & F3 & C3); try lra. { interval. } rewrite F3.
  destruct (horner_round w t0 (w * (w * (w * / 13 + / 11) + / 9) + / 7) c3 (/ 5) d5 (2.001 / 5) (/ 5) W T0) as (c4 & F4 & C4); try lra. { interval. } rewrite F4.
  destruct (horner_round w t0 (w * (w * (w * (w * / 13 + / 11) + / 9) + / 7) + / 5) c4 (/ 3) d3 (2.001 / 3) (/ 3) W T0) as (c5 & F5 & C5); try lra. { interval. } rewrite F5.
  destruct (horner_round w t0 (w * (w * (w * (w * (w * / 13 + / 11) + / 9) + / 7) + / 5) + / 3) c5 (/ 1) d1 (2.001 / 1) (/ 1) W T0) as (c6 & F6 & C6); try lra. { interval. } rewrite F6.
  clear F1 F2 F3 F4 F5 F6 C1 C2 C3 C4 C5.
  set (P := w * (w * (w * (w * (w * (w * / 13 + / 11) + / 9) + / 7) + / 5) + / 3) + / 1). assert (HP : 0.999 <= P <= 1.00041) by (unfold P; split; interval).
  destruct (rnd_ex db_scale 8894.36) as (ts & Es & Bs); [unfold db_scale; interval|lra|]. rewrite Es. assert (S0 : 8894.35 <= db_scale <= 8894.351) by (unfold db_scale; lra).
  set (S := db_scale) in *. clearbody S.
  destruct (rnd_ex ((S + u * ts) * z) 301.64) as (t1 & E1 & Bt1); [interval|lra|]. rewrite E1.
  destruct (rnd_ex (((S + u * ts) * z + u * t1) * (P + u * c6)) 301.8) as (t2 & E2 & Bt2); [interval|lra|]. rewrite E2.
  assert (PZ : z * P = Pser z) by (unfold P, w, Pser; field).
  replace (((S + u * ts) * z + u * t1) * (P + u * c6) + u * t2 - S * Pser zy) with (S * (Pser z - Pser zy) + u * (S * z * c6 + (ts * z + t1) * (P + u * c6) + t2)) by (rewrite <- PZ; ring).
  pose proof (Pser_lip z zy) as PL. eapply Rle_trans; [apply Rabs_triang|].
  assert (A1 : Rabs (S * (Pser z - Pser zy)) <= 10037 * u).
  { rewrite Rabs_mult, (Rabs_pos_eq S) by lra. assert (Q : Rabs (Pser z - Pser zy) <= 1.0013 * Rabs (z - zy)) by (apply PL; lra). replace (z - zy) with (u * t) in Q by (unfold z; ring). rewrite Rabs_mult, (Rabs_pos_eq u) in Q by lra.
    assert (u * Rabs t <= u * 1.127) by (apply Rmult_le_compat_l; lra). apply Rle_trans with (S * (1.0013 * (1.127 * u))); [apply Rmult_le_compat_l; lra|]. assert (0 <= (8894.351 - S) * u) by (apply Rmult_le_pos; lra). lra. }
  assert (A2 : Rabs (u * (S * z * c6 + (ts * z + t1) * (P + u * c6) + t2)) <= 1953 * u).
  { rewrite Rabs_mult, (Rabs_pos_eq u), Rmult_comm by lra. apply Rmult_le_compat_r; [lra|]. interval. }
  lra.
Qed.
End Db.
