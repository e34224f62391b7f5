(* exp10 in floating point *)
From Coq Require Import Reals ZArith Lia Lra Psatz.
From Flocq Require Import Core.
From Interval Require Import Tactic.
From Verif Require Import Spec.Rounding Model.Num Proofs.BaseLemmas Model.Exp Proofs.ExpProofs Proofs.DbRound.
Open Scope R_scope.

Section Ex.
Context (u e : R) (rnd : R -> R).
Hypothesis Hu : 0 < u <= 1 / 10000000.
Hypothesis He : 0 <= e <= u * 1e-20.
Hypothesis Hr : rounding u e rnd.
(** numbers of at most 24 significant bits are representable *)
Hypothesis Hx : forall m k : Z, (Z.abs m <= 2 ^ 24)%Z -> (-100 <= k)%Z -> rnd (IZR m * bpow radix2 k) = IZR m * bpow radix2 k.
Notation ex := (rnd_ex u e rnd Hu He Hr).

Lemma mul_round X Y a b MX MY A B C : Rabs X <= MX -> Rabs Y <= MY -> Rabs a <= A -> Rabs b <= B -> 1e-15 <= MX * MY -> 
  MX * B + MY * A + 1e-7 * A * B + 1.0001 * ((MX + 1e-7 * A) * (MY + 1e-7 * B)) <= C ->
  exists c, rnd ((X + u * a) * (Y + u * b)) = X * Y + u * c /\ Rabs c <= C.
Proof.
  intros HX HY HA HB HM HC. pose proof (Rabs_pos X). pose proof (Rabs_pos Y). pose proof (Rabs_pos a). pose proof (Rabs_pos b).
  destruct (ex ((X + u * a) * (Y + u * b)) ((MX + 1e-7 * A) * (MY + 1e-7 * B))) as (t & E & T).
  { rewrite Rabs_mult. apply Rmult_le_compat; try apply Rabs_pos; (eapply Rle_trans; [apply Rabs_triang|]); rewrite Rabs_mult, (Rabs_pos_eq u) by lra; apply Rplus_le_compat; auto; apply Rmult_le_compat; lra. }
  { apply Rle_trans with (MX * MY); auto. apply Rmult_le_compat; lra. }
  exists (X * b + Y * a + u * (a * b) + t). split; [rewrite E; ring|].
  eapply Rle_trans; [|exact HC]. eapply Rle_trans; [apply Rabs_triang|]. apply Rplus_le_compat; auto.
  eapply Rle_trans; [apply Rabs_triang|]. apply Rplus_le_compat.
  - eapply Rle_trans; [apply Rabs_triang|]. rewrite !Rabs_mult. apply Rplus_le_compat; apply Rmult_le_compat; lra.
  - rewrite !Rabs_mult, (Rabs_pos_eq u), Rmult_assoc by lra. apply Rmult_le_compat; try lra. apply Rmult_le_pos; lra. apply Rmult_le_compat; lra.
Qed.
Lemma add_round X Y a b M A B C : Rabs (X + Y) <= M -> Rabs a <= A -> Rabs b <= B -> 1e-15 <= M ->
  A + B + 1.0001 * (M + 1e-7 * (A + B)) <= C -> exists c, rnd (X + u * a + (Y + u * b)) = X + Y + u * c /\ Rabs c <= C.
Proof.
  intros HM HA HB M0 HC. pose proof (Rabs_pos a). pose proof (Rabs_pos b).
  assert (AB : Rabs (a + b) <= A + B) by (eapply Rle_trans; [apply Rabs_triang|]; lra).
  destruct (ex (X + u * a + (Y + u * b)) (M + 1e-7 * (A + B))) as (t & E & T).
  { replace (X + u * a + (Y + u * b)) with (X + Y + u * (a + b)) by ring. eapply Rle_trans; [apply Rabs_triang|]. rewrite (Rabs_mult u), (Rabs_pos_eq u) by lra. apply Rplus_le_compat; auto. apply Rmult_le_compat; try lra. apply Rabs_pos. }
  { lra. }
  exists (a + b + t). split; [rewrite E; ring|]. eapply Rle_trans; [apply Rabs_triang|]. lra.
Qed.
Lemma lit_round X M : Rabs X <= M -> 1e-15 <= M -> exists c, rnd X = X + u * c /\ Rabs c <= 1.0001 * M.
Proof. intros. apply ex; auto. Qed.

Lemma ofZ_exact k : (Z.abs k <= 2 ^ 24)%Z -> rnd (IZR k) = IZR k.
Proof. intros H. pose proof (Hx k 0 H ltac:(lia)) as E. cbn [bpow] in E. rewrite !Rmult_1_r in E. auto. Qed.
Lemma bpow_exact k : (0 <= k)%Z -> rnd (bpow radix2 k) = bpow radix2 k.
Proof. intros H. pose proof (Hx 1 k ltac:(lia) ltac:(lia)) as E. rewrite !Rmult_1_l in E. auto. Qed.

Lemma ldexp_round x n : (Z.abs n <= 255)%Z -> exists v, ldexp (Fn rnd) x n = Ok v /\ Rabs (v - x * bpow radix2 n) <= u * Rabs (x * bpow radix2 n) + e.
Proof.
  intros H. unfold ldexp. set (a := Z.abs n) in *.
  assert (E : (if (n <? 0)%Z then ichk (- n) else Ok n) = Ok a).
  { destruct (Z.ltb_spec n 0); [|f_equal; lia]. unfold ichk, int_ok, INT_MIN, INT_MAX. destruct (Z.leb_spec (-2147483648) (-n)), (Z.leb_spec (-n) 2147483647); cbn; try lia. f_equal; lia. }
  rewrite E. cbn [bind]. assert (A0 : (0 <= a)%Z) by lia. rewrite Z.quot_div_nonneg by lia. set (q := (a / 8)%Z).
  assert (Q : (0 <= q <= 31)%Z) by (unfold q; split; [apply Z.div_pos; lia|assert (a / 8 < 32)%Z by (apply Z.div_lt_upper_bound; lia); lia]).
  set (r := (a - q * 8)%Z). assert (Rr : (0 <= r <= 7)%Z) by (unfold r, q; pose proof (Z.div_mod a 8); pose proof (Z.mod_pos_bound a 8); lia).
  assert (P : forall z, (0 <= z)%Z -> IZR (2 ^ z) = bpow radix2 z) by (intros; rewrite <- IZR_Zpower by auto; reflexivity).
  assert (T : exists t0, shl1 q = Ok t0 /\ rnd (IZR t0) = IZR t0 /\ IZR t0 * IZR t0 = bpow radix2 (2 * q)).
  { destruct (Z.eq_dec q 31) as [->|].
    - exists INT_MIN. split; [auto|split].
      + replace (IZR INT_MIN) with (IZR (-1) * bpow radix2 31); [apply Hx; lia|]. rewrite <- P by lia. rewrite <- mult_IZR. reflexivity.
      + rewrite <- mult_IZR. change (INT_MIN * INT_MIN)%Z with (2 ^ 62)%Z. apply P. lia.
    - exists (2 ^ q)%Z. split; [apply shl1_lt; lia|]. rewrite P by lia. split; [apply bpow_exact; lia|]. rewrite <- bpow_plus. f_equal. lia. }
  destruct T as (t0 & -> & T1 & T). cbn [bind nmul ndiv nofZ Fn]. rewrite shl1_lt by lia. cbn [bind]. rewrite T1, T, P by lia.
  rewrite (bpow_exact (2 * q)), <- bpow_plus, bpow_exact by lia. rewrite <- bpow_plus, bpow_exact by lia. rewrite (bpow_exact r), <- bpow_plus, bpow_exact by lia. 
  replace (2 * q + 2 * q + (2 * q + 2 * q) + r)%Z with a by lia. eexists. split; [reflexivity|]. destruct (Z.ltb_spec n 0).
  - replace (x / bpow radix2 a) with (x * bpow radix2 n); [apply Hr|]. unfold Rdiv. rewrite <- bpow_opp. do 2 f_equal. lia.
  - replace a with n by lia. apply Hr.
Qed.

Definition pp z := z * (z*z * (z*z * (z*z * ex_P0 + ex_P1) + ex_P2) + ex_P3).
Definition qq z := z*z * (z*z * (z*z + ex_Q0) + ex_Q1) + ex_Q2.
Lemma mul_round0 X Y b MX MY B C : Rabs X <= MX -> Rabs Y <= MY -> Rabs b <= B -> 1e-15 <= MX * MY -> 
  MX * B + 1.0001 * (MX * (MY + 1e-7 * B)) <= C ->
  exists c, rnd (X * (Y + u * b)) = X * Y + u * c /\ Rabs c <= C.
Proof.
  intros HX HY HB HM HC. destruct (mul_round X Y 0 b MX MY 0 B C) as (c & E & A); auto; try lra. { rewrite Rabs_R0. lra. }
  exists c. rewrite <- E. split; auto. f_equal. ring.
Qed.
Ltac num := first [lra | interval].
Lemma pq_round z : Rabs z <= 0.1506 ->
  let xx := rnd (z * z) in
  let py := rnd (z * rnd (rnd (xx * rnd (rnd (xx * rnd (rnd (xx * rnd ex_P0) + rnd ex_P1)) + rnd ex_P2)) + rnd ex_P3)) in
  let qy := rnd (rnd (xx * rnd (rnd (xx * rnd (xx + rnd ex_Q0)) + rnd ex_Q1)) + rnd ex_Q2) in
  exists a b, py = pp z + u * a /\ Rabs a <= 1100 /\ qy = qq z + u * b /\ Rabs b <= 4330.
Proof.
  intros Hz. pose proof (u_range u Hu) as U. cbv zeta.
  assert (HW : 0 <= z * z <= 0.0227) by (apply Rabs_le_inv in Hz; split; [apply Rle_0_sqr|interval]).
  destruct (ex (z * z) 0.0227) as (t0 & E0 & B0); [rewrite Rabs_pos_eq; lra|lra|]. rewrite E0.
  assert (W : Rabs (z * z) <= 0.0227) by (rewrite Rabs_pos_eq; lra). set (w := z * z) in *.
  destruct (lit_round ex_P0 0.041) as (p0 & EP0 & BP0); [unfold ex_P0; num|lra|]. destruct (lit_round ex_P1 11.746) as (p1 & EP1 & BP1); [unfold ex_P1; num|lra|].
  destruct (lit_round ex_P2 406.72) as (p2 & EP2 & BP2); [unfold ex_P2; num|lra|]. destruct (lit_round ex_P3 2394.24) as (p3 & EP3 & BP3); [unfold ex_P3; num|lra|].
  destruct (lit_round ex_Q0 85.1) as (q0 & EQ0 & BQ0); [unfold ex_Q0; num|lra|]. destruct (lit_round ex_Q1 1272.1) as (q1 & EQ1 & BQ1); [unfold ex_Q1; num|lra|]. destruct (lit_round ex_Q2 2079.61) as (q2 & EQ2 & BQ2); [unfold ex_Q2; num|lra|].
  rewrite EP0, EP1, EP2, EP3, EQ0, EQ1, EQ2.
  destruct (mul_round w ex_P0 t0 p0 0.0227 0.041 0.0228 0.0411 0.01) as (a1 & A1 & L1); try (unfold ex_P0; num). rewrite A1.
  destruct (add_round (w * ex_P0) ex_P1 a1 p1 11.75 0.01 11.75 23.6) as (a2 & A2 & L2); try (unfold ex_P0, ex_P1; num). rewrite A2.
  set (Y1 := w * ex_P0 + ex_P1) in *. assert (HY1 : Rabs Y1 <= 11.75) by (unfold Y1, ex_P0, ex_P1; num).
  destruct (mul_round w Y1 t0 a2 0.0227 11.75 0.0228 23.6 1.1) as (a3 & A3 & L3); try num. rewrite A3.
  destruct (add_round (w * Y1) ex_P2 a3 p2 407 1.1 406.8 815) as (a4 & A4 & L4); try (unfold ex_P2; num). rewrite A4.
  set (Y2 := w * Y1 + ex_P2) in *. assert (HY2 : Rabs Y2 <= 407) by (unfold Y2, ex_P2; num).
  destruct (mul_round w Y2 t0 a4 0.0227 407 0.0228 815 38) as (a5 & A5 & L5); try num. rewrite A5.
  destruct (add_round (w * Y2) ex_P3 a5 p3 2403.6 38 2394.5 4836.5) as (a6 & A6 & L6); try (unfold ex_P3; num). rewrite A6.
  set (Y3 := w * Y2 + ex_P3) in *. assert (HY3 : Rabs Y3 <= 2403.6) by (unfold Y3, ex_P3; num).
  destruct (mul_round0 z Y3 a6 0.1506 2403.6 4836.5 1091) as (a7 & A7 & L7); try num. rewrite A7.
  destruct (add_round w ex_Q0 t0 q0 85.2 0.0228 85.2 170.6) as (b1 & C1 & M1); try (unfold ex_Q0; num). rewrite C1.
  set (Z1 := w + ex_Q0) in *. assert (HZ1 : Rabs Z1 <= 85.2) by (unfold Z1, ex_Q0; num).
  destruct (mul_round w Z1 t0 b1 0.0227 85.2 0.0228 170.6 7.8) as (b2 & C2 & M2); try num. rewrite C2.
  destruct (add_round (w * Z1) ex_Q1 b2 q1 1274.1 7.8 1272.3 2555) as (b3 & C3 & M3); try (unfold ex_Q1; num). rewrite C3.
  set (Z2 := w * Z1 + ex_Q1) in *. assert (HZ2 : Rabs Z2 <= 1274.1) by (unfold Z2, ex_Q1; num).
  destruct (mul_round w Z2 t0 b3 0.0227 1274.1 0.0228 2555 117) as (b4 & C4 & M4); try num. rewrite C4.
  destruct (add_round (w * Z2) ex_Q2 b4 q2 2108.6 117 2080 4306) as (b5 & C5 & M5); try (unfold ex_Q2; num). rewrite C5.
  exists a7, b5. split; [reflexivity|]. split; [lra|]. split; [reflexivity|lra].
Qed.

(** the quotient, for numerators and denominators known up to the errors a and b *)
Lemma quot_round X Y a b MX MD ld MF lF K : Rabs X <= MX -> ld <= Y - X <= MD -> 1000 <= ld -> MX <= 400 -> MD <= 3000 -> Rabs a <= 1100 -> Rabs b <= 4330 ->
  Rabs (2 * X / (Y - X)) <= MF -> 1e-15 <= MF <= 0.5 -> lF <= 1 + 2 * X / (Y - X) <= 1 + MF -> 1e-10 <= MX ->
  ((2200 + 2.001 * MX) + MF * (5430 + 1.001 * MD)) / (ld - 0.002) + 1.0011 * MF + 1.00001 * (1 + 1.00011 * MF) + 0.001 <= K * lF -> 0 <= K ->
  exists c, rnd (1 + rnd (rnd (rnd 2 * (X + u * a)) / rnd ((Y + u * b) - (X + u * a)))) = 1 + 2 * X / (Y - X) + u * c /\ Rabs c <= K * (1 + 2 * X / (Y - X)).
Proof.
  intros HX HD Hld HMX HMD Ha Hb HF HMF HF1 HX0 HK HK0. pose proof (u_range u Hu) as U. rewrite (ofZ_exact 2) by lia.
  destruct (ex (2 * (X + u * a)) (2 * MX + 0.001)) as (a1 & E1 & A1).
  { apply Rabs_le. assert (Q : Rabs (u * a) <= 0.0002) by interval. apply Rabs_le_inv in Q, HX. lra. } { lra. } rewrite E1.
  destruct (ex ((Y + u * b) - (X + u * a)) (MD + 0.001)) as (b1 & E2 & B1).
  { apply Rabs_le. assert (Q : Rabs (u * b - u * a) <= 0.0009) by interval. apply Rabs_le_inv in Q. lra. } { lra. } rewrite E2.
  set (D := Y - X) in *. set (d := b - a + b1). set (n := 2 * a + a1).
  replace (2 * (X + u * a) + u * a1) with (2 * X + u * n) by (unfold n; ring). replace (Y + u * b - (X + u * a) + u * b1) with (D + u * d) by (unfold D, d; ring).
  assert (Hn : Rabs n <= 2200 + 2.001 * MX + 0.002). { unfold n. apply Rabs_le_inv in Ha, A1. apply Rabs_le. lra. }
  assert (Hd : Rabs d <= 5430 + 1.001 * MD). { unfold d. apply Rabs_le_inv in Ha, Hb, B1. apply Rabs_le. lra. }
  assert (Hud : Rabs (u * d) <= 0.001). { assert (Rabs d <= 9000) by lra. interval. }
  assert (Dp : ld - 0.002 <= D + u * d) by (apply Rabs_le_inv in Hud; lra).
  assert (D0 : 0 < D) by lra.
  set (f := 2 * X / D) in *. set (g := (n - f * d) / (D + u * d)).
  assert (EQ : (2 * X + u * n) / (D + u * d) = f + u * g). { unfold g, f. field. lra. }
  assert (Hg : Rabs g <= ((2200 + 2.001 * MX) + MF * (5430 + 1.001 * MD)) / (ld - 0.002) + 0.00001).
  { unfold g, Rdiv. rewrite Rabs_mult. rewrite (Rabs_pos_eq (/ (D + u * d))) by (apply Rlt_le, Rinv_0_lt_compat; lra).
    apply Rle_trans with (((2200 + 2.001 * MX) + MF * (5430 + 1.001 * MD) + 0.002) * / (ld - 0.002)).
    - apply Rmult_le_compat; [apply Rabs_pos|apply Rlt_le, Rinv_0_lt_compat; lra| |apply Rinv_le_contravar; lra].
      eapply Rle_trans; [apply Rabs_triang|]. rewrite Rabs_Ropp, Rabs_mult. assert (Rabs f * Rabs d <= MF * (5430 + 1.001 * MD)) by (apply Rmult_le_compat; auto; apply Rabs_pos). lra.
    - assert (/ (ld - 0.002) <= / 998) by (apply Rinv_le_contravar; lra). lra. }
  assert (Hg2 : Rabs g <= 100).
  { eapply Rle_trans; [exact Hg|]. assert (/ (ld - 0.002) <= / 998) by (apply Rinv_le_contravar; lra). assert (0 < / (ld - 0.002)) by (apply Rinv_0_lt_compat; lra). unfold Rdiv.
    assert (MF * (5430 + 1.001 * MD) <= 0.5 * (5430 + 1.001 * 3000)) by (apply Rmult_le_compat; lra). assert (0 <= MF * (5430 + 1.001 * MD)) by (apply Rmult_le_pos; lra).
    apply Rle_trans with (10000 * / 998 + 0.00001); [apply Rplus_le_compat_r, Rmult_le_compat; lra|lra]. }
  rewrite EQ. destruct (ex (f + u * g) (MF + 0.0001)) as (f1 & E3 & F1).
  { eapply Rle_trans; [apply Rabs_triang|]. assert (Rabs (u * g) <= 0.0001) by interval. lra. } { lra. } rewrite E3.
  assert (Hf1 : Rabs f1 <= 1) by lra.
  destruct (ex (1 + (f + u * g + u * f1)) (1 + MF + 0.0002)) as (f2 & E4 & F2).
  { assert (Q : Rabs (u * g + u * f1) <= 0.0001) by interval. apply Rabs_le_inv in Q, HF. apply Rabs_le. lra. } { lra. } rewrite E4.
  exists (g + f1 + f2). split; [ring|]. apply Rle_trans with (K * lF); [|apply Rmult_le_compat_l; lra].
  eapply Rle_trans; [|exact HK]. eapply Rle_trans; [apply Rabs_triang|]. pose proof (Rabs_triang g f1). lra.
Qed.
Lemma pq_final z : Rabs z <= 0.1506 ->
  let xx := rnd (z * z) in
  let py := rnd (z * rnd (rnd (xx * rnd (rnd (xx * rnd (rnd (xx * rnd ex_P0) + rnd ex_P1)) + rnd ex_P2)) + rnd ex_P3)) in
  let qy := rnd (rnd (xx * rnd (rnd (xx * rnd (xx + rnd ex_Q0)) + rnd ex_Q1)) + rnd ex_Q2) in
  exists c, rnd (1 + rnd (rnd (rnd 2 * py) / rnd (qy - py))) = 1 + 2 * pp z / (qq z - pp z) + u * c /\ Rabs c <= 5.9 * (1 + 2 * pp z / (qq z - pp z)).
Proof.
  intros Hz. cbv zeta. destruct (pq_round z Hz) as (a & b & Ea & Ba & Eb & Bb). rewrite Ea, Eb. apply Rabs_le_inv in Hz.
  destruct (Rle_dec 0 z) as [P|P].
  - apply (quot_round (pp z) (qq z) a b 362 2110 1717 0.416 1); auto; try lra; unfold pp, qq, ex_P0, ex_P1, ex_P2, ex_P3, ex_Q0, ex_Q1, ex_Q2; try (split; interval with (i_bisect z, i_autodiff z)); try interval with (i_bisect z, i_autodiff z).
    split; [|interval with (i_bisect z, i_autodiff z)].
    match goal with |- _ <= 1 + 2 * (z * ?A) / ?B => assert (HA : 0 <= A) by interval; assert (HB : 1000 <= B) by interval with (i_bisect z); assert (0 <= 2 * (z * A) / B) by (apply Rmult_le_pos; [apply Rmult_le_pos; [lra|apply Rmult_le_pos; lra]|apply Rlt_le, Rinv_0_lt_compat; lra]) end. lra.
  - apply Rnot_le_lt in P. assert (P2 : -0.1506 <= z <= 0) by lra. clear P Hz. apply (quot_round (pp z) (qq z) a b 362 2472 2079 0.2935 0.7); auto; try lra; unfold pp, qq, ex_P0, ex_P1, ex_P2, ex_P3, ex_Q0, ex_Q1, ex_Q2; try (split; interval with (i_bisect z, i_autodiff z)); try interval with (i_bisect z, i_autodiff z).
Qed.

Lemma LA_exact k : (Z.abs k <= 256)%Z -> rnd (IZR k * rnd ex_LG102A) = IZR k * ex_LG102A.
Proof.
  intros H. assert (E : ex_LG102A = IZR 1233 * bpow radix2 (-12)) by (unfold ex_LG102A; change (bpow radix2 (-12)) with (/ 4096); lra).
  rewrite E, (Hx 1233) by lia. rewrite <- Rmult_assoc, <- mult_IZR. apply Hx; lia.
Qed.
Lemma exp10_round rint x : (forall z, Rabs (IZR (rint z) - z) <= 1/2) -> Rabs x <= 76.8 ->
  exists v, exp10 (Fn rnd) rint x = Ok v /\ Rabs (v - Rpower 10 x) <= (8 * u + 2e-16) * Rpower 10 x + e.
Proof.
  intros Hri Hxx. pose proof (u_range u Hu) as U. unfold exp10. cbn [nmul nsub nadd ndiv nofZ nlit n1 Fn].
  destruct (lit_round ex_LOG210 3.33) as (tl & El & Bl); [unfold ex_LOG210; interval|lra|]. rewrite El. apply Rabs_le_inv in Hxx.
  assert (HL : 3.3219 <= ex_LOG210 <= 3.322) by (unfold ex_LOG210; lra).
  destruct (ex (x * (ex_LOG210 + u * tl)) 256) as (tk & Ek & Bk); [interval|lra|].
  set (k := rint (rnd (x * (ex_LOG210 + u * tl)))). pose proof (Hri (rnd (x * (ex_LOG210 + u * tl)))) as K. fold k in K. rewrite Ek in K.
  assert (K1 : Rabs (IZR k - x * ex_LOG210) <= 0.50007). { assert (Q : Rabs (u * (x * tl) + u * tk) <= 0.00006) by interval. apply Rabs_le_inv in Q, K. apply Rabs_le. lra. }
  assert (Kb : Rabs (IZR k) < 256). { apply Rabs_le_inv in K1. unfold ex_LOG210 in K1. apply Rabs_lt. lra. }
  assert (Kz : (Z.abs k <= 255)%Z). { rewrite <- abs_IZR in Kb. apply lt_IZR in Kb. lia. }
  rewrite (ofZ_exact k), (LA_exact k) by lia.
  assert (I : ichk k = Ok k). { unfold ichk, int_ok, INT_MIN, INT_MAX. destruct (Z.leb_spec (-2147483648) k), (Z.leb_spec k 2147483647); cbn; auto; lia. }
  rewrite I. cbn [bind]. set (r := x - IZR k * ex_LG102A - IZR k * ex_LG102B).
  assert (Rb : Rabs r <= 0.15056). { unfold r, ex_LG102A, ex_LG102B. unfold ex_LOG210 in K1. apply Rabs_lt_inv in Kb. apply Rabs_le_inv in K1. apply Rabs_le. lra. }
  assert (Rb1 : Rabs (x - IZR k * ex_LG102A) <= 0.1518). { unfold ex_LG102A. unfold ex_LOG210 in K1. apply Rabs_lt_inv in Kb. apply Rabs_le_inv in K1. apply Rabs_le. lra. }
  destruct (ex (x - IZR k * ex_LG102A) 0.1518) as (t1 & E1 & B1); [auto|lra|]. rewrite E1.
  destruct (lit_round ex_LG102B 4.7e-6) as (tb & Eb & Bb); [unfold ex_LG102B; interval|lra|]. rewrite Eb.
  assert (Kb' : Rabs (IZR k) <= 256) by lra. destruct (mul_round0 (IZR k) ex_LG102B tb 256 4.7e-6 4.71e-6 0.0025) as (t2 & E2 & B2); try (unfold ex_LG102B; num). rewrite E2.
  destruct (ex (x - IZR k * ex_LG102A + u * t1 - (IZR k * ex_LG102B + u * t2)) 0.1506) as (t3 & E3 & B3).
  { assert (Q : Rabs (u * t1 - u * t2) <= 0.00001) by interval. apply Rabs_le_inv in Q, Rb. unfold r in Rb. apply Rabs_le. lra. } { lra. }
  rewrite E3. set (rho := t1 - t2 + t3). assert (Hrho : Rabs rho <= 0.306) by (unfold rho; interval).
  replace (x - IZR k * ex_LG102A + u * t1 - (IZR k * ex_LG102B + u * t2) + u * t3) with (r + u * rho) by (unfold r, rho; ring).
  set (z := r + u * rho). assert (Hz : Rabs z <= 0.1506) by (unfold z; interval).
  destruct (pq_final z Hz) as (c & Ec & Bc). cbv zeta in Ec. rewrite Ec.
  pose proof (pade_acc z Hz) as P. cbv zeta in P. fold (pp z) in P. fold (qq z) in P. set (F := 1 + 2 * pp z / (qq z - pp z)) in *. clearbody F.
  destruct (ldexp_round (F + u * c) k Kz) as (v & Ev & Bv). exists v. split; [exact Ev|].
  set (d := x * ln 10 - IZR k * ln 2 - r * ln 10).
  assert (D : Rabs d <= 1e-20).
  { unfold d, r. replace (x * ln 10 - IZR k * ln 2 - (x - IZR k * ex_LG102A - IZR k * ex_LG102B) * ln 10) with (IZR k * ((ex_LG102A + ex_LG102B) * ln 10 - ln 2)) by ring.
    rewrite Rabs_mult. apply Rle_trans with (256 * 1e-23); [|lra]. apply Rmult_le_compat; try apply Rabs_pos; [lra|]. unfold ex_LG102A, ex_LG102B. interval with (i_prec 150). }
  assert (X : bpow radix2 k * exp (z * ln 10) = Rpower 10 x * exp (u * rho * ln 10 - d)).
  { rewrite bpow_exp, <- !exp_plus. unfold Rpower. rewrite <- exp_plus. f_equal. unfold d, z. ring. }
  set (b := bpow radix2 k) in *. assert (B : 0 < b) by apply bpow_gt_0. set (W := Rpower 10 x) in *. assert (HW : 0 < W) by apply exp_pos.
  assert (Ez : 0.7 <= exp (z * ln 10) <= 1.5) by (apply Rabs_le_inv in Hz; interval). set (G := exp (z * ln 10)) in *.
  (* G, F, computed pq *)
  assert (Q1 : Rabs (exp (u * rho * ln 10 - d) - 1) <= 0.7047 * u + 1.1e-20).
  { assert (HL10 : ln 10 <= 2.302586) by interval. assert (L10 : 2.3 <= ln 10) by interval. set (w := u * rho * ln 10 - d). assert (Hw : Rabs w <= 0.70460 * u + 1e-20).
    { unfold w. unfold Rminus. eapply Rle_trans; [apply Rabs_triang|]. rewrite Rabs_Ropp, !Rabs_mult, (Rabs_pos_eq u), (Rabs_pos_eq (ln 10)) by lra. 
      assert (u * (Rabs rho * ln 10) <= u * (0.306 * 2.302586)) by (apply Rmult_le_compat_l; [lra|apply Rmult_le_compat; try lra; apply Rabs_pos]). lra. }
    assert (H1 : Rabs w <= 1e-7) by lra. assert (Ew : Rabs (exp w - 1) <= 1.0001 * Rabs w).
    { pose proof (exp_ineq1_le w). pose proof (exp_ineq1_le (- w)). assert (EE : exp w * exp (- w) = 1) by (rewrite <- exp_plus, Rplus_opp_r, exp_0; auto). pose proof (exp_pos w).
      apply Rabs_le_inv in H1. assert (exp w * (1 - w) <= 1) by (rewrite <- EE; apply Rmult_le_compat_l; lra).
      assert (P2 : exp w <= 1 + 1.0001 * Rabs w). { apply Rmult_le_reg_r with (1 - w); [lra|]. eapply Rle_trans; [eassumption|]. unfold Rabs. destruct (Rcase_abs w); nra. }
      apply Rabs_le. split; [|lra]. pose proof (Rabs_pos w). unfold Rabs in *. destruct (Rcase_abs w); lra. }
    lra. }
  set (X1 := exp (u * rho * ln 10 - d)) in *. clearbody X1 G. set (y := W / b).
  assert (Y : W = b * y) by (unfold y; field; lra). assert (Gy : G = y * X1) by (apply Rmult_eq_reg_l with b; [rewrite X, Y; ring|lra]).
  apply Rabs_le_inv in P, Q1, Bc.
  assert (y0 : 0.69 <= y <= 1.51) by (split; nra).
  assert (PG : Rabs ((F + u * c) - y) <= (6.7 * u + 1.7e-16) * y).
  { apply Rabs_le_inv in Hz. assert (U2 : 0 <= u * u <= 1e-7 * u) by (split; nra). apply Rabs_le. 
    assert (C1 : u * c <= u * (5.9 * F)) by (apply Rmult_le_compat_l; lra). assert (C2 : u * (- (5.9 * F)) <= u * c) by (apply Rmult_le_compat_l; lra).
    assert (G1 : G - y <= (0.7047 * u + 1.1e-20) * y) by nra. assert (G2 : - ((0.7047 * u + 1.1e-20) * y) <= G - y) by nra.
    assert (UY : u * y * 1e-7 >= u * u * y) by nra.
    assert (F1 : F <= y + (0.7047 * u + 1.1e-20) * y + 1e-16) by lra.
    assert (F2 : u * (5.9 * F) <= u * (5.9 * (y + (0.7047 * u + 1.1e-20) * y + 1e-16))) by (apply Rmult_le_compat_l; lra).
    assert (E1' : u * (5.9 * (y + (0.7047 * u + 1.1e-20) * y + 1e-16)) = 5.9 * (u * y) + 4.15773 * (u * u * y) + 5.9e-16 * u + 6.49e-20 * (u * y)) by (replace (u * (5.9 * (y + (0.7047 * u + 1.1e-20) * y + 1e-16))) with (5.9 * (u * y) + 5.9 * 0.7047 * (u * u * y) + 5.9 * 1.1e-20 * (u * y) + 5.9 * 1e-16 * u) by ring; lra).
    assert (0.69 * u <= u * y) by nra. split; lra. }
  assert (BV : Rabs (b * (F + u * c) - b * y) <= (6.7 * u + 1.7e-16) * (b * y)).
  { replace (b * (F + u * c) - b * y) with (b * ((F + u * c) - y)) by ring. rewrite Rabs_mult, (Rabs_pos_eq b) by lra. replace ((6.7 * u + 1.7e-16) * (b * y)) with (b * ((6.7 * u + 1.7e-16) * y)) by ring. apply Rmult_le_compat_l; lra. }
  rewrite <- Y in BV. replace ((F + u * c) * b) with (b * (F + u * c)) in Bv by ring. set (V := b * (F + u * c)) in *.
  assert (BV2 : Rabs V <= 1.001 * W). { apply Rabs_le_inv in BV. assert (0 <= (6.7 * u + 1.7e-16) * W <= 0.001 * W) by (split; [apply Rmult_le_pos; lra|apply Rmult_le_compat_r; lra]). apply Rabs_le. lra. }
  replace (v - W) with ((v - V) + (V - W)) by ring. eapply Rle_trans; [apply Rabs_triang|].
  assert (u * Rabs V <= u * (1.001 * W)) by (apply Rmult_le_compat_l; lra). assert (0 <= u * W) by (apply Rmult_le_pos; lra). lra.
Qed.
End Ex.
