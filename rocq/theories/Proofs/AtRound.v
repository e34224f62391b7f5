(* atan2 in floating point *)
From Coq Require Import Reals ZArith Lia Lra Psatz Bool.
From Flocq Require Import Core.
From Interval Require Import Tactic.
From Verif Require Import Spec.Rounding Model.Num Proofs.BaseLemmas Model.Atan2 Spec.Angle Proofs.Atan2Proofs Proofs.DbRound Proofs.ExpRound.
Open Scope R_scope.

Section At.
Context (u e : R) (rnd : R -> R).
Hypothesis Hu : 0 < u <= 1 / 10000000.
Hypothesis He : 0 <= e <= u * 1e-20.
Hypothesis Hr : rounding u e rnd.
Notation ex := (rnd_ex u e rnd Hu He Hr).
Ltac num := first [lra | interval].

Lemma div_round X Y a b A B MR LQ C : Rabs (X / Y) <= MR -> LQ <= Y -> 100 <= LQ -> Rabs a <= A -> Rabs b <= B -> A <= 1e5 -> B <= 1e5 -> 1e-15 <= MR <= 1 ->
  (A + MR * B) / (LQ - 0.01) + 1.0001 * (MR + 3e-4) <= C -> exists c, rnd ((X + u * a) / (Y + u * b)) = X / Y + u * c /\ Rabs c <= C.
Proof.
  intros HR HL L0 Ha Hb HA HB HM HC. pose proof (u_range u Hu) as U. pose proof (Rabs_pos a). pose proof (Rabs_pos b).
  assert (UB : Rabs (u * b) <= 0.01) by (rewrite Rabs_mult, (Rabs_pos_eq u) by lra; apply Rle_trans with (1e-7 * 1e5); [apply Rmult_le_compat; lra|lra]).
  set (f := X / Y) in *. set (D := Y + u * b). assert (HD : LQ - 0.01 <= D) by (apply Rabs_le_inv in UB; unfold D; lra).
  set (g := (a - f * b) / D). assert (E : (X + u * a) / D = f + u * g) by (assert (XX : X = f * Y) by (unfold f; field; lra); rewrite XX; unfold g, D; clearbody f; field; unfold D in HD; lra).
  assert (Hg : Rabs g <= (A + MR * B) / (LQ - 0.01)).
  { unfold g, Rdiv. rewrite Rabs_mult, (Rabs_pos_eq (/ D)) by (apply Rlt_le, Rinv_0_lt_compat; lra). apply Rmult_le_compat; [apply Rabs_pos|apply Rlt_le, Rinv_0_lt_compat; lra| |apply Rinv_le_contravar; lra].
    eapply Rle_trans; [apply Rabs_triang|]. rewrite Rabs_Ropp, Rabs_mult. apply Rplus_le_compat; auto. apply Rmult_le_compat; auto; apply Rabs_pos. }
  assert (Hg2 : Rabs g <= 1000 * 2.1).
  { eapply Rle_trans; [exact Hg|]. unfold Rdiv. assert (/ (LQ - 0.01) <= / 99) by (apply Rinv_le_contravar; lra). assert (0 < / (LQ - 0.01)) by (apply Rinv_0_lt_compat; lra).
    assert (MR * B <= 1 * 1e5) by (apply Rmult_le_compat; lra). apply Rle_trans with (2e5 * / 99); [apply Rmult_le_compat; try lra; assert (0 <= MR * B) by (apply Rmult_le_pos; lra); lra|lra]. }
  fold D. rewrite E. destruct (ex (f + u * g) (MR + 3e-4)) as (t & Et & T).
  { eapply Rle_trans; [apply Rabs_triang|]. rewrite (Rabs_mult u), (Rabs_pos_eq u) by lra. assert (u * Rabs g <= 1e-7 * (1000 * 2.1)) by (apply Rmult_le_compat; try lra; apply Rabs_pos). lra. }
  { lra. }
  rewrite Et. exists (g + t). split; [ring|]. eapply Rle_trans; [apply Rabs_triang|]. lra.
Qed.
Lemma kr66 x : Rabs x <= 0.6602 -> exists c, atan_kernel (Fn rnd) x = atan_kernel Rn x + u * c /\ Rabs c <= 3.022.
Proof.
  intros Hz. pose proof (u_range u Hu) as U. unfold atan_kernel. cbn [nadd nmul ndiv nlit Fn Rn].
  assert (HW : 0 <= x * x <= 0.4361) by (apply Rabs_le_inv in Hz; split; [apply Rle_0_sqr|interval]).
  destruct (ex (x * x) 0.4361) as (t0 & E0 & B0); [rewrite Rabs_pos_eq; lra|lra|]. rewrite E0.
  assert (W : Rabs (x * x) <= 0.4361) by (rewrite Rabs_pos_eq; lra). assert (T0 : Rabs t0 <= 0.4364) by lra.
  destruct (ex at_P0 0.8755) as (p0 & EP0 & BP0); [unfold at_P0; num|lra|].
  destruct (ex at_Q0 24.88) as (q0 & EQ0 & BQ0); [unfold at_Q0; num|lra|].
  destruct (ex at_P1 16.17) as (p1 & EP1 & BP1); [unfold at_P1; num|lra|].
  destruct (ex at_Q1 165.2) as (q1 & EQ1 & BQ1); [unfold at_Q1; num|lra|].
  destruct (ex at_P2 75.05) as (p2 & EP2 & BP2); [unfold at_P2; num|lra|].
  destruct (ex at_Q2 433.1) as (q2 & EQ2 & BQ2); [unfold at_Q2; num|lra|].
  destruct (ex at_P3 123.0) as (p3 & EP3 & BP3); [unfold at_P3; num|lra|].
  destruct (ex at_Q3 485.7) as (q3 & EQ3 & BQ3); [unfold at_Q3; num|lra|].
  destruct (ex at_P4 64.89) as (p4 & EP4 & BP4); [unfold at_P4; num|lra|].
  destruct (ex at_Q4 194.7) as (q4 & EQ4 & BQ4); [unfold at_Q4; num|lra|].
  rewrite EP0, EP1, EP2, EP3, EP4, EQ0, EQ1, EQ2, EQ3, EQ4.
  set (w := x * x) in *.
  destruct (mul_round u e rnd Hu He Hr w at_P0 t0 p0 0.4361 0.8755 0.4364 0.8761 1.147) as (a1 & A1 & L1); try (unfold at_P0; num). rewrite A1.
  destruct (add_round u e rnd Hu He Hr (w * at_P0) at_P1 a1 p1 16.55 1.147 16.18 33.9) as (c1 & D1 & M1); try (unfold at_P0, at_P1; num). rewrite D1.
  set (Y1 := w * at_P0 + at_P1) in *. assert (HY1 : Rabs Y1 <= 16.55) by (unfold Y1, at_P0, at_P1; num).
  destruct (mul_round u e rnd Hu He Hr w Y1 t0 c1 0.4361 16.55 0.4364 33.9 29.24) as (a2 & A2 & L2); try (unfold at_P0; num). rewrite A2.
  destruct (add_round u e rnd Hu He Hr (w * Y1) at_P2 a2 p2 82.27 29.24 75.1 186.8) as (c2 & D2 & M2); try (unfold at_P0, at_P2; num). rewrite D2.
  set (Y2 := w * Y1 + at_P2) in *. assert (HY2 : Rabs Y2 <= 82.27) by (unfold Y2, at_P0, at_P2; num).
  destruct (mul_round u e rnd Hu He Hr w Y2 t0 c2 0.4361 82.27 0.4364 186.8 153.4) as (a3 & A3 & L3); try (unfold at_P0; num). rewrite A3.
  destruct (add_round u e rnd Hu He Hr (w * Y2) at_P3 a3 p3 158.9 153.4 123.1 435.7) as (c3 & D3 & M3); try (unfold at_P0, at_P3; num). rewrite D3.
  set (Y3 := w * Y2 + at_P3) in *. assert (HY3 : Rabs Y3 <= 158.9) by (unfold Y3, at_P0, at_P3; num).
  destruct (mul_round u e rnd Hu He Hr w Y3 t0 c3 0.4361 158.9 0.4364 435.7 328.9) as (a4 & A4 & L4); try (unfold at_P0; num). rewrite A4.
  destruct (add_round u e rnd Hu He Hr (w * Y3) at_P4 a4 p4 134.3 328.9 64.93 528.5) as (c4 & D4 & M4); try (unfold at_P0, at_P4; num). rewrite D4.
  set (Y4 := w * Y3 + at_P4) in *. assert (HY4 : Rabs Y4 <= 134.3) by (unfold Y4, at_P0, at_P4; num).
  destruct (add_round u e rnd Hu He Hr w at_Q0 t0 q0 25.31 0.4364 24.9 50.68) as (d0 & G0 & N0); try (unfold at_Q0; num). rewrite G0.
  set (Z0 := w + at_Q0) in *. assert (HZ0 : Rabs Z0 <= 25.31) by (unfold Z0, at_Q0; num).
  destruct (mul_round u e rnd Hu He Hr w Z0 t0 d0 0.4361 25.31 0.4364 50.68 44.21) as (b1 & F1 & O1); try num. rewrite F1.
  destruct (add_round u e rnd Hu He Hr (w * Z0) at_Q1 b1 q1 176.2 44.21 165.3 386.0) as (d1 & G1 & N1); try (unfold at_Q1; num). rewrite G1.
  set (Z1 := w * Z0 + at_Q1) in *. assert (HZ1 : Rabs Z1 <= 176.2) by (unfold Z1, at_Q1; num).
  destruct (mul_round u e rnd Hu He Hr w Z1 t0 d1 0.4361 176.2 0.4364 386.0 322.3) as (b2 & F2 & O2); try num. rewrite F2.
  destruct (add_round u e rnd Hu He Hr (w * Z1) at_Q2 b2 q2 510.0 322.3 433.4 1267.0) as (d2 & G2 & N2); try (unfold at_Q2; num). rewrite G2.
  set (Z2 := w * Z1 + at_Q2) in *. assert (HZ2 : Rabs Z2 <= 510.0) by (unfold Z2, at_Q2; num).
  destruct (mul_round u e rnd Hu He Hr w Z2 t0 d2 0.4361 510.0 0.4364 1267.0 998.1) as (b3 & F3 & O3); try num. rewrite F3.
  destruct (add_round u e rnd Hu He Hr (w * Z2) at_Q3 b3 q3 708.2 998.1 486.0 2194.0) as (d3 & G3 & N3); try (unfold at_Q3; num). rewrite G3.
  set (Z3 := w * Z2 + at_Q3) in *. assert (HZ3 : Rabs Z3 <= 708.2) by (unfold Z3, at_Q3; num).
  destruct (mul_round u e rnd Hu He Hr w Z3 t0 d3 0.4361 708.2 0.4364 2194.0 1576.0) as (b4 & F4 & O4); try num. rewrite F4.
  destruct (add_round u e rnd Hu He Hr (w * Z3) at_Q4 b4 q4 503.7 1576.0 194.9 2276.0) as (d4 & G4 & N4); try (unfold at_Q4; num). rewrite G4.
  set (Z4 := w * Z3 + at_Q4) in *. assert (HZ4 : Rabs Z4 <= 503.7) by (unfold Z4, at_Q4; num).
  assert (LQ : 194.5 <= Z4) by (unfold Z4, Z3, Z2, Z1, Z0, at_Q0, at_Q1, at_Q2, at_Q3, at_Q4; interval).
  destruct (mul_round0 u e rnd Hu He Hr x w t0 0.6602 0.4361 0.4364 0.5764) as (n1 & R1 & S1); try num. rewrite R1.
  assert (HXW : Rabs (x * w) <= 0.2881) by (rewrite Rabs_mult; apply Rle_trans with (0.6602 * 0.4361); [apply Rmult_le_compat; auto; apply Rabs_pos|lra]).
  destruct (mul_round u e rnd Hu He Hr (x * w) Y4 n1 c4 0.2881 134.3 0.5764 528.5 268.6) as (n2 & R2 & S2); try num. rewrite R2.
  assert (HR : Rabs (x * w * Y4 / Z4) <= 0.07688) by (unfold Y4, Y3, Y2, Y1, Z4, Z3, Z2, Z1, Z0, w, at_P0, at_P1, at_P2, at_P3, at_P4, at_Q0, at_Q1, at_Q2, at_Q3, at_Q4; apply Rabs_le_inv in Hz; interval with (i_bisect x, i_autodiff x)).
  destruct (div_round (x * w * Y4) Z4 n2 d4 268.6 2276.0 0.07688 194.5 2.36) as (r1 & R3 & S3); try num; auto. rewrite R3.
  set (v := x * w * Y4 / Z4) in *. assert (HV : Rabs (x + v) <= 0.6602).
  { unfold v, Y4, Y3, Y2, Y1, Z4, Z3, Z2, Z1, Z0, w, at_P0, at_P1, at_P2, at_P3, at_P4, at_Q0, at_Q1, at_Q2, at_Q3, at_Q4; apply Rabs_le_inv in Hz; interval with (i_bisect x, i_autodiff x). }
  destruct (add_round u e rnd Hu He Hr x v 0 r1 0.6602 0 2.36 3.022) as (r2 & R4 & S4); try num. replace (x + (v + u * r1)) with (x + u * 0 + (v + u * r1)) by ring.
  rewrite R4. exists r2. split; [reflexivity|auto].
Qed.
Lemma kr42 x : Rabs x <= 0.4144 -> exists c, atan_kernel (Fn rnd) x = atan_kernel Rn x + u * c /\ Rabs c <= 0.73.
Proof.
  intros Hz. pose proof (u_range u Hu) as U. unfold atan_kernel. cbn [nadd nmul ndiv nlit Fn Rn].
  assert (HW : 0 <= x * x <= 0.1719) by (apply Rabs_le_inv in Hz; split; [apply Rle_0_sqr|interval]).
  destruct (ex (x * x) 0.1719) as (t0 & E0 & B0); [rewrite Rabs_pos_eq; lra|lra|]. rewrite E0.
  assert (W : Rabs (x * x) <= 0.1719) by (rewrite Rabs_pos_eq; lra). assert (T0 : Rabs t0 <= 0.1721) by lra.
  destruct (ex at_P0 0.8755) as (p0 & EP0 & BP0); [unfold at_P0; num|lra|].
  destruct (ex at_Q0 24.88) as (q0 & EQ0 & BQ0); [unfold at_Q0; num|lra|].
  destruct (ex at_P1 16.17) as (p1 & EP1 & BP1); [unfold at_P1; num|lra|].
  destruct (ex at_Q1 165.2) as (q1 & EQ1 & BQ1); [unfold at_Q1; num|lra|].
  destruct (ex at_P2 75.05) as (p2 & EP2 & BP2); [unfold at_P2; num|lra|].
  destruct (ex at_Q2 433.1) as (q2 & EQ2 & BQ2); [unfold at_Q2; num|lra|].
  destruct (ex at_P3 123.0) as (p3 & EP3 & BP3); [unfold at_P3; num|lra|].
  destruct (ex at_Q3 485.7) as (q3 & EQ3 & BQ3); [unfold at_Q3; num|lra|].
  destruct (ex at_P4 64.89) as (p4 & EP4 & BP4); [unfold at_P4; num|lra|].
  destruct (ex at_Q4 194.7) as (q4 & EQ4 & BQ4); [unfold at_Q4; num|lra|].
  rewrite EP0, EP1, EP2, EP3, EP4, EQ0, EQ1, EQ2, EQ3, EQ4.
  set (w := x * x) in *.
  destruct (mul_round u e rnd Hu He Hr w at_P0 t0 p0 0.1719 0.8755 0.1721 0.8761 0.4521) as (a1 & A1 & L1); try (unfold at_P0; num). rewrite A1.
  destruct (add_round u e rnd Hu He Hr (w * at_P0) at_P1 a1 p1 16.32 0.4521 16.18 32.98) as (c1 & D1 & M1); try (unfold at_P0, at_P1; num). rewrite D1.
  set (Y1 := w * at_P0 + at_P1) in *. assert (HY1 : Rabs Y1 <= 16.32) by (unfold Y1, at_P0, at_P1; num).
  destruct (mul_round u e rnd Hu He Hr w Y1 t0 c1 0.1719 16.32 0.1721 32.98 11.29) as (a2 & A2 & L2); try (unfold at_P0; num). rewrite A2.
  destruct (add_round u e rnd Hu He Hr (w * Y1) at_P2 a2 p2 77.86 11.29 75.1 164.4) as (c2 & D2 & M2); try (unfold at_P0, at_P2; num). rewrite D2.
  set (Y2 := w * Y1 + at_P2) in *. assert (HY2 : Rabs Y2 <= 77.86) by (unfold Y2, at_P0, at_P2; num).
  destruct (mul_round u e rnd Hu He Hr w Y2 t0 c2 0.1719 77.86 0.1721 164.4 55.08) as (a3 & A3 & L3); try (unfold at_P0; num). rewrite A3.
  destruct (add_round u e rnd Hu He Hr (w * Y2) at_P3 a3 p3 136.4 55.08 123.1 314.8) as (c3 & D3 & M3); try (unfold at_P0, at_P3; num). rewrite D3.
  set (Y3 := w * Y2 + at_P3) in *. assert (HY3 : Rabs Y3 <= 136.4) by (unfold Y3, at_P0, at_P3; num).
  destruct (mul_round u e rnd Hu He Hr w Y3 t0 c3 0.1719 136.4 0.1721 314.8 101.1) as (a4 & A4 & L4); try (unfold at_P0; num). rewrite A4.
  destruct (add_round u e rnd Hu He Hr (w * Y3) at_P4 a4 p4 88.35 101.1 64.93 254.6) as (c4 & D4 & M4); try (unfold at_P0, at_P4; num). rewrite D4.
  set (Y4 := w * Y3 + at_P4) in *. assert (HY4 : Rabs Y4 <= 88.35) by (unfold Y4, at_P0, at_P4; num).
  destruct (add_round u e rnd Hu He Hr w at_Q0 t0 q0 25.05 0.1721 24.9 50.15) as (d0 & G0 & N0); try (unfold at_Q0; num). rewrite G0.
  set (Z0 := w + at_Q0) in *. assert (HZ0 : Rabs Z0 <= 25.05) by (unfold Z0, at_Q0; num).
  destruct (mul_round u e rnd Hu He Hr w Z0 t0 d0 0.1719 25.05 0.1721 50.15 17.25) as (b1 & F1 & O1); try num. rewrite F1.
  destruct (add_round u e rnd Hu He Hr (w * Z0) at_Q1 b1 q1 169.5 17.25 165.3 352.3) as (d1 & G1 & N1); try (unfold at_Q1; num). rewrite G1.
  set (Z1 := w * Z0 + at_Q1) in *. assert (HZ1 : Rabs Z1 <= 169.5) by (unfold Z1, at_Q1; num).
  destruct (mul_round u e rnd Hu He Hr w Z1 t0 d1 0.1719 169.5 0.1721 352.3 119.0) as (b2 & F2 & O2); try num. rewrite F2.
  destruct (add_round u e rnd Hu He Hr (w * Z1) at_Q2 b2 q2 462.3 119.0 433.4 1016.0) as (d2 & G2 & N2); try (unfold at_Q2; num). rewrite G2.
  set (Z2 := w * Z1 + at_Q2) in *. assert (HZ2 : Rabs Z2 <= 462.3) by (unfold Z2, at_Q2; num).
  destruct (mul_round u e rnd Hu He Hr w Z2 t0 d2 0.1719 462.3 0.1721 1016.0 333.9) as (b3 & F3 & O3); try num. rewrite F3.
  destruct (add_round u e rnd Hu He Hr (w * Z2) at_Q3 b3 q3 565.2 333.9 486.0 1386.0) as (d3 & G3 & N3); try (unfold at_Q3; num). rewrite G3.
  set (Z3 := w * Z2 + at_Q3) in *. assert (HZ3 : Rabs Z3 <= 565.2) by (unfold Z3, at_Q3; num).
  destruct (mul_round u e rnd Hu He Hr w Z3 t0 d3 0.1719 565.2 0.1721 1386.0 433.0) as (b4 & F4 & O4); try num. rewrite F4.
  destruct (add_round u e rnd Hu He Hr (w * Z3) at_Q4 b4 q4 291.9 433.0 194.9 920.3) as (d4 & G4 & N4); try (unfold at_Q4; num). rewrite G4.
  set (Z4 := w * Z3 + at_Q4) in *. assert (HZ4 : Rabs Z4 <= 291.9) by (unfold Z4, at_Q4; num).
  assert (LQ : 194.5 <= Z4) by (unfold Z4, Z3, Z2, Z1, Z0, at_Q0, at_Q1, at_Q2, at_Q3, at_Q4; interval).
  destruct (mul_round0 u e rnd Hu He Hr x w t0 0.4144 0.1719 0.1721 0.1427) as (n1 & R1 & S1); try num. rewrite R1.
  assert (HXW : Rabs (x * w) <= 0.07128) by (rewrite Rabs_mult; apply Rle_trans with (0.4144 * 0.1719); [apply Rmult_le_compat; auto; apply Rabs_pos|lra]).
  destruct (mul_round u e rnd Hu He Hr (x * w) Y4 n1 c4 0.07128 88.35 0.1427 254.6 37.08) as (n2 & R2 & S2); try num. rewrite R2.
  assert (HR : Rabs (x * w * Y4 / Z4) <= 0.0216) by (unfold Y4, Y3, Y2, Y1, Z4, Z3, Z2, Z1, Z0, w, at_P0, at_P1, at_P2, at_P3, at_P4, at_Q0, at_Q1, at_Q2, at_Q3, at_Q4; apply Rabs_le_inv in Hz; interval with (i_bisect x, i_autodiff x)).
  destruct (div_round (x * w * Y4) Z4 n2 d4 37.08 920.3 0.0216 194.5 0.315) as (r1 & R3 & S3); try num; auto. rewrite R3.
  set (v := x * w * Y4 / Z4) in *. assert (HV : Rabs (x + v) <= 0.4144).
  { unfold v, Y4, Y3, Y2, Y1, Z4, Z3, Z2, Z1, Z0, w, at_P0, at_P1, at_P2, at_P3, at_P4, at_Q0, at_Q1, at_Q2, at_Q3, at_Q4; apply Rabs_le_inv in Hz; interval with (i_bisect x, i_autodiff x). }
  destruct (add_round u e rnd Hu He Hr x v 0 r1 0.4144 0 0.315 0.73) as (r2 & R4 & S4); try num. replace (x + (v + u * r1)) with (x + u * 0 + (v + u * r1)) by ring.
  rewrite R4. exists r2. split; [reflexivity|auto].
Qed.
Lemma atan_mvt a b : exists m, Rmin a b <= m <= Rmax a b /\ Ratan.atan b - Ratan.atan a = (b - a) / (1 + m * m).
Proof.
  assert (D : forall x, derivable_pt_lim Ratan.atan x (/ (1 + x ^ 2))) by (intros; apply derivable_pt_lim_atan).
  assert (G : forall a b, a < b -> exists m, a <= m <= b /\ Ratan.atan b - Ratan.atan a = (b - a) / (1 + m * m)).
  { intros a' b' L. destruct (MVT_cor2 Ratan.atan (fun x => / (1 + x ^ 2)) a' b' L) as (m & E & M); [intros; apply D|]. exists m. split; [lra|]. rewrite E. unfold Rdiv. replace (m ^ 2) with (m * m) by ring. ring. }
  destruct (Rtotal_order a b) as [L|[<-|L]].
  - rewrite Rmin_left, Rmax_right by lra. apply G; auto.
  - exists a. rewrite Rmin_left, Rmax_left by lra. split; [lra|]. unfold Rdiv. ring.
  - rewrite Rmin_right, Rmax_left by lra. destruct (G b a L) as (m & M & E). exists m. split; auto. replace (b - a) with (- (a - b)) by ring. unfold Rdiv in *. rewrite Ropp_mult_distr_l_reverse, <- E. ring.
Qed.
Lemma atan_lip a b : Rabs (Ratan.atan a - Ratan.atan b) <= Rabs (a - b).
Proof.
  destruct (atan_mvt b a) as (m & _ & ->). unfold Rdiv. rewrite Rabs_mult. rewrite <- (Rmult_1_r (Rabs (a - b))) at 2. apply Rmult_le_compat_l; [apply Rabs_pos|].
  assert (0 <= m * m) by (apply Rle_0_sqr). rewrite Rabs_pos_eq by (apply Rlt_le, Rinv_0_lt_compat; lra). rewrite <- Rinv_1. apply Rinv_le_contravar; lra.
Qed.
Lemma atan_rel a b : Rabs (b - a) <= u * Rabs a + e -> Rabs (Ratan.atan b - Ratan.atan a) <= 0.501 * u.
Proof.
  intros H. destruct (atan_mvt a b) as (m & M & ->). assert (m2 : 0 <= m * m) by (apply Rle_0_sqr). unfold Rdiv. rewrite Rabs_mult, (Rabs_pos_eq (/ (1 + m * m))) by (apply Rlt_le, Rinv_0_lt_compat; lra).
  apply Rmult_le_reg_r with (1 + m * m); [lra|]. rewrite Rmult_assoc, Rinv_l, Rmult_1_r by lra. pose proof (Rabs_pos a) as A0.
  destruct (Rle_dec (Rabs a) 0.1) as [L|L].
  - assert (u * Rabs a <= u * 0.1) by (apply Rmult_le_compat_l; lra). assert (0 <= u * (m * m)) by (apply Rmult_le_pos; lra). lra.
  - assert (Q : u * Rabs a <= 1e-7 * Rabs a) by (apply Rmult_le_compat_r; lra). assert (HH : Rabs (b - a) <= 0.00001 * Rabs a) by lra.
    assert (MM : 0.9999 * Rabs a <= Rabs m). { revert M HH. unfold Rmin, Rmax, Rabs. destruct (Rle_dec a b), (Rcase_abs (b - a)), (Rcase_abs a), (Rcase_abs m); intros; lra. }
    assert (S : 2 * Rabs m <= 1 + m * m). { pose proof (Rle_0_sqr (Rabs m - 1)) as P. unfold Rsqr in P. assert (E : Rabs m * Rabs m = m * m) by (rewrite <- Rabs_mult; apply Rabs_pos_eq; auto). lra. }
    assert (u * (1.9998 * Rabs a) <= u * (1 + m * m)) by (apply Rmult_le_compat_l; lra). assert (u * 0.1 <= u * Rabs a) by (apply Rmult_le_compat_l; lra). lra.
Qed.
Lemma kernel_acc2 x : -0.2101 <= x <= 0.6602 -> Rabs (atan_kernel Rn x - Ratan.atan x) <= 1e-17.
Proof.
  intros H. unfold atan_kernel. cbn [nadd nmul ndiv nlit Rn]. atlits.
  interval with (i_taylor x, i_bisect x, i_degree 16, i_prec 100).
Qed.

Lemma approx_round x : 0 <= x -> Rabs (atan_approx (Fn rnd) x - Ratan.atan x) <= 5.9 * u + 1e-16.
Proof.
  intros H0. pose proof (u_range u Hu) as U. unfold atan_approx. cbn [nleb nltb Fn nlit].
  destruct (ex 0.66 0.66) as (tl & El & Bl); [rewrite Rabs_pos_eq; lra|lra|]. rewrite El.
  assert (UL : Rabs (u * tl) <= 0.0001) by interval. apply Rabs_le_inv in UL.
  destruct (Rle_bool_spec x (0.66 + u * tl)) as [H|H].
  { destruct (kr66 x) as (c & E & C); [rewrite Rabs_pos_eq; lra|]. rewrite E. pose proof (kernel_acc2 x ltac:(lra)) as K.
    assert (Rabs (u * c) <= 3.1 * u) by (rewrite Rabs_mult, (Rabs_pos_eq u), Rmult_comm by lra; apply Rmult_le_compat_r; lra).
    replace (atan_kernel Rn x + u * c - Ratan.atan x) with ((atan_kernel Rn x - Ratan.atan x) + u * c) by ring. eapply Rle_trans; [apply Rabs_triang|]. lra. }
  destruct (ex 2.41421356237309504880 2.415) as (tm & Em & Bm); [rewrite Rabs_pos_eq; lra|lra|]. rewrite Em.
  assert (UM : Rabs (u * tm) <= 0.000001) by interval. apply Rabs_le_inv in UM.
  destruct (ex at_MOREBITS 1e-15) as (tb & Eb & Bb); [unfold at_MOREBITS; interval|lra|].
  destruct (Rlt_bool_spec (2.41421356237309504880 + u * tm) x) as [H'|H'].
  - pose proof (atan_inv x ltac:(lra)) as A. cbn [nsub nadd ndiv n1 nlit Fn]. unfold HalfPi. cbn [nlit Fn].
    assert (B : 0 <= 1 / x <= 0.41422).
    { split; [apply Rlt_le, Rdiv_lt_0_compat; lra|]. apply (Rmult_le_reg_r x); [lra|]. unfold Rdiv. rewrite Rmult_assoc, Rinv_l; lra. }
    destruct (ex (1 / x) 0.41422) as (t1 & E1 & B1); [rewrite Rabs_pos_eq; lra|lra|]. rewrite E1. 
    assert (Ut : Rabs (u * t1) <= 0.41427 * u) by (rewrite Rabs_mult, (Rabs_pos_eq u), Rmult_comm by lra; apply Rmult_le_compat_r; lra).
    set (z := 1 / x + u * t1). assert (Z : -0.0001 <= z <= 0.4144) by (apply Rabs_le_inv in Ut; unfold z; lra).
    destruct (kr42 z) as (c & Ec & C); [apply Rabs_le; lra|]. rewrite Ec. pose proof (kernel_acc2 z ltac:(lra)) as K.
    replace (/ x) with (1 / x) in A by (field; lra). pose proof (atan_lip z (1 / x)) as L. replace (z - 1 / x) with (u * t1) in L by (unfold z; ring).
    assert (P : Rabs (HalfPi_lit + at_MOREBITS - PI / 2) <= 7e-17) by (unfold HalfPi_lit, at_MOREBITS; interval with (i_prec 100)).
    destruct (ex HalfPi_lit 1.571) as (tp & Ep & Bp); [unfold HalfPi_lit; interval|lra|]. rewrite Ep, Eb.
    destruct (add_round u e rnd Hu He Hr HalfPi_lit at_MOREBITS tp tb 1.571 1.5713 1.1e-15 3.1426) as (ts & Es & Bs); try lra. { unfold HalfPi_lit, at_MOREBITS; interval. } rewrite Es.
    pose proof (atan_bound z) as Bz. assert (Z2 : -0.0002 <= Ratan.atan z <= 0.42).
    { split; [apply Rle_trans with (Ratan.atan (-0.0001)); [interval|]|apply Rle_trans with (Ratan.atan 0.4144); [|interval]].
      - destruct (Req_dec z (-0.0001)) as [->|]; [lra|left; apply atan_increasing; lra].
      - destruct (Req_dec z 0.4144) as [->|]; [lra|left; apply atan_increasing; lra]. }
    set (kz := atan_kernel Rn z) in *. clearbody kz. apply Rabs_le_inv in P, K. pose proof PI_4. assert (PI3 : 3.1415 <= PI <= 3.1416) by (split; interval).
    assert (KM : Rabs ((HalfPi_lit + at_MOREBITS + u * ts) - (kz + u * c)) <= 1.5711).
    { assert (Q : Rabs (u * ts - u * c) <= 0.000001) by interval. apply Rabs_le_inv in Q. apply Rabs_le. lra. }
    destruct (ex ((HalfPi_lit + at_MOREBITS + u * ts) - (kz + u * c)) 1.5711) as (tf & Ef & Bf); [auto|lra|]. rewrite Ef.
    assert (UU : Rabs (u * (ts - c + tf)) <= 5.45 * u). { rewrite Rabs_mult, (Rabs_pos_eq u), Rmult_comm by lra. apply Rmult_le_compat_r; [lra|]. apply Rabs_le_inv in Bs, C, Bf. apply Rabs_le. lra. }
    assert (UU2 : u * (ts - c + tf) = u * ts - u * c + u * tf) by ring. rewrite UU2 in UU. apply Rabs_le_inv in UU, L, Ut.
    assert (Lz : - (0.41427 * u) <= Ratan.atan z - Ratan.atan (1 / x) <= 0.41427 * u). { pose proof (Rabs_pos (u * t1)). assert (Rabs (u * t1) <= 0.41427 * u) by (apply Rabs_le; lra). lra. }
    apply Rabs_le. lra.
  - cbn [nsub nadd ndiv nmul n1 nlit Fn]. unfold FourthPi. cbn [nlit Fn].
    set (z := (x - 1) / (x + 1)). 
    assert (Z : -0.205 <= z <= 0.41422).
    { unfold z. split; [apply (Rmult_le_reg_r (x + 1))|apply (Rmult_le_reg_r (x + 1))]; try lra; unfold Rdiv; rewrite Rmult_assoc, Rinv_l; lra. }
    assert (ZX : x - 1 = z * (x + 1)) by (unfold z; field; lra).
    assert (A : Ratan.atan x = PI / 4 + Ratan.atan z).
    { pose proof (atan_bound z) as B. pose proof PI_RGT_0.
      assert (Z1 : -1 < z < 1) by lra.
      assert (Bz : - (PI / 4) < Ratan.atan z < PI / 4).
      { rewrite <- atan_1, <- atan_opp. split; apply atan_increasing; lra. }
      assert (C1 : cos (Ratan.atan z) <> 0) by (apply Rgt_not_eq, cos_gt_0; lra).
      assert (C2 : cos (PI / 4) <> 0) by (apply Rgt_not_eq, cos_gt_0; lra).
      assert (C3 : cos (PI / 4 + Ratan.atan z) <> 0) by (apply Rgt_not_eq, cos_gt_0; lra).
      rewrite <- (atan_tan (PI / 4 + Ratan.atan z)) by lra. f_equal.
      rewrite tan_plus; auto; rewrite tan_atan, tan_PI4; [|unfold z; intros E; field_simplify_eq in E; lra].
      unfold z. field. split; lra. }
    (* the rounded quotient *)
    assert (G : forall a, exists t, rnd a = a + u * t /\ Rabs t <= Rabs a + 1e-20).
    { intros a. exists ((rnd a - a) / u). split; [field; lra|]. pose proof (Hr a) as Q. unfold Rdiv. rewrite Rabs_mult, (Rabs_pos_eq (/ u)) by (apply Rlt_le, Rinv_0_lt_compat; lra).
      apply Rmult_le_reg_r with u; [lra|]. rewrite Rmult_assoc, Rinv_l, Rmult_1_r by lra. lra. }
    destruct (G (x - 1)) as (t1 & E1 & B1). destruct (G (x + 1)) as (t2 & E2 & B2). rewrite E1, E2.
    assert (AZ : Rabs z <= 0.41422) by (apply Rabs_le; lra).
    rewrite ZX in B1. rewrite Rabs_mult, (Rabs_pos_eq (x + 1)) in B1 by lra. rewrite (Rabs_pos_eq (x + 1)) in B2 by lra.
    set (X1 := x + 1) in *. assert (HX1 : 1.6598 <= X1 <= 3.4143) by (unfold X1; lra).
    assert (UT2 : Rabs (u * t2) <= 0.000001 * X1). { rewrite Rabs_mult, (Rabs_pos_eq u) by lra. apply Rle_trans with (1e-7 * (X1 + 1e-20)); [apply Rmult_le_compat; try lra; apply Rabs_pos|lra]. } apply Rabs_le_inv in UT2.
    set (g := (t1 - z * t2) / (X1 + u * t2)).
    assert (EQ : (x - 1 + u * t1) / (X1 + u * t2) = z + u * g). { rewrite ZX. unfold g. field. lra. }
    assert (Hg : Rabs g <= 0.8286).
    { unfold g, Rdiv. rewrite Rabs_mult, (Rabs_pos_eq (/ (X1 + u * t2))) by (apply Rlt_le, Rinv_0_lt_compat; lra). apply Rmult_le_reg_r with (X1 + u * t2); [lra|]. rewrite Rmult_assoc, Rinv_l, Rmult_1_r by lra.
      unfold Rminus. eapply Rle_trans; [apply Rabs_triang|]. rewrite Rabs_Ropp, Rabs_mult. 
      assert (Rabs z * Rabs t2 <= 0.41422 * (X1 + 1e-20)) by (apply Rmult_le_compat; auto; apply Rabs_pos). assert (Rabs z * X1 <= 0.41422 * X1) by (apply Rmult_le_compat_r; lra). lra. }
    rewrite EQ. destruct (ex (z + u * g) 0.41424) as (t3 & E3 & B3).
    { assert (Q : Rabs (u * g) <= 0.00001) by interval. apply Rabs_le_inv in Q. apply Rabs_le. lra. } { lra. } rewrite E3.
    set (zh := z + u * g + u * t3). assert (Dz : Rabs (zh - z) <= 1.2433 * u).
    { unfold zh. replace (z + u * g + u * t3 - z) with (u * (g + t3)) by ring. rewrite Rabs_mult, (Rabs_pos_eq u), Rmult_comm by lra. apply Rmult_le_compat_r; [lra|]. pose proof (Rabs_triang g t3). lra. }
    assert (Zh : -0.2051 <= zh <= 0.4144) by (apply Rabs_le_inv in Dz; lra).
    destruct (kr42 zh) as (c & Ec & C); [apply Rabs_le; lra|]. rewrite Ec. pose proof (kernel_acc2 zh ltac:(lra)) as K. pose proof (atan_lip zh z) as L.
    assert (P : Rabs (FourthPi_lit + 0.5 * at_MOREBITS - PI / 4) <= 7e-17) by (unfold FourthPi_lit, at_MOREBITS; interval with (i_prec 100)).
    destruct (ex FourthPi_lit 0.7854) as (tp & Ep & Bp); [unfold FourthPi_lit; interval|lra|]. rewrite Ep, Eb.
    destruct (ex 0.5 0.5) as (th & Eh & Bh); [rewrite Rabs_pos_eq; lra|lra|]. rewrite Eh.
    destruct (mul_round u e rnd Hu He Hr 0.5 at_MOREBITS th tb 1 1e-15 1 1.1e-15 1e-14) as (tq & Eq5 & Bq); try lra; try (unfold at_MOREBITS; interval). rewrite Eq5.
    destruct (add_round u e rnd Hu He Hr FourthPi_lit (0.5 * at_MOREBITS) tp tq 0.7854 0.7856 1e-14 1.5713) as (ts & Es & Bs); try lra. { unfold FourthPi_lit, at_MOREBITS; interval. } rewrite Es.
    assert (Z2 : -0.21 <= Ratan.atan zh <= 0.3929).
    { split; [apply Rle_trans with (Ratan.atan (-0.2051)); [interval|]|apply Rle_trans with (Ratan.atan 0.4144); [|interval]].
      - destruct (Req_dec zh (-0.2051)) as [->|]; [lra|left; apply atan_increasing; lra].
      - destruct (Req_dec zh 0.4144) as [->|]; [lra|left; apply atan_increasing; lra]. }
    set (kz := atan_kernel Rn zh) in *. clearbody kz. apply Rabs_le_inv in P, K. assert (PI3 : 3.1415 <= PI <= 3.1416) by (split; interval).
    assert (KM : Rabs ((FourthPi_lit + 0.5 * at_MOREBITS + u * ts) + (kz + u * c)) <= 1.1785).
    { assert (Q : Rabs (u * ts + u * c) <= 0.000001) by interval. apply Rabs_le_inv in Q. apply Rabs_le. lra. }
    destruct (ex ((FourthPi_lit + 0.5 * at_MOREBITS + u * ts) + (kz + u * c)) 1.1785) as (tf & Ef & Bf); [auto|lra|]. rewrite Ef.
    assert (UU : Rabs (u * (ts + c + tf)) <= 3.5 * u). { rewrite Rabs_mult, (Rabs_pos_eq u), Rmult_comm by lra. apply Rmult_le_compat_r; [lra|]. apply Rabs_le_inv in Bs, C, Bf. apply Rabs_le. lra. }
    assert (UU2 : u * (ts + c + tf) = u * ts + u * c + u * tf) by ring. rewrite UU2 in UU. apply Rabs_le_inv in UU.
    assert (Lz : - (1.2433 * u) <= Ratan.atan zh - Ratan.atan z <= 1.2433 * u) by (apply Rabs_le_inv; lra).
    apply Rabs_le. lra.
Qed.
Lemma atan_round x : Rabs (atan (Fn rnd) x - Ratan.atan x) <= 5.9 * u + 1e-16.
Proof.
  unfold atan. cbn [nleb n0 nopp Fn]. destruct (Rle_bool_spec 0 x) as [H|H].
  - apply approx_round; auto.
  - pose proof (approx_round (- x) ltac:(lra)) as A. rewrite atan_opp in A. rewrite <- Rabs_Ropp.
    replace (- (- atan_approx (Fn rnd) (- x) - Ratan.atan x)) with (atan_approx (Fn rnd) (- x) - - Ratan.atan x) by ring. auto.
Qed.

Lemma rnd_crude a b : Rabs a <= b -> 1e-15 <= b -> Rabs (rnd a) <= 1.0001 * b.
Proof. intros H Hb. destruct (ex a b H Hb) as (t & E & T). rewrite E. pose proof (u_range u Hu). eapply Rle_trans; [apply Rabs_triang|]. rewrite Rabs_mult, (Rabs_pos_eq u) by lra. assert (u * Rabs t <= 1e-7 * (1.0001 * b)) by (apply Rmult_le_compat; try lra; apply Rabs_pos). lra. Qed.
Lemma rnd_low a b : 1 <= b <= a -> 0.9999 * b <= rnd a.
Proof. intros H. pose proof (Hr a) as Q. rewrite (Rabs_pos_eq a) in Q by lra. apply Rabs_le_inv in Q. assert (u * a <= 1e-7 * a) by (apply Rmult_le_compat_r; lra). lra. Qed.
Lemma atan_001 : 0.009 < Ratan.atan 0.01.
Proof. interval. Qed.
(** the sign survives unless the argument is as small as the underflow threshold *)
Lemma approx_sign x : e <= u * 1e-36 -> 0.9e-33 <= x -> 0 < atan_approx (Fn rnd) x.
Proof.
  intros He2 Hx. pose proof (u_range u Hu) as U. destruct (Rle_dec 0.01 x) as [L|L].
  { pose proof (approx_round x ltac:(lra)) as A. apply Rabs_le_inv in A.
    assert (Ratan.atan 0.01 <= Ratan.atan x) by (destruct (Req_dec x 0.01) as [->|]; [lra|left; apply atan_increasing; lra]).
    pose proof atan_001. lra. }
  apply Rnot_le_lt in L. unfold atan_approx. cbn [nleb Fn nlit].
  destruct (ex 0.66 0.66) as (tl & El & Bl); [rewrite Rabs_pos_eq; lra|lra|]. rewrite El. assert (UL : Rabs (u * tl) <= 0.0001) by interval. apply Rabs_le_inv in UL.
  rewrite Rle_bool_true by lra. unfold atan_kernel. cbn [nadd nmul ndiv nlit Fn].
  assert (W : Rabs (rnd (x * x)) <= 0.00011). { eapply Rle_trans; [apply (rnd_crude (x * x) 0.000101); [|lra]|lra]. rewrite Rabs_pos_eq by nra. nra. }
  set (w := rnd (x * x)) in *. clearbody w.
  assert (M : forall a b A B, Rabs a <= A -> Rabs b <= B -> 1e-15 <= A * B -> Rabs (rnd (a * b)) <= 1.0001 * (A * B)). { intros a b A B HA HB HAB. apply rnd_crude; auto. rewrite Rabs_mult. apply Rmult_le_compat; auto; apply Rabs_pos. }
  assert (S : forall a b A B, Rabs a <= A -> Rabs b <= B -> 1e-15 <= A + B -> Rabs (rnd (a + b)) <= 1.0001 * (A + B)). { intros a b A B HA HB HAB. apply rnd_crude; auto. eapply Rle_trans; [apply Rabs_triang|]. lra. }
  assert (LP0 : Rabs (rnd at_P0) <= 1) by (eapply Rle_trans; [apply (rnd_crude at_P0 0.9); [unfold at_P0; interval|lra]|lra]).
  assert (LP1 : Rabs (rnd at_P1) <= 17) by (eapply Rle_trans; [apply (rnd_crude at_P1 16.2); [unfold at_P1; interval|lra]|lra]).
  assert (LP2 : Rabs (rnd at_P2) <= 76) by (eapply Rle_trans; [apply (rnd_crude at_P2 75.1); [unfold at_P2; interval|lra]|lra]).
  assert (LP3 : Rabs (rnd at_P3) <= 124) by (eapply Rle_trans; [apply (rnd_crude at_P3 123); [unfold at_P3; interval|lra]|lra]).
  assert (LP4 : Rabs (rnd at_P4) <= 66) by (eapply Rle_trans; [apply (rnd_crude at_P4 65); [unfold at_P4; interval|lra]|lra]).
  assert (LQ0 : Rabs (rnd at_Q0) <= 26) by (eapply Rle_trans; [apply (rnd_crude at_Q0 25); [unfold at_Q0; interval|lra]|lra]).
  assert (LQ1 : Rabs (rnd at_Q1) <= 167) by (eapply Rle_trans; [apply (rnd_crude at_Q1 166); [unfold at_Q1; interval|lra]|lra]).
  assert (LQ2 : Rabs (rnd at_Q2) <= 435) by (eapply Rle_trans; [apply (rnd_crude at_Q2 433); [unfold at_Q2; interval|lra]|lra]).
  assert (LQ3 : Rabs (rnd at_Q3) <= 488) by (eapply Rle_trans; [apply (rnd_crude at_Q3 486); [unfold at_Q3; interval|lra]|lra]).
  assert (LQ4 : 194 <= rnd at_Q4) by (eapply Rle_trans; [|apply (rnd_low at_Q4 194.5); unfold at_Q4; lra]; lra).
  assert (P : Rabs (rnd (rnd (w * rnd (rnd (w * rnd (rnd (w * rnd (rnd (w * rnd at_P0) + rnd at_P1)) + rnd at_P2)) + rnd at_P3)) + rnd at_P4)) <= 70).
  { pose proof (M _ _ _ _ W LP0 ltac:(lra)) as A1. pose proof (S _ _ _ _ A1 LP1 ltac:(lra)) as A2. pose proof (M _ _ _ _ W A2 ltac:(lra)) as A3. pose proof (S _ _ _ _ A3 LP2 ltac:(lra)) as A4.
    pose proof (M _ _ _ _ W A4 ltac:(lra)) as A5. pose proof (S _ _ _ _ A5 LP3 ltac:(lra)) as A6. pose proof (M _ _ _ _ W A6 ltac:(lra)) as A7. pose proof (S _ _ _ _ A7 LP4 ltac:(lra)) as A8. eapply Rle_trans; [exact A8|]. lra. }
  set (Ph := rnd (rnd (w * _) + rnd at_P4)) in *. clearbody Ph.
  assert (Q : 190 <= rnd (rnd (w * rnd (rnd (w * rnd (rnd (w * rnd (rnd (w * rnd (w + rnd at_Q0)) + rnd at_Q1)) + rnd at_Q2)) + rnd at_Q3)) + rnd at_Q4)).
  { pose proof (S _ _ _ _ W LQ0 ltac:(lra)) as A0. pose proof (M _ _ _ _ W A0 ltac:(lra)) as A1. pose proof (S _ _ _ _ A1 LQ1 ltac:(lra)) as A2. pose proof (M _ _ _ _ W A2 ltac:(lra)) as A3. pose proof (S _ _ _ _ A3 LQ2 ltac:(lra)) as A4.
    pose proof (M _ _ _ _ W A4 ltac:(lra)) as A5. pose proof (S _ _ _ _ A5 LQ3 ltac:(lra)) as A6. pose proof (M _ _ _ _ W A6 ltac:(lra)) as A7.
    apply Rabs_le_inv in A7. eapply Rle_trans; [|apply (rnd_low _ 193)]; lra. }
  set (Qh := rnd (rnd (w * _) + rnd at_Q4)) in *. clearbody Qh.
  (* the correction is small against x *)
  assert (R : forall a b, Rabs a <= b * x -> 0 <= b -> Rabs (rnd a) <= (1.001 * b + 0.0001) * x).
  { intros a b Ha Hb. pose proof (Hr a) as Q1. assert (u * Rabs a <= 1e-7 * (b * x)) by (apply Rmult_le_compat; try lra; apply Rabs_pos). assert (0 <= b * x) by (apply Rmult_le_pos; lra).
    replace (rnd a) with ((rnd a - a) + a) by ring. eapply Rle_trans; [apply Rabs_triang|]. lra. }
  assert (C1 : Rabs (rnd (x * w)) <= 0.0003 * x). { eapply Rle_trans; [apply (R _ 0.00011); [|lra]|apply Rmult_le_compat_r; lra]. rewrite Rabs_mult, (Rabs_pos_eq x), Rmult_comm by lra. apply Rmult_le_compat_r; lra. }
  assert (C2 : Rabs (rnd (rnd (x * w) * Ph)) <= 0.022 * x). { eapply Rle_trans; [apply (R _ 0.021); [|lra]|apply Rmult_le_compat_r; lra]. rewrite Rabs_mult. apply Rle_trans with ((0.0003 * x) * 70); [apply Rmult_le_compat; auto; apply Rabs_pos|lra]. }
  assert (C3 : Rabs (rnd (rnd (rnd (x * w) * Ph) / Qh)) <= 0.03 * x).
  { eapply Rle_trans; [apply (R _ 0.022); [|lra]|apply Rmult_le_compat_r; lra]. unfold Rdiv. rewrite Rabs_mult, (Rabs_pos_eq (/ Qh)) by (apply Rlt_le, Rinv_0_lt_compat; lra).
    apply Rle_trans with ((0.022 * x) * 1); [|lra]. apply Rmult_le_compat; auto; [apply Rabs_pos|apply Rlt_le, Rinv_0_lt_compat; lra|]. rewrite <- Rinv_1. apply Rinv_le_contravar; lra. }
  set (c := rnd (rnd (rnd (x * w) * Ph) / Qh)) in *. clearbody c. apply Rabs_le_inv in C3.
  pose proof (Hr (x + c)) as Q1. rewrite (Rabs_pos_eq (x + c)) in Q1 by lra. assert (u * (x + c) <= 1e-7 * (x + c)) by (apply Rmult_le_compat_r; lra). apply Rabs_le_inv in Q1. lra.
Qed.
Lemma atan_sign_round x : e <= u * 1e-36 -> (0.9e-33 <= x -> 0 < atan (Fn rnd) x) /\ (x <= -0.9e-33 -> atan (Fn rnd) x < 0).
Proof.
  intros He2. split; intros H; unfold atan; cbn [nleb n0 nopp Fn].
  - rewrite Rle_bool_true by lra. apply approx_sign; auto.
  - rewrite Rle_bool_false by lra. pose proof (approx_sign (- x) He2 ltac:(lra)). lra.
Qed.

Lemma atan2_round sy x y : e <= u * 1e-36 -> ~ (x = 0 /\ y = 0) -> (y < 0 -> sy = true) -> (0 <= y -> sy = false) ->
  exists t k, angle_of x y t /\ (k = -1 \/ k = 0 \/ k = 1) /\ Rabs (atan2 (Fn rnd) sy y x - (t + 2 * PI * k)) <= 13 * u + 1.1e-16 /\
  (0 <= x \/ y = 0 \/ 1e-33 <= Rabs (y / x) -> k = 0) /\ (0 <= x -> Rabs (atan2 (Fn rnd) sy y x - t) <= 6.5 * u + 1.1e-16).
Proof.
  intros He2 Hnz Hn Hp. pose proof (u_range u Hu) as U. unfold atan2. cbn [neqb nleb nltb n0 ndiv nadd nsub Fn]. pose proof PI_RGT_0 as PP.
  assert (Pa : Rabs (Pi_lit - PI) <= 1e-60) by (unfold Pi_lit; interval with (i_prec 300)). apply Rabs_le_inv in Pa. assert (PI3 : 3.14159 <= PI <= 3.141593) by (split; interval).
  destruct (ex Pi_lit 3.1416) as (tp & Ep & Bp); [apply Rabs_le; lra|lra|]. assert (UP : Rabs (u * tp) <= 3.142 * u) by (rewrite Rabs_mult, (Rabs_pos_eq u), Rmult_comm by lra; apply Rmult_le_compat_r; lra). apply Rabs_le_inv in UP.
  destruct (Req_bool_spec y 0) as [->|Y].
  { rewrite Hp by lra. unfold copysign. destruct (Rle_bool_spec 0 x) as [X|X].
    - exists 0, 0. split; [|split; [auto|split; [rewrite Rmult_0_r, Rplus_0_r, Rminus_0_r, Rabs_R0; lra|split; [auto|intros _; rewrite Rminus_0_r, Rabs_R0; lra]]]].
      split; [lra|]. rewrite cos_0, sin_0, Rmult_0_l, Rplus_0_r, sqrt_square by lra. lra.
    - exists PI, 0. split; [|split; [auto|split; [unfold Pi; cbn [nlit Fn]; rewrite Ep; apply Rabs_le; lra|split; [auto|intros; lra]]]].
      split; [lra|]. rewrite cos_PI, sin_PI, Rmult_0_l, Rplus_0_r. replace (x * x) with (- x * - x) by ring. rewrite sqrt_square by lra. lra. }
  destruct (Req_bool_spec x 0) as [->|X].
  { unfold copysign, HalfPi. cbn [nlit nopp Fn]. assert (Ph : Rabs (HalfPi_lit - PI / 2) <= 1e-60) by (unfold HalfPi_lit; interval with (i_prec 300)). apply Rabs_le_inv in Ph.
    destruct (ex HalfPi_lit 1.5709) as (th & Eh & Bh); [apply Rabs_le; lra|lra|]. assert (UH : Rabs (u * th) <= 1.5711 * u) by (rewrite Rabs_mult, (Rabs_pos_eq u), Rmult_comm by lra; apply Rmult_le_compat_r; lra). apply Rabs_le_inv in UH. rewrite Eh.
    destruct (Rle_dec 0 y).
    - rewrite Hp by lra. exists (PI / 2), 0. split; [|split; [auto|split; [apply Rabs_le; lra|split; [auto|intros _; apply Rabs_le; lra]]]]. split; [lra|]. rewrite cos_PI2, sin_PI2, Rmult_0_l, Rplus_0_l, sqrt_square by lra. lra.
    - rewrite Hn by lra. exists (- (PI / 2)), 0. split; [|split; [auto|split; [apply Rabs_le; lra|split; [auto|intros _; apply Rabs_le; lra]]]]. split; [lra|]. rewrite cos_neg, sin_neg, cos_PI2, sin_PI2, Rmult_0_l, Rplus_0_l.
      replace (y * y) with (- y * - y) by ring. rewrite sqrt_square by lra. lra. }
  pose proof (Hr (y / x)) as Q. set (q := rnd (y / x)) in *. pose proof (atan_rel (y / x) q Q) as A1. pose proof (atan_round q) as A2.
  assert (A : Rabs (atan (Fn rnd) q - Ratan.atan (y / x)) <= 6.401 * u + 1e-16).
  { replace (atan (Fn rnd) q - Ratan.atan (y / x)) with ((atan (Fn rnd) q - Ratan.atan q) + (Ratan.atan q - Ratan.atan (y / x))) by ring. eapply Rle_trans; [apply Rabs_triang|]. lra. }
  apply Rabs_le_inv in A. destruct (Rlt_bool_spec x 0) as [Xn|Xp].
  2:{ exists (Ratan.atan (y / x)), 0. split; [apply atan_polar; lra|]. split; [auto|]. split; [apply Rabs_le; lra|]. split; [auto|]. intros _. apply Rabs_le; lra. }
  pose proof (atan_polar (- x) (- y) ltac:(lra)) as P. replace (- y / - x) with (y / x) in P by (field; lra).
  pose proof (atan_bound (y / x)) as B. unfold Pi. cbn [nlit Fn]. rewrite Ep. destruct (atan_sign_round q He2) as [Sp Sn].
  set (ph := atan (Fn rnd) q) in *. clearbody ph. pose proof (angle_turn _ _ _ P) as G. rewrite !Ropp_involutive in G.
  (* the value, modulo a turn *)
  assert (V : forall s, s = 1 \/ s = -1 -> s * ph <= 0 -> Rabs (rnd (ph + s * (Pi_lit + u * tp)) - (Ratan.atan (y / x) + s * PI)) <= 13 * u + 1.1e-16).
  { intros s Hs Hph. destruct (ex (ph + s * (Pi_lit + u * tp)) 3.1417) as (tf & Ef & Bf); [apply Rabs_le; destruct Hs as [-> | ->]; lra|lra|]. rewrite Ef.
    assert (UF : Rabs (u * tf) <= 3.1421 * u) by (rewrite Rabs_mult, (Rabs_pos_eq u), Rmult_comm by lra; apply Rmult_le_compat_r; lra). apply Rabs_le_inv in UF. apply Rabs_le. destruct Hs as [-> | ->]; lra. }
  assert (QS : 1e-33 <= Rabs (y / x) -> (0 < y / x -> 0.9e-33 <= q) /\ (y / x < 0 -> q <= -0.9e-33)).
  { intros L. assert (QQ : u * Rabs (y / x) <= 1e-7 * Rabs (y / x)) by (apply Rmult_le_compat_r; lra). apply Rabs_le_inv in Q. split; intros S; [rewrite (Rabs_pos_eq (y / x)) in * by lra|rewrite (Rabs_left (y / x)) in * by lra]; lra. }
  destruct (Rle_dec 0 y) as [Yp|Yn].
  - assert (QQ : y / x < 0) by (unfold Rdiv; pose proof (Rinv_lt_0_compat x Xn); nra). assert (AN : Ratan.atan (y / x) < 0) by (rewrite <- atan_0; apply atan_increasing; auto).
    exists (Ratan.atan (y / x) + PI). destruct (Rlt_bool_spec 0 ph) as [F|F].
    + exists (-1). split; [apply G; [auto|lra]|]. split; [auto|]. split; [|split; [|intros; lra]].
      * replace (ph - (Pi_lit + u * tp)) with (ph + -1 * (Pi_lit + u * tp)) by ring. replace (Ratan.atan (y / x) + PI + 2 * PI * -1) with (Ratan.atan (y / x) + -1 * PI) by ring. apply V; [auto|lra].
      * intros [L|[L|L]]; [lra|lra|]. destruct (QS L) as [_ S2]. specialize (Sn (S2 QQ)). lra.
    + exists 0. split; [apply G; [auto|lra]|]. split; [auto|]. split; [|split; [auto|intros; lra]].
      replace (ph + (Pi_lit + u * tp)) with (ph + 1 * (Pi_lit + u * tp)) by ring. replace (Ratan.atan (y / x) + PI + 2 * PI * 0) with (Ratan.atan (y / x) + 1 * PI) by ring. apply V; [auto|lra].
  - assert (QQ : 0 < y / x) by (unfold Rdiv; pose proof (Rinv_lt_0_compat x Xn); nra). assert (AN : 0 < Ratan.atan (y / x)) by (rewrite <- atan_0; apply atan_increasing; auto).
    exists (Ratan.atan (y / x) - PI). destruct (Rlt_bool_spec 0 ph) as [F|F].
    + exists 0. split; [apply G; [auto|lra]|]. split; [auto|]. split; [|split; [auto|intros; lra]].
      replace (ph - (Pi_lit + u * tp)) with (ph + -1 * (Pi_lit + u * tp)) by ring. replace (Ratan.atan (y / x) - PI + 2 * PI * 0) with (Ratan.atan (y / x) + -1 * PI) by ring. apply V; [auto|lra].
    + exists 1. split; [apply G; [auto|lra]|]. split; [auto|]. split; [|split; [|intros; lra]].
      * replace (ph + (Pi_lit + u * tp)) with (ph + 1 * (Pi_lit + u * tp)) by ring. replace (Ratan.atan (y / x) - PI + 2 * PI * 1) with (Ratan.atan (y / x) + 1 * PI) by ring. apply V; [auto|lra].
      * intros [L|[L|L]]; [lra|lra|]. destruct (QS L) as [S1 _]. specialize (Sp (S1 QQ)). lra.
Qed.

End At.
