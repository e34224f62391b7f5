(* Accuracy of atan and atan2 *)
From Coq Require Import Reals ZArith Lia Lra Bool.
From Interval Require Import Tactic.
From Flocq Require Import Core.
From Verif Require Import Proofs.BaseLemmas Model.Atan2 Spec.Angle.
Open Scope R_scope.

Ltac atlits := unfold at_P0, at_P1, at_P2, at_P3, at_P4, at_Q0, at_Q1, at_Q2, at_Q3, at_Q4.

Lemma kernel_acc x : -0.21 <= x <= 0.66 -> Rabs (atan_kernel Rn x - Ratan.atan x) <= 1e-17.
Proof.
  intros H. unfold atan_kernel. cbn [nadd nmul ndiv nlit Rn]. atlits.
  interval with (i_taylor x, i_bisect x, i_degree 16, i_prec 100).
Qed.
Lemma kernel_factor x : atan_kernel Rn x = x * (1 + x * x *
    (x*x*(x*x*(x*x*(x*x*at_P0+at_P1)+at_P2)+at_P3)+at_P4) / (x*x*(x*x*(x*x*(x*x*(x*x+at_Q0)+at_Q1)+at_Q2)+at_Q3)+at_Q4)).
Proof. unfold atan_kernel. cbn [nadd nmul ndiv nlit Rn]. unfold Rdiv. ring. Qed.
Lemma kernel_pos x : 0 < x <= 0.66 -> 0 < atan_kernel Rn x.
Proof.
  intros H. rewrite kernel_factor. apply Rmult_lt_0_compat; [lra|]. atlits. interval with (i_bisect x, i_prec 60).
Qed.

Lemma approx_acc x : 0 <= x -> Rabs (atan_approx Rn x - Ratan.atan x) <= 1e-16.
Proof.
  intros H0. unfold atan_approx. cbn [nleb nltb Rn nlit].
  destruct (Rle_bool_spec x 0.66) as [H|H].
  { pose proof (kernel_acc x ltac:(lra)). lra. }
  destruct (Rlt_bool_spec 2.41421356237309504880 x) as [H'|H'].
  - pose proof (atan_inv x ltac:(lra)) as A. cbn [nsub nadd ndiv n1 nlit Rn]. unfold HalfPi. cbn [nlit Rn].
    assert (B : 0 <= 1 / x <= 0.66).
    { split; [apply Rlt_le, Rdiv_lt_0_compat; lra|]. apply (Rmult_le_reg_r x); [lra|]. unfold Rdiv. rewrite Rmult_assoc, Rinv_l; lra. }
    pose proof (kernel_acc (1/x) ltac:(lra)) as K. replace (/ x) with (1 / x) in A by (field; lra).
    assert (P : Rabs (HalfPi_lit + at_MOREBITS - PI / 2) <= 7e-17) by (unfold HalfPi_lit, at_MOREBITS; interval with (i_prec 100)).
    apply Rabs_le. apply Rabs_le_inv in K, P. lra.
  - cbn [nsub nadd ndiv nmul n1 nlit Rn]. unfold FourthPi. cbn [nlit Rn].
    set (z := (x - 1) / (x + 1)).
    assert (Z : -0.21 <= z <= 0.66).
    { unfold z. split; [apply (Rmult_le_reg_r (x + 1))|apply (Rmult_le_reg_r (x + 1))]; try lra; unfold Rdiv; rewrite Rmult_assoc, Rinv_l; lra. }
    pose proof (kernel_acc z Z) as K.
    assert (A : Ratan.atan x = PI / 4 + Ratan.atan z).
    { pose proof (atan_bound z) as B. pose proof PI_RGT_0.
      assert (Z1 : -1 < z < 1) by lra.
      assert (Bz : - (PI / 4) < Ratan.atan z < PI / 4).
      { rewrite <- atan_1, <- atan_opp. split; apply atan_increasing; lra. }
      assert (C1 : cos (Ratan.atan z) <> 0) by (apply Rgt_not_eq, cos_gt_0; lra).
      assert (C2 : cos (PI / 4) <> 0) by (apply Rgt_not_eq, cos_gt_0; lra).
      assert (C3 : cos (PI / 4 + Ratan.atan z) <> 0) by (apply Rgt_not_eq, cos_gt_0; lra).
      rewrite <- (atan_tan (PI / 4 + Ratan.atan z)) by lra. f_equal.
      rewrite tan_plus; auto; rewrite tan_atan, tan_PI4; [|unfold z; intros E; field_simplify_eq in E; lra].
      unfold z. field. split; lra. }
    assert (P : Rabs (FourthPi_lit + 0.5 * at_MOREBITS - PI / 4) <= 7e-17) by (unfold FourthPi_lit, at_MOREBITS; interval with (i_prec 100)).
    apply Rabs_le. apply Rabs_le_inv in K, P. lra.
Qed.

Lemma approx_pos x : 0 < x -> 0 < atan_approx Rn x.
Proof.
  intros H0. destruct (Rle_dec x 0.66) as [H|H].
  - unfold atan_approx. cbn [nleb nltb Rn nlit]. rewrite Rle_bool_true by lra. apply kernel_pos. lra.
  - pose proof (approx_acc x ltac:(lra)) as A. apply Rabs_le_inv in A.
    assert (Ratan.atan 0.66 < Ratan.atan x) by (apply atan_increasing; lra).
    assert (0.5 < Ratan.atan 0.66) by interval. lra.
Qed.
Lemma approx_0 : atan_approx Rn 0 = 0.
Proof.
  unfold atan_approx. cbn [nleb nltb Rn nlit]. rewrite Rle_bool_true by lra. rewrite kernel_factor. ring.
Qed.

Lemma atan_acc x : Rabs (atan Rn x - Ratan.atan x) <= 1e-16.
Proof.
  unfold atan. cbn [nleb n0 nopp Rn]. destruct (Rle_bool_spec 0 x) as [H|H].
  - apply approx_acc; auto.
  - pose proof (approx_acc (- x) ltac:(lra)) as A. rewrite atan_opp in A. rewrite <- Rabs_Ropp.
    replace (- (- atan_approx Rn (- x) - Ratan.atan x)) with (atan_approx Rn (- x) - - Ratan.atan x) by ring. auto.
Qed.
Lemma atan_odd x : atan Rn (- x) = - atan Rn x.
Proof.
  unfold atan. cbn [nleb n0 nopp Rn]. destruct (Rle_bool_spec 0 x) as [H|H], (Rle_bool_spec 0 (- x)) as [H'|H']; try lra.
  - assert (x = 0) as -> by lra. rewrite Ropp_0, approx_0. ring.
  - rewrite Ropp_involutive. ring.
Qed.
Lemma atan_sign x : (0 < x -> 0 < atan Rn x) /\ (x < 0 -> atan Rn x < 0).
Proof.
  split; intros H; unfold atan; cbn [nleb n0 nopp Rn].
  - rewrite Rle_bool_true by lra. apply approx_pos; auto.
  - rewrite Rle_bool_false by lra. pose proof (approx_pos (- x) ltac:(lra)). lra.
Qed.

Lemma atan_polar x y : 0 < x -> angle_of x y (Ratan.atan (y / x)).
Proof.
  intros H. set (t := Ratan.atan (y / x)). pose proof (atan_bound (y / x)) as B. fold t in B. pose proof PI_RGT_0.
  assert (C : 0 < cos t) by (apply cos_gt_0; lra).
  assert (E : tan t = y / x) by (unfold t; apply tan_atan). unfold tan in E.
  assert (Y : y = x / cos t * sin t).
  { transitivity (y / x * x); [field; lra|]. rewrite <- E. field. lra. }
  assert (S : sqrt (x * x + y * y) = x / cos t).
  { rewrite Y. replace (x * x + x / cos t * sin t * (x / cos t * sin t)) with ((x / cos t) * (x / cos t)).
    - apply sqrt_square. apply Rlt_le, Rdiv_lt_0_compat; auto.
    - pose proof (sin2_cos2 t) as P. unfold Rsqr in P. field_simplify_eq; [|lra]. replace (sin t ^ 2) with (1 - cos t ^ 2) by lra. ring. }
  split; [lra|]. rewrite S. split; [field; lra|auto].
Qed.
Lemma angle_turn x y t : angle_of x y t -> forall t', t' = t + PI \/ t' = t - PI -> - PI < t' <= PI -> angle_of (- x) (- y) t'.
Proof.
  intros (B & X & Y) t' Ht B'. split; [auto|]. replace (- x * - x + - y * - y) with (x * x + y * y) by ring.
  assert (E : cos t' = - cos t /\ sin t' = - sin t).
  { destruct Ht as [-> | ->]; [rewrite neg_cos, neg_sin; auto|]. rewrite cos_minus, sin_minus, cos_PI, sin_PI. split; ring. }
  destruct E as [-> ->]. lra.
Qed.

Lemma atan2_acc sy x y : ~ (x = 0 /\ y = 0) -> (y < 0 -> sy = true) -> (0 < y -> sy = false) -> (y = 0 -> sy = false) ->
  exists t, angle_of x y t /\ Rabs (atan2 Rn sy y x - t) <= 1.1e-16.
Proof.
  intros Hnz Hn Hp Hz. unfold atan2. cbn [neqb nleb nltb n0 ndiv nadd nsub Rn]. pose proof PI_RGT_0 as PP.
  assert (Pa : Rabs (Pi_lit - PI) <= 1e-60) by (unfold Pi_lit; interval with (i_prec 300)). apply Rabs_le_inv in Pa.
  destruct (Req_bool_spec y 0) as [->|Y].
  { rewrite (Hz eq_refl). unfold copysign. destruct (Rle_bool_spec 0 x) as [X|X].
    - exists 0. split; [|rewrite Rminus_0_r, Rabs_R0; lra]. split; [lra|]. rewrite cos_0, sin_0, Rmult_0_l, Rplus_0_r, sqrt_square by lra. lra.
    - exists PI. split; [|unfold Pi; cbn [nlit Rn]; apply Rabs_le; lra]. split; [lra|]. rewrite cos_PI, sin_PI, Rmult_0_l, Rplus_0_r.
      replace (x * x) with (- x * - x) by ring. rewrite sqrt_square by lra. lra. }
  destruct (Req_bool_spec x 0) as [->|X].
  { unfold copysign, HalfPi. cbn [nlit nopp Rn]. assert (Ph : Rabs (HalfPi_lit - PI / 2) <= 1e-60) by (unfold HalfPi_lit; interval with (i_prec 300)). apply Rabs_le_inv in Ph.
    destruct (Rle_dec 0 y).
    - rewrite Hp by lra. exists (PI / 2). split; [|apply Rabs_le; lra]. split; [lra|]. rewrite cos_PI2, sin_PI2, Rmult_0_l, Rplus_0_l, sqrt_square by lra. lra.
    - rewrite Hn by lra. exists (- (PI / 2)). split; [|apply Rabs_le; lra]. split; [lra|]. rewrite cos_neg, sin_neg, cos_PI2, sin_PI2, Rmult_0_l, Rplus_0_l.
      replace (y * y) with (- y * - y) by ring. rewrite sqrt_square by lra. lra. }
  pose proof (atan_acc (y / x)) as A. apply Rabs_le_inv in A. destruct (Rlt_bool_spec x 0) as [Xn|Xp].
  - pose proof (atan_polar (- x) (- y) ltac:(lra)) as P. replace (- y / - x) with (y / x) in P by (field; lra).
    pose proof (atan_bound (y / x)) as B. unfold Pi. cbn [nlit Rn]. destruct (atan_sign (y / x)) as [Sp Sn].
    destruct (Rle_dec 0 y).
    + assert (Q : y / x < 0) by (unfold Rdiv; pose proof (Rinv_lt_0_compat x Xn); nra).
      specialize (Sn Q). rewrite Rlt_bool_false by lra. assert (Ratan.atan (y / x) < 0) by (rewrite <- atan_0; apply atan_increasing; auto).
      exists (Ratan.atan (y / x) + PI). split; [|apply Rabs_le; lra].
      pose proof (angle_turn _ _ _ P (Ratan.atan (y / x) + PI)) as G. rewrite !Ropp_involutive in G. apply G; auto. lra.
    + assert (Q : 0 < y / x) by (unfold Rdiv; pose proof (Rinv_lt_0_compat x Xn); nra).
      specialize (Sp Q). rewrite Rlt_bool_true by lra. assert (0 < Ratan.atan (y / x)) by (rewrite <- atan_0; apply atan_increasing; auto).
      exists (Ratan.atan (y / x) - PI). split; [|apply Rabs_le; lra].
      pose proof (angle_turn _ _ _ P (Ratan.atan (y / x) - PI)) as G. rewrite !Ropp_involutive in G. apply G; auto. lra.
  - exists (Ratan.atan (y / x)). split; [apply atan_polar; lra|apply Rabs_le; lra].
Qed.

Lemma angle_unique x y t t' : ~ (x = 0 /\ y = 0) -> angle_of x y t -> angle_of x y t' -> t = t'.
Proof.
  intros Hnz (B & X & Y) (B' & X' & Y').
  assert (S : sqrt (x * x + y * y) <> 0).
  { intros S. rewrite S in X, Y. apply Hnz. lra. }
  assert (C : cos t = cos t') by (apply (Rmult_eq_reg_l (sqrt (x * x + y * y))); auto; lra).
  assert (D : sin t = sin t') by (apply (Rmult_eq_reg_l (sqrt (x * x + y * y))); auto; lra).
  assert (Z : sin (t - t') = 0) by (rewrite sin_minus, C, D; ring).
  assert (O : cos (t - t') = 1) by (rewrite cos_minus, C, D; pose proof (sin2_cos2 t') as P; unfold Rsqr in P; lra).
  pose proof PI_RGT_0.
  destruct (Rtotal_order (t - t') 0) as [H0|[H0|H0]]; [|lra|].
  - assert (cos (t' - t) = 1) by (replace (t' - t) with (- (t - t')) by ring; rewrite cos_neg; auto).
    assert (cos (t' - t) < 1); [|lra].
    destruct (Rle_dec (t' - t) PI).
    + rewrite <- cos_0. apply cos_decreasing_1; lra.
    + rewrite <- cos_2PI. apply cos_increasing_1; lra.
  - assert (cos (t - t') < 1); [|lra].
    destruct (Rle_dec (t - t') PI).
    + rewrite <- cos_0. apply cos_decreasing_1; lra.
    + rewrite <- cos_2PI. apply cos_increasing_1; lra.
Qed.

Lemma atan2_sign sy x y : (y < 0 -> sy = true) -> (0 < y -> sy = false) ->
  (0 < y -> 0 < atan2 Rn sy y x) /\ (y < 0 -> atan2 Rn sy y x < 0).
Proof.
  intros Hn Hp. 
  assert (G : y <> 0 -> (0 < y -> 0 < atan2 Rn sy y x) /\ (y < 0 -> atan2 Rn sy y x < 0)); [|split; intros; apply G; lra].
  intros Y. unfold atan2. cbn [neqb nleb nltb n0 ndiv nadd nsub Rn]. rewrite Req_bool_false by auto.
  destruct (Req_bool_spec x 0) as [->|X].
  { unfold copysign, HalfPi, HalfPi_lit. cbn [nlit nopp Rn]. split; intros H; [rewrite Hp by auto|rewrite Hn by auto]; lra. }
  pose proof (atan_acc (y / x)) as A. apply Rabs_le_inv in A. pose proof (atan_bound (y / x)) as B.
  assert (Pa : Rabs (Pi_lit - PI) <= 1e-60) by (unfold Pi_lit; interval with (i_prec 300)). apply Rabs_le_inv in Pa.
  assert (3 < PI) by interval. unfold Pi. cbn [nlit Rn]. destruct (atan_sign (y / x)) as [Sp Sn].
  destruct (Rlt_bool_spec x 0) as [Xn|Xp].
  - pose proof (Rinv_lt_0_compat x Xn). split; intros H'.
    + assert (Q : y / x < 0) by (unfold Rdiv; nra). specialize (Sn Q). rewrite Rlt_bool_false by lra. lra.
    + assert (Q : 0 < y / x) by (unfold Rdiv; nra). specialize (Sp Q). rewrite Rlt_bool_true by lra. lra.
  - assert (0 < / x) by (apply Rinv_0_lt_compat; lra). split; intros H'; [apply Sp|apply Sn]; unfold Rdiv; nra.
Qed.

Lemma atan2_odd sy x y : y <> 0 -> atan2 Rn (negb sy) (- y) x = - atan2 Rn sy y x.
Proof.
  intros Y. unfold atan2. cbn [neqb nleb nltb n0 ndiv nadd nsub Rn]. rewrite (Req_bool_false y 0), (Req_bool_false (- y) 0) by lra.
  destruct (Req_bool_spec x 0) as [->|X].
  { destruct sy; cbn [copysign negb nopp Rn]; unfold copysign; cbn [nopp Rn]; ring. }
  replace (- y / x) with (- (y / x)) by (field; auto). rewrite atan_odd.
  destruct (Rlt_bool_spec x 0) as [Xn|Xp]; [|auto].
  assert (Q : y / x <> 0) by (unfold Rdiv; apply Rmult_integral_contrapositive_currified; auto; apply Rinv_neq_0_compat; auto).
  destruct (atan_sign (y / x)) as [Sp Sn].
  destruct (Rlt_dec 0 (y / x)) as [G|G].
  - specialize (Sp G). rewrite Rlt_bool_false, Rlt_bool_true by lra. ring.
  - assert (G' : y / x < 0) by lra. specialize (Sn G'). rewrite Rlt_bool_true, Rlt_bool_false by lra. ring.
Qed.

(** any rounding under which y/x vanishes *)
Lemma atan2_underflow rnd x y : rnd 0 = 0 -> 0 <= rnd 0.66 -> rnd (rnd Pi_lit) = rnd Pi_lit -> 0 < rnd Pi_lit -> x < 0 -> y < 0 -> rnd (y / x) = 0 ->
  atan2 (Fn rnd) true y x = rnd Pi_lit /\ 0 < rnd Pi_lit.
Proof.
  intros R0 R6 RR RP X Y Q. split; auto. unfold atan2. cbn [neqb nleb nltb n0 ndiv nadd nsub Fn]. rewrite (Req_bool_false y 0), (Req_bool_false x 0) by lra. rewrite Q.
  assert (A : atan (Fn rnd) 0 = 0).
  { unfold atan, atan_approx, atan_kernel. cbn [neqb nleb nltb n0 n1 ndiv nadd nsub nmul nlit Fn]. rewrite Rle_bool_true by lra. rewrite Rle_bool_true by lra.
    rewrite !Rmult_0_l, R0, !Rmult_0_l, R0. unfold Rdiv. rewrite !Rmult_0_l, !R0. rewrite Rplus_0_r. apply R0. }
  rewrite A. rewrite Rlt_bool_true by auto. rewrite Rlt_bool_false by lra. unfold Pi. cbn [nlit Fn]. rewrite Rplus_0_l. auto.
Qed.
