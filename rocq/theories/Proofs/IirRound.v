(* Rounding errors of the recursive filters do not accumulate *)
From Coq Require Import Reals Lra Lia ZArith List.
From Verif Require Import Proofs.BaseLemmas Model.Biquad Model.Ema Spec.Iir Spec.Rounding Proofs.SignalLemmas Proofs.SecondOrder Proofs.BiquadProofs Proofs.EmaProofs.
Import ListNotations.
Open Scope R_scope.

(** one more term t (computed as m) added to a partial sum v (computed as w) *)
Lemma acc_step u e rnd v w A t B k n : rounding u e rnd -> 0 <= u <= 1/100 -> 0 <= e -> 1 <= k -> 0 <= n -> Rabs w <= A -> Rabs t <= B ->
  Rabs (v - w) <= k * u * A + n * e ->
  Rabs (rnd (v + rnd t) - (w + t)) <= (1.01 * k + 1) * u * (A + B) + (1.01 * (n + 1) + 1) * e /\
  Rabs (rnd (v - rnd t) - (w - t)) <= (1.01 * k + 1) * u * (A + B) + (1.01 * (n + 1) + 1) * e.
Proof.
  intros Hr Hu He Hk Hn HA HB HV. pose proof (Hr t) as Ht. pose proof (Rabs_pos w) as A0. pose proof (Rabs_pos t) as B0.
  assert (Main : forall z d, Rabs (z - d) <= k * u * A + n * e + (u * B + e) -> Rabs d <= A + B -> Rabs (rnd z - d) <= (1.01 * k + 1) * u * (A + B) + (1.01 * (n + 1) + 1) * e).
  { intros z d Hz Hd. pose proof (Hr z) as Hrz. assert (Rabs z <= Rabs (z - d) + Rabs d). { replace z with ((z - d) + d) at 1 by ring. apply Rabs_triang. }
    assert (Rabs (rnd z - d) <= Rabs (rnd z - z) + Rabs (z - d)). { replace (rnd z - d) with ((rnd z - z) + (z - d)) by ring. apply Rabs_triang. }
    assert (E1 : k * u * A + u * B <= k * (u * (A + B))). { assert (0 <= (k - 1) * (u * B)) by (repeat apply Rmult_le_pos; lra). nra. }
    set (S := u * (A + B)) in *. assert (S0 : 0 <= S) by (apply Rmult_le_pos; lra).
    assert (Z1 : Rabs (z - d) <= k * S + (n + 1) * e) by nra.
    assert (u * Rabs z <= 0.01 * (k * S + (n + 1) * e) + S). 
    { apply Rle_trans with (u * ((k * S + (n + 1) * e) + (A + B))); [apply Rmult_le_compat_l; lra|]. rewrite Rmult_plus_distr_l. apply Rplus_le_compat; [|unfold S; lra].
      apply Rmult_le_compat_r; [|lra]. assert (0 <= k * S) by (apply Rmult_le_pos; lra). assert (0 <= (n + 1) * e) by (apply Rmult_le_pos; lra). lra. }
    replace ((1.01 * k + 1) * u * (A + B)) with ((1.01 * k + 1) * S) by (unfold S; ring). nra. }
  assert (Ht' : Rabs (rnd t - t) <= u * B + e). { eapply Rle_trans; [exact Ht|]. apply Rplus_le_compat_r, Rmult_le_compat_l; lra. }
  split; apply Main.
  - replace (v + rnd t - (w + t)) with ((v - w) + (rnd t - t)) by ring. eapply Rle_trans; [apply Rabs_triang|]. lra.
  - eapply Rle_trans; [apply Rabs_triang|]. lra.
  - replace (v - rnd t - (w - t)) with ((v - w) + - (rnd t - t)) by ring. eapply Rle_trans; [apply Rabs_triang|]. rewrite Rabs_Ropp. lra.
  - unfold Rminus. eapply Rle_trans; [apply Rabs_triang|]. rewrite Rabs_Ropp. lra.
Qed.
Lemma five_terms u e rnd t0 t1 t2 t3 t4 : rounding u e rnd -> 0 <= u <= 1/100 -> 0 <= e ->
  Rabs (rnd (rnd (rnd (rnd (rnd t0 + rnd t1) + rnd t2) - rnd t3) - rnd t4) - (t0 + t1 + t2 - t3 - t4)) <=
  6 * u * (Rabs t0 + Rabs t1 + Rabs t2 + Rabs t3 + Rabs t4) + 10 * e.
Proof.
  intros Hr Hu He. assert (P : forall a b A B, Rabs a <= A -> Rabs b <= B -> Rabs (a + b) <= A + B /\ Rabs (a - b) <= A + B).
  { intros. split; [|unfold Rminus]; (eapply Rle_trans; [apply Rabs_triang|]); rewrite ?Rabs_Ropp; lra. }
  assert (E0 : Rabs (rnd t0 - t0) <= 1 * u * Rabs t0 + 1 * e) by (rewrite !Rmult_1_l; apply Hr).
  destruct (acc_step u e rnd _ t0 _ t1 _ 1 1 Hr Hu He ltac:(lra) ltac:(lra) (Rle_refl _) (Rle_refl _) E0) as [E1 _].
  destruct (P t0 t1 _ _ (Rle_refl _) (Rle_refl _)) as [A1 _].
  destruct (acc_step u e rnd _ _ _ t2 _ (1.01 * 1 + 1) (1.01 * (1 + 1) + 1) Hr Hu He ltac:(lra) ltac:(lra) A1 (Rle_refl _) E1) as [E2 _].
  destruct (P _ t2 _ _ A1 (Rle_refl _)) as [A2 _].
  destruct (acc_step u e rnd _ _ _ t3 _ (1.01 * (1.01 * 1 + 1) + 1) (1.01 * ((1.01 * (1 + 1) + 1) + 1) + 1) Hr Hu He ltac:(lra) ltac:(lra) A2 (Rle_refl _) E2) as [_ E3].
  destruct (P _ t3 _ _ A2 (Rle_refl _)) as [_ A3].
  destruct (acc_step u e rnd _ _ _ t4 _ (1.01 * (1.01 * (1.01 * 1 + 1) + 1) + 1) (1.01 * ((1.01 * ((1.01 * (1 + 1) + 1) + 1) + 1) + 1) + 1) Hr Hu He ltac:(lra) ltac:(lra) A3 (Rle_refl _) E3) as [_ E4].
  eapply Rle_trans; [exact E4|]. set (S := Rabs t0 + Rabs t1 + Rabs t2 + Rabs t3 + Rabs t4).
  assert (0 <= u * S). { apply Rmult_le_pos; [lra|]. unfold S. pose proof (Rabs_pos t0). pose proof (Rabs_pos t1). pose proof (Rabs_pos t2). pose proof (Rabs_pos t3). pose proof (Rabs_pos t4). lra. }
  rewrite !Rmult_assoc. apply Rplus_le_compat; [apply Rmult_le_compat_r; [auto|lra]|apply Rmult_le_compat_r; [auto|lra]].
Qed.

(** a stable recursion of second order answers a force bounded by U (up to time T) with at most B U *)
Lemma forced_abs a1 a2 : jury a1 a2 -> exists B, 0 <= B /\ forall (e u : nat -> R) U T, 0 <= U ->
  (forall t, e t = u t - a1 * dly 0 e t - a2 * dly 0 (dly 0 e) t) -> (forall t, (t <= T)%nat -> Rabs (u t) <= U) -> forall t, (t <= T)%nat -> Rabs (e t) <= B * U.
Proof.
  intros J. pose proof (lam_pos _ _ J) as L. set (q := gainB a1 a2 / lam a1 a2). exists (sqrt (Rabs q)). split; [apply sqrt_pos|]. intros e u U T U0 He Hu t Ht.
  (* continue after T without force *)
  set (g := fun k => if (k <=? T)%nat then u k else 0).
  set (st := fix st k : R * R := match k with O => (0, 0) | S k' => let '(p, q) := st k' in (g k' - a1 * p - a2 * q, p) end).
  assert (F : forall k, (k <= T)%nat -> fst (st (S k)) = e k).
  { assert (G : forall k, (k <= S T)%nat -> st k = (dly 0 e k, dly 0 (dly 0 e) k)).
    { induction k as [|k IH]; intros Hk; [reflexivity|]. cbn [st]. rewrite IH by lia. unfold g. destruct (Nat.leb_spec k T); [|lia].
      rewrite <- He. reflexivity. }
    intros k Hk. rewrite G by lia. reflexivity. }
  pose proof (forced_bound a1 a2 J (fun k => match k with O => 0 | S k => fst (st k) end) g U U0 eq_refl eq_refl) as B.
  assert (Bt : lam a1 a2 * (e t * e t) <= gainB a1 a2 * (U * U)).
  { rewrite <- (F t Ht). apply (B) with (t := S (S t)).
    - intros k. cbn [st]. destruct k as [|k]; [cbn; ring|]. cbn [st]. destruct (st k) as [p r]. cbn [fst]. ring.
    - intros k. unfold g. destruct (Nat.leb_spec k T); [auto|rewrite Rabs_R0; auto]. }
  assert (Q : e t * e t <= Rabs q * (U * U)).
  { apply Rle_trans with (q * (U * U)).
    - apply (Rmult_le_reg_l (lam a1 a2)); auto. unfold q. replace (lam a1 a2 * (gainB a1 a2 / lam a1 a2 * (U * U))) with (gainB a1 a2 * (U * U)) by (field; lra). auto.
    - apply Rmult_le_compat_r; [apply Rle_0_sqr|apply Rle_abs]. }
  rewrite <- sqrt_Rsqr_abs. unfold Rsqr. eapply Rle_trans; [apply sqrt_le_1_alt; exact Q|].
  rewrite sqrt_mult by (try apply Rabs_pos; apply Rle_0_sqr). rewrite sqrt_square by auto. lra.
Qed.

Lemma abs_dly x (X : R) t : 0 <= X -> (forall k, (k < t)%nat -> Rabs (x k) <= X) -> Rabs (dly 0 x t) <= X.
Proof. intros X0 H. destruct t; cbn; [rewrite Rabs_R0; auto|apply H; lia]. Qed.
Lemma abs_dly2 x (X : R) t : 0 <= X -> (forall k, (k < t)%nat -> Rabs (x k) <= X) -> Rabs (dly 0 (dly 0 x) t) <= X.
Proof. intros X0 H. destruct t as [|[|t]]; cbn; try (rewrite Rabs_R0; auto). apply H; lia. Qed.

Notation fstep rnd := (biquad_step (vreal (Fn rnd))).
Notation rstep := (biquad_step (vreal Rn)).

(** rounded against exact filter on the same input *)
Lemma biquad_same c : stable c -> exists u0 K, 0 < u0 <= 1/100 /\ 0 <= K /\ forall u e rnd, rounding u e rnd -> 0 <= u <= u0 -> 0 <= e ->
  forall (x : nat -> R) X, (forall t, Rabs (x t) <= X) -> forall t, Rabs (out (fstep rnd) (bq (vreal (Fn rnd)) c) x t - out rstep (bq (vreal Rn) c) x t) <= K * (u * X + e).
Proof.
  intros S. destruct (bibo c S) as (By & By0 & HBy). destruct (forced_abs _ _ S) as (B & B0 & HB).
  set (A := Rabs (a1a0 c) + Rabs (a2a0 c)). set (G := Rabs (b0a0 c) + Rabs (b1a0 c) + Rabs (b2a0 c)).
  assert (A0 : 0 <= A) by (unfold A; pose proof (Rabs_pos (a1a0 c)); pose proof (Rabs_pos (a2a0 c)); lra).
  assert (G0 : 0 <= G) by (unfold G; pose proof (Rabs_pos (b0a0 c)); pose proof (Rabs_pos (b1a0 c)); pose proof (Rabs_pos (b2a0 c)); lra).
  assert (AB : 0 <= A * B) by (apply Rmult_le_pos; auto). assert (GA : 0 <= G + A * By) by (pose proof (Rmult_le_pos _ _ A0 By0); lra).
  exists (Rmin (1/100) (/ (12 * (A * B) + 1))), (12 * B * (G + A * By) + 20 * B).
  assert (I0 : 0 < / (12 * (A * B) + 1)) by (apply Rinv_0_lt_compat; lra).
  split; [split; [apply Rmin_glb_lt; lra|apply Rmin_l]|]. assert (K0 : 0 <= 12 * B * (G + A * By)) by (apply Rmult_le_pos; lra). split; [lra|].
  intros u e rnd Hr [Hu0 Hu1] He x X HX. assert (X0 : 0 <= X) by (pose proof (Rabs_pos (x O)); specialize (HX O); lra).
  assert (Hu : u <= 1/100) by (pose proof (Rmin_l (1/100) (/ (12 * (A * B) + 1))); lra).
  assert (Hb : 12 * u * (A * B) <= 1).
  { assert (u <= / (12 * (A * B) + 1)) by (pose proof (Rmin_r (1/100) (/ (12 * (A * B) + 1))); lra).
    assert (u * (12 * (A * B) + 1) <= 1); [|nra]. apply Rle_trans with (/ (12 * (A * B) + 1) * (12 * (A * B) + 1)); [apply Rmult_le_compat_r; lra|]. rewrite Rinv_l; lra. }
  set (yF := out (fstep rnd) (bq (vreal (Fn rnd)) c) x). set (yR := out rstep (bq (vreal Rn) c) x).
  set (D := 2 * B * (6 * u * ((G + A * By) * X) + 10 * e)).
  assert (D0 : 0 <= D). { unfold D. pose proof (Rmult_le_pos _ _ GA X0) as P1. pose proof (Rmult_le_pos _ _ Hu0 P1) as P2. apply Rmult_le_pos; lra. }
  set (v := fun t => b0a0 c * x t + b1a0 c * dly 0 x t + b2a0 c * dly 0 (dly 0 x) t - a1a0 c * dly 0 yF t - a2a0 c * dly 0 (dly 0 yF) t).
  set (r := fun t => yF t - v t).
  assert (Rec : forall t, (fun t => yF t - yR t) t = r t - a1a0 c * dly 0 (fun t => yF t - yR t) t - a2a0 c * dly 0 (dly 0 (fun t => yF t - yR t)) t).
  { intros t. unfold r, v. cbn beta. assert (E : yR t = b0a0 c * x t + b1a0 c * dly 0 x t + b2a0 c * dly 0 (dly 0 x) t - a1a0 c * dly 0 yR t - a2a0 c * dly 0 (dly 0 yR) t) by (unfold yR at 1; rewrite bq_equation; reflexivity).
    assert (Q : yF t - yR t = yF t - v t + (v t - yR t)) by ring. rewrite Q. rewrite E. unfold v. destruct t as [|[|t]]; cbn [dly]; ring. }
  assert (Rt : forall t, Rabs (r t) <= 6 * u * (G * X + A * Rmax (Rabs (dly 0 yF t)) (Rabs (dly 0 (dly 0 yF) t))) + 10 * e).
  { intros t. unfold r, yF at 1. rewrite bq_equation. fold yF. cbn [vsub vadd vscale vreal Fn nsub nadd nmul bq bq_c bq_x1 bq_x2 bq_y1 bq_y2 v0 n0].
    eapply Rle_trans; [apply (five_terms u e rnd); auto|]. apply Rplus_le_compat_r, Rmult_le_compat_l; [lra|]. rewrite !Rabs_mult.
    assert (M : forall b w W, Rabs w <= W -> Rabs b * Rabs w <= Rabs b * W) by (intros; apply Rmult_le_compat_l; auto; apply Rabs_pos).
    pose proof (M (b0a0 c) _ _ (HX t)). pose proof (M (b1a0 c) _ _ (abs_dly x X t X0 ltac:(auto))). pose proof (M (b2a0 c) _ _ (abs_dly2 x X t X0 ltac:(auto))).
    pose proof (M (a1a0 c) _ _ (Rmax_l (Rabs (dly 0 yF t)) (Rabs (dly 0 (dly 0 yF) t)))). pose proof (M (a2a0 c) _ _ (Rmax_r (Rabs (dly 0 yF t)) (Rabs (dly 0 (dly 0 yF) t)))). unfold G, A. lra. }
  assert (Main : forall t, Rabs (yF t - yR t) <= D).
  { intros t. induction t as [t IH] using lt_wf_ind.
    set (U := 6 * u * (G * X + A * (By * X + D)) + 10 * e).
    assert (YB : forall k, (k < t)%nat -> Rabs (yF k) <= By * X + D).
    { intros k Hk. replace (yF k) with (yR k + (yF k - yR k)) by ring. eapply Rle_trans; [apply Rabs_triang|]. apply Rplus_le_compat; [apply HBy; auto|apply IH; auto]. }
    assert (YB0 : 0 <= By * X + D) by (pose proof (Rmult_le_pos _ _ By0 X0); lra).
    assert (U0 : 0 <= U). { unfold U. pose proof (Rmult_le_pos _ _ G0 X0) as P1. pose proof (Rmult_le_pos _ _ A0 YB0) as P2. pose proof (Rmult_le_pos u (G * X + A * (By * X + D)) Hu0 ltac:(lra)). lra. }
    apply Rle_trans with (B * U).
    - apply (HB (fun t => yF t - yR t) r U t U0 Rec); [|lia]. intros k Hk. eapply Rle_trans; [apply Rt|]. unfold U. apply Rplus_le_compat_r, Rmult_le_compat_l; [lra|]. apply Rplus_le_compat_l, Rmult_le_compat_l; auto.
      apply Rmax_lub; [apply abs_dly; auto; intros; apply YB; lia|apply abs_dly2; auto; intros; apply YB; lia].
    - replace (B * U) with (D / 2 + 6 * u * (A * B) * D) by (unfold U, D; field). assert (6 * u * (A * B) * D <= 1 / 2 * D) by (apply Rmult_le_compat_r; lra). lra. }
  intros t. eapply Rle_trans; [apply Main|]. unfold D. 
  replace (2 * B * (6 * u * ((G + A * By) * X) + 10 * e)) with (12 * B * (G + A * By) * (u * X) + 20 * B * e) by ring.
  assert (0 <= u * X) by (apply Rmult_le_pos; auto). assert (0 <= 12 * B * (G + A * By) * e) by (apply Rmult_le_pos; auto). assert (0 <= B * (u * X)) by (apply Rmult_le_pos; auto). lra.
Qed.

(** rounded filter on disturbed input against exact filter on the true input *)
Definition tracks {SF SR} (stepF : (R -> R) -> SF -> R -> SF * R) (sF : (R -> R) -> SF) (stepR : SR -> R -> SR * R) (sR : SR) : Prop :=
  exists u0 K B, 0 < u0 <= 1/100 /\ 0 <= K /\ 0 <= B /\
  (forall (x : nat -> R) X, (forall t, Rabs (x t) <= X) -> forall t, Rabs (out stepR sR x t) <= B * X) /\
  forall u e rnd, rounding u e rnd -> 0 <= u <= u0 -> 0 <= e -> forall (x x' : nat -> R) X d, (forall t, Rabs (x t) <= X) -> (forall t, Rabs (x' t - x t) <= d) ->
  forall t, Rabs (out (stepF rnd) (sF rnd) x' t - out stepR sR x t) <= K * (u * (X + d) + e) + B * d.

Lemma biquad_tracks c : stable c -> tracks (fun rnd => fstep rnd) (fun rnd => bq (vreal (Fn rnd)) c) rstep (bq (vreal Rn) c).
Proof.
  intros S. destruct (biquad_same c S) as (u0 & K & Hu0 & K0 & HK). destruct (bibo c S) as (B & B0 & HB). exists u0, K, B. splits; auto; try apply Hu0.
  intros u e rnd Hr Hu He x x' X d HX Hd t.
  assert (HX' : forall t, Rabs (x' t) <= X + d). { intros k. replace (x' k) with (x k + (x' k - x k)) by ring. eapply Rle_trans; [apply Rabs_triang|]. apply Rplus_le_compat; auto. }
  replace (out (fstep rnd) (bq (vreal (Fn rnd)) c) x' t - out rstep (bq (vreal Rn) c) x t) with
    ((out (fstep rnd) (bq (vreal (Fn rnd)) c) x' t - out rstep (bq (vreal Rn) c) x' t) + (out rstep (bq (vreal Rn) c) x' t - out rstep (bq (vreal Rn) c) x t)) by ring.
  eapply Rle_trans; [apply Rabs_triang|]. apply Rplus_le_compat; [apply (HK u e rnd); auto|].
  pose proof (bq_linear c x' x 1 (-1) t) as L. replace (out rstep (bq (vreal Rn) c) x' t - out rstep (bq (vreal Rn) c) x t) with (out rstep (bq (vreal Rn) c) (fun k => 1 * x' k + -1 * x k) t).
  - apply HB. intros k. replace (1 * x' k + -1 * x k) with (x' k - x k) by ring. auto.
  - rewrite L. ring.
Qed.

Lemma cascade_tracks cs : Forall stable cs -> tracks (fun rnd => bqc_step (vreal (Fn rnd))) (fun rnd => map (bq (vreal (Fn rnd))) cs) (bqc_step (vreal Rn)) (map (bq (vreal Rn)) cs).
Proof.
  induction 1 as [|c cs S HS (u2 & K2 & B2 & Hu2 & K20 & B20 & HB2 & HK2)].
  - exists (1/100), 0, 1. splits; try lra.
    + intros x X HX t. rewrite bqc_outs. cbn. rewrite Rmult_1_l. auto.
    + intros u e rnd Hr Hu He x x' X d HX Hd t. rewrite !bqc_outs. cbn. specialize (Hd t). lra.
  - destruct (biquad_tracks c S) as (u1 & K1 & B1 & Hu1 & K10 & B10 & HB1 & HK1).
    exists (Rmin u1 u2), (K2 * (B1 + K1 + 1) + B2 * K1 + K2 * K1), (B2 * B1).
    assert (P1 : 0 <= K2 * (B1 + K1 + 1)) by (apply Rmult_le_pos; lra). assert (P2 : 0 <= B2 * K1) by (apply Rmult_le_pos; lra). assert (P3 : 0 <= K2 * K1) by (apply Rmult_le_pos; lra).
    splits.
    + apply Rmin_glb_lt; lra.
    + eapply Rle_trans; [apply Rmin_l|lra].
    + lra.
    + apply Rmult_le_pos; auto.
    + intros x X HX t. cbn [map]. rewrite bqc_outs. cbn [fold_left]. rewrite <- bqc_outs. rewrite Rmult_assoc. apply HB2. intros k. apply HB1. auto.
    + intros u e rnd Hr [Hu0 Hu] He x x' X d HX Hd t.
      assert (Ha : u <= u1) by (eapply Rle_trans; [exact Hu|apply Rmin_l]). assert (Hb : u <= u2) by (eapply Rle_trans; [exact Hu|apply Rmin_r]).
      cbn [map]. rewrite (bqc_outs (vreal Rn)), (bqc_outs (vreal (Fn rnd))). cbn [fold_left]. rewrite <- !bqc_outs.
      assert (X0 : 0 <= X) by (pose proof (Rabs_pos (x O)); specialize (HX O); lra). assert (d0 : 0 <= d) by (pose proof (Rabs_pos (x' O - x O)); specialize (Hd O); lra).
      set (d' := K1 * (u * (X + d) + e) + B1 * d).
      assert (uX : 0 <= u * (X + d)) by (apply Rmult_le_pos; lra).
      eapply Rle_trans; [apply (HK2 u e rnd Hr ltac:(lra) He (out rstep (bq (vreal Rn) c) x) (out (fstep rnd) (bq (vreal (Fn rnd)) c) x') (B1 * X) d')|].
      * intros k. apply HB1. auto.
      * intros k. unfold d'. apply (HK1 u e rnd); auto.
      * set (w := u * (X + d)) in *.
        assert (Q : u * (B1 * X + d') <= (B1 + K1) * w + K1 * e).
        { unfold d'. fold w. assert (u * (B1 * X) + u * (B1 * d) = B1 * w) by (unfold w; ring).
          assert (u * (K1 * (w + e)) <= 1 * (K1 * (w + e))). { apply Rmult_le_compat_r; [|lra]. apply Rmult_le_pos; lra. }
          replace (u * (B1 * X + (K1 * (w + e) + B1 * d))) with (u * (B1 * X) + u * (B1 * d) + u * (K1 * (w + e))) by ring. lra. }
        assert (Q2 : K2 * (u * (B1 * X + d') + e) <= K2 * ((B1 + K1) * w + K1 * e + e)) by (apply Rmult_le_compat_l; lra).
        assert (0 <= K2 * w) by (apply Rmult_le_pos; lra). assert (0 <= K2 * K1 * w) by (apply Rmult_le_pos; lra). assert (0 <= K2 * B1 * e) by (repeat apply Rmult_le_pos; lra).
        assert (B2 * d' = B2 * K1 * (w + e) + B2 * B1 * d) by (unfold d'; fold w; ring). nra.
Qed.

(** a relation d' <= k d + c with k < 1 stays bounded *)
Lemma rnd_near u e rnd v w E A : rounding u e rnd -> 0 <= u -> Rabs (v - w) <= E -> Rabs w <= A -> Rabs (rnd v - w) <= (1 + u) * E + u * A + e.
Proof.
  intros Hr Hu HE HA. pose proof (Hr v) as H. assert (Rabs v <= E + A). { replace v with ((v - w) + w) by ring. eapply Rle_trans; [apply Rabs_triang|lra]. }
  replace (rnd v - w) with ((rnd v - v) + (v - w)) by ring. eapply Rle_trans; [apply Rabs_triang|]. assert (u * Rabs v <= u * (E + A)) by (apply Rmult_le_compat_l; auto). lra.
Qed.
Lemma ema_one u e rnd a p x M : rounding u e rnd -> 0 <= u <= 1/100 -> 0 <= e <= u / 1000 -> 0 <= a <= 1 -> Rabs p <= M -> Rabs x <= M ->
  Rabs (rnd (rnd (rnd (1 - a) * p) + rnd (a * x)) - ((1 - a) * p + a * x)) <= 5 * u * M + 4 * e.
Proof.
  intros Hr Hu He Ha Hp Hx. pose proof (Rabs_pos p) as P0. assert (M0 : 0 <= M) by lra. assert (uM : 0 <= u * M) by (apply Rmult_le_pos; lra).
  assert (B1 : Rabs ((1 - a) * p) <= (1 - a) * M) by (rewrite Rabs_mult, (Rabs_pos_eq (1 - a)) by lra; apply Rmult_le_compat_l; lra).
  assert (B2 : Rabs (a * x) <= a * M) by (rewrite Rabs_mult, (Rabs_pos_eq a) by lra; apply Rmult_le_compat_l; lra).
  pose proof (Hr (1 - a)) as H1. rewrite (Rabs_pos_eq (1 - a)) in H1 by lra.
  assert (H2 : Rabs (rnd (1 - a) * p - (1 - a) * p) <= (u * (1 - a) + e) * M).
  { replace (rnd (1 - a) * p - (1 - a) * p) with ((rnd (1 - a) - (1 - a)) * p) by ring. rewrite Rabs_mult. apply Rmult_le_compat; auto using Rabs_pos. }
  pose proof (rnd_near u e rnd _ _ _ _ Hr ltac:(lra) H2 B1) as H3.
  pose proof (Hr (a * x)) as H4. assert (u * Rabs (a * x) <= u * (a * M)) by (apply Rmult_le_compat_l; lra).
  assert (H5 : Rabs (rnd (rnd (1 - a) * p) + rnd (a * x) - ((1 - a) * p + a * x)) <= 3.05 * (u * M) + 2 * e).
  { replace (rnd (rnd (1 - a) * p) + rnd (a * x) - ((1 - a) * p + a * x)) with ((rnd (rnd (1 - a) * p) - (1 - a) * p) + (rnd (a * x) - a * x)) by ring.
    eapply Rle_trans; [apply Rabs_triang|]. assert (e * M <= u / 1000 * M) by (apply Rmult_le_compat_r; lra).
    assert (0 <= u * (1 - a) * M) by (repeat apply Rmult_le_pos; lra). assert (0 <= u * a * M) by (repeat apply Rmult_le_pos; lra).
    assert (G1 : (1 + u) * ((u * (1 - a) + e) * M) <= 1.01 * ((u * (1 - a) + e) * M)). { apply Rmult_le_compat_r; [|lra]. apply Rmult_le_pos; [|lra]. assert (0 <= u * (1 - a)) by (apply Rmult_le_pos; lra). lra. }
    nra. }
  assert (B3 : Rabs ((1 - a) * p + a * x) <= M) by (eapply Rle_trans; [apply Rabs_triang|]; lra).
  pose proof (rnd_near u e rnd _ _ _ _ Hr ltac:(lra) H5 B3) as H6. eapply Rle_trans; [exact H6|].
  assert ((1 + u) * (3.05 * (u * M) + 2 * e) <= 1.01 * (3.05 * (u * M) + 2 * e)) by (apply Rmult_le_compat_r; lra). lra.
Qed.

Lemma ema_round u e rnd a p0 (x : nat -> R) X t : rounding u e rnd -> 0 < a <= 1 -> 0 <= u <= a / 100 -> 0 <= e <= u / 1000 -> Rabs p0 <= X -> (forall t, Rabs (x t) <= X) ->
  Rabs (out (ema_step (Fn rnd) (vreal (Fn rnd))) (mkEma p0 a) x t - out (ema_step Rn (vreal Rn)) (mkEma p0 a) x t) <= (10 * u * X + 8 * e) / a.
Proof.
  intros Hr Ha Hu He Hp Hx. assert (X0 : 0 <= X) by (pose proof (Rabs_pos p0); lra).
  set (yF := out (ema_step (Fn rnd) (vreal (Fn rnd))) (mkEma p0 a) x). set (yR := out (ema_step Rn (vreal Rn)) (mkEma p0 a) x).
  assert (EF : forall t, yF t = rnd (rnd (rnd (1 - a) * dly p0 yF t) + rnd (a * x t))) by (intros k; apply (em_equation (Fn rnd) (vreal (Fn rnd)) (mkEma p0 a) x k)).
  assert (ER : forall t, yR t = (1 - a) * dly p0 yR t + a * x t) by (intros k; apply (em_equation Rn (vreal Rn) (mkEma p0 a) x k)).
  assert (Conv : forall p q, Rabs p <= X -> Rabs q <= X -> Rabs ((1 - a) * p + a * q) <= X).
  { intros p q P Q. eapply Rle_trans; [apply Rabs_triang|]. rewrite !Rabs_mult, (Rabs_pos_eq a), (Rabs_pos_eq (1 - a)) by lra.
    pose proof (Rmult_le_compat_l (1 - a) _ _ ltac:(lra) P). pose proof (Rmult_le_compat_l a _ _ ltac:(lra) Q). lra. }
  assert (BR : forall t, Rabs (dly p0 yR t) <= X).
  { induction t0; [exact Hp|]. cbn [dly]. rewrite ER. apply Conv; auto. }
  set (D := (10 * u * X + 8 * e) / a). assert (uX : 0 <= u * X) by (apply Rmult_le_pos; lra).
  assert (D0 : 0 <= D) by (unfold D; apply Rmult_le_pos; [lra|left; apply Rinv_0_lt_compat; lra]).
  assert (Da : D * a = 10 * u * X + 8 * e) by (unfold D; field; lra).
  assert (P : forall t, Rabs (dly p0 yF t - dly p0 yR t) <= D).
  { induction t0 as [|k IH]; [cbn; rewrite Rminus_eq_0, Rabs_R0; auto|]. cbn [dly]. rewrite EF, ER.
    set (p := dly p0 yF k) in *. set (q := dly p0 yR k) in *. assert (Hq : Rabs q <= X) by apply BR.
    assert (Hp' : Rabs p <= X + D). { replace p with (q + (p - q)) by ring. eapply Rle_trans; [apply Rabs_triang|lra]. }
    pose proof (ema_one u e rnd a p (x k) (X + D) Hr ltac:(lra) He ltac:(lra) Hp' ltac:(specialize (Hx k); lra)) as O.
    replace (rnd (rnd (rnd (1 - a) * p) + rnd (a * x k)) - ((1 - a) * q + a * x k)) with ((rnd (rnd (rnd (1 - a) * p) + rnd (a * x k)) - ((1 - a) * p + a * x k)) + (1 - a) * (p - q)) by ring.
    eapply Rle_trans; [apply Rabs_triang|]. rewrite Rabs_mult, (Rabs_pos_eq (1 - a)) by lra.
    assert ((1 - a) * Rabs (p - q) <= (1 - a) * D) by (apply Rmult_le_compat_l; lra).
    assert (u * D <= a / 100 * D) by (apply Rmult_le_compat_r; lra). nra. }
  exact (P (S t)).
Qed.

Lemma blockdc_one u e rnd a b x x1 y X Y : rounding u e rnd -> 0 <= u <= 1/100 -> 0 <= e -> 0 <= a <= 1 -> 0 <= b <= 1 -> Rabs x <= X -> Rabs x1 <= X -> Rabs y <= Y ->
  Rabs (rnd (rnd (b * rnd (x - x1)) + rnd (a * y)) - (b * (x - x1) + a * y)) <= 7 * u * X + 2.1 * u * Y + 5 * e.
Proof.
  intros Hr Hu He Ha Hb Hx Hx1 Hy. pose proof (Rabs_pos x) as A0. pose proof (Rabs_pos y) as Y0.
  assert (uX : 0 <= u * X) by (apply Rmult_le_pos; lra). assert (uY : 0 <= u * Y) by (apply Rmult_le_pos; lra).
  assert (W : Rabs (x - x1) <= 2 * X) by (unfold Rminus; eapply Rle_trans; [apply Rabs_triang|rewrite Rabs_Ropp; lra]).
  pose proof (Hr (x - x1)) as H1. assert (u * Rabs (x - x1) <= u * (2 * X)) by (apply Rmult_le_compat_l; lra).
  assert (H2 : Rabs (b * rnd (x - x1) - b * (x - x1)) <= 2 * (u * X) + e).
  { replace (b * rnd (x - x1) - b * (x - x1)) with (b * (rnd (x - x1) - (x - x1))) by ring. rewrite Rabs_mult, (Rabs_pos_eq b) by lra.
    apply Rle_trans with (1 * Rabs (rnd (x - x1) - (x - x1))); [apply Rmult_le_compat_r; [apply Rabs_pos|lra]|lra]. }
  assert (B1 : Rabs (b * (x - x1)) <= 2 * X). { rewrite Rabs_mult, (Rabs_pos_eq b) by lra. apply Rle_trans with (1 * Rabs (x - x1)); [apply Rmult_le_compat_r; [apply Rabs_pos|lra]|lra]. }
  assert (B2 : Rabs (a * y) <= Y). { rewrite Rabs_mult, (Rabs_pos_eq a) by lra. apply Rle_trans with (1 * Rabs y); [apply Rmult_le_compat_r; [apply Rabs_pos|lra]|lra]. }
  pose proof (rnd_near u e rnd _ _ _ _ Hr ltac:(lra) H2 B1) as H3. pose proof (Hr (a * y)) as H4.
  assert (u * Rabs (a * y) <= u * Y) by (apply Rmult_le_compat_l; lra).
  assert (G1 : (1 + u) * (2 * (u * X) + e) <= 1.01 * (2 * (u * X) + e)) by (apply Rmult_le_compat_r; lra).
  assert (H5 : Rabs (rnd (b * rnd (x - x1)) + rnd (a * y) - (b * (x - x1) + a * y)) <= 4.02 * (u * X) + u * Y + 3.01 * e).
  { replace (rnd (b * rnd (x - x1)) + rnd (a * y) - (b * (x - x1) + a * y)) with ((rnd (b * rnd (x - x1)) - b * (x - x1)) + (rnd (a * y) - a * y)) by ring. eapply Rle_trans; [apply Rabs_triang|]. lra. }
  assert (B3 : Rabs (b * (x - x1) + a * y) <= 2 * X + Y) by (eapply Rle_trans; [apply Rabs_triang|]; lra).
  pose proof (rnd_near u e rnd _ _ _ _ Hr ltac:(lra) H5 B3) as H6. eapply Rle_trans; [exact H6|].
  assert ((1 + u) * (4.02 * (u * X) + u * Y + 3.01 * e) <= 1.01 * (4.02 * (u * X) + u * Y + 3.01 * e)) by (apply Rmult_le_compat_r; lra). lra.
Qed.
Lemma blockdc_round u e rnd a b (x : nat -> R) X t : rounding u e rnd -> 0 <= a < 1 -> 0 <= b <= 1 -> 0 <= u <= (1 - a) / 100 -> 0 <= e -> (forall t, Rabs (x t) <= X) ->
  Rabs (out (blockdc_step (vreal (Fn rnd))) (mkBdc 0 0 a b) x t - out (blockdc_step (vreal Rn)) (mkBdc 0 0 a b) x t) <= (24 * u * X + 10 * e) / (1 - a).
Proof.
  intros Hr Ha Hb Hu He Hx. assert (X0 : 0 <= X) by (pose proof (Rabs_pos (x O)); specialize (Hx O); lra).
  set (yF := out (blockdc_step (vreal (Fn rnd))) (mkBdc 0 0 a b) x). set (yR := out (blockdc_step (vreal Rn)) (mkBdc 0 0 a b) x).
  assert (EF : forall t, yF t = rnd (rnd (b * rnd (x t - dly 0 x t)) + rnd (a * dly 0 yF t))) by (intros k; apply (bd_equation (vreal (Fn rnd)) (mkBdc 0 0 a b) x k)).
  assert (ER : forall t, yR t = b * (x t - dly 0 x t) + a * dly 0 yR t) by (intros k; apply (bd_equation (vreal Rn) (mkBdc 0 0 a b) x k)).
  assert (Pb : forall t, Rabs (b * x t - yR t) <= b * X).
  { induction t0 as [|k IH].
    - rewrite ER. cbn [dly]. replace (b * x O - (b * (x O - 0) + a * 0)) with 0 by ring. rewrite Rabs_R0. nra.
    - rewrite ER. cbn [dly]. replace (b * x (S k) - (b * (x (S k) - x k) + a * yR k)) with ((1 - a) * (b * x k) + a * (b * x k - yR k)) by ring.
      eapply Rle_trans; [apply Rabs_triang|]. rewrite !Rabs_mult, (Rabs_pos_eq a), (Rabs_pos_eq (1 - a)), (Rabs_pos_eq b) by lra.
      specialize (Hx k). assert (b * Rabs (x k) <= b * X) by nra. nra. }
  assert (BR : forall t, Rabs (yR t) <= 2 * X).
  { intros k. specialize (Pb k). specialize (Hx k). replace (yR k) with (b * x k - (b * x k - yR k)) by ring.
    unfold Rminus at 1. eapply Rle_trans; [apply Rabs_triang|]. rewrite Rabs_Ropp, Rabs_mult, (Rabs_pos_eq b) by lra. nra. }
  assert (BR' : forall t, Rabs (dly 0 yR t) <= 2 * X) by (intros [|k]; cbn [dly]; [rewrite Rabs_R0; lra|apply BR]).
  assert (BX : forall t, Rabs (dly 0 x t) <= X) by (intros [|k]; cbn [dly]; [rewrite Rabs_R0; lra|apply Hx]).
  set (D := (24 * u * X + 10 * e) / (1 - a)). assert (uX : 0 <= u * X) by (apply Rmult_le_pos; lra).
  assert (D0 : 0 <= D) by (unfold D; apply Rmult_le_pos; [lra|left; apply Rinv_0_lt_compat; lra]).
  assert (Da : D * (1 - a) = 24 * u * X + 10 * e) by (unfold D; field; lra).
  assert (P : forall t, Rabs (dly 0 yF t - dly 0 yR t) <= D).
  { induction t0 as [|k IH]; [cbn; rewrite Rminus_eq_0, Rabs_R0; auto|]. cbn [dly]. rewrite EF, ER.
    set (p := dly 0 yF k) in *. set (q := dly 0 yR k) in *. assert (Hq : Rabs q <= 2 * X) by apply BR'.
    assert (Hp' : Rabs p <= 2 * X + D). { replace p with (q + (p - q)) by ring. eapply Rle_trans; [apply Rabs_triang|lra]. }
    pose proof (blockdc_one u e rnd a b (x k) (dly 0 x k) p X (2 * X + D) Hr ltac:(lra) He ltac:(lra) Hb (Hx k) (BX k) Hp') as O.
    replace (rnd (rnd (b * rnd (x k - dly 0 x k)) + rnd (a * p)) - (b * (x k - dly 0 x k) + a * q)) with ((rnd (rnd (b * rnd (x k - dly 0 x k)) + rnd (a * p)) - (b * (x k - dly 0 x k) + a * p)) + a * (p - q)) by ring.
    eapply Rle_trans; [apply Rabs_triang|]. rewrite Rabs_mult, (Rabs_pos_eq a) by lra.
    assert (a * Rabs (p - q) <= a * D) by (apply Rmult_le_compat_l; lra).
    assert (u * D <= (1 - a) / 100 * D) by (apply Rmult_le_compat_r; lra). nra. }
  exact (P (S t)).
Qed.
