(* Recursive filters in floating point with an input that stays constant *)
From Coq Require Import Reals ZArith Lia Lra List Psatz.
From Flocq Require Import Core.
From Verif Require Import Spec.Rest Spec.Rounding Model.Ema Proofs.BaseLemmas.
Import ListNotations.
Open Scope R_scope.

Lemma Rabs_maj2 x : - x <= Rabs x. Proof. rewrite <- Rabs_Ropp. apply Rle_abs. Qed.
(** iterating an increasing function whose values lie on a grid *)
Lemma iter_const (f : R -> R) (s : nat -> R) T : (forall t, (T <= t)%nat -> s (S t) = f (s t)) -> f (s T) = s T -> forall t, (T <= t)%nat -> s t = s T.
Proof. intros E F t Ht. induction Ht; auto. rewrite E by lia. rewrite IHHt. auto. Qed.
Lemma up_rests (f : R -> R) (s : nat -> R) g B T : 0 < g -> (forall a b, a <= b -> f a <= f b) -> (forall a, exists k, f a = IZR k * g) ->
  (forall t, (T <= t)%nat -> s (S t) = f (s t)) -> (forall t, (T <= t)%nat -> s t <= B) -> s (S T) <= s (S (S T)) -> exists r, rests_at s r /\ f r = r.
Proof.
  intros Hg Mono Grid E HB U.
  assert (Up : forall t, (S T <= t)%nat -> s t <= s (S t)).
  { intros t Ht. induction Ht; auto. rewrite (E (S m)) by lia. rewrite (E m) at 1 by lia. apply Mono; auto. }
  assert (Q : forall n t, (S T <= t)%nat -> B - s t < INR n * g -> exists r, rests_at s r /\ f r = r).
  { induction n; intros t Ht Hn.
    - exfalso. cbn in Hn. specialize (HB t ltac:(lia)). lra.
    - destruct (Req_dec (s (S t)) (s t)) as [F|F].
      + exists (s t). rewrite (E t) in F by lia. split; auto. exists t. apply (iter_const f); auto. intros; apply E; lia.
      + apply (IHn (S t)); [lia|]. specialize (Up t Ht). destruct t as [|t0]; [lia|]. rewrite (E (S t0)), (E t0) in * by lia.
        destruct (Grid (f (s t0))) as [k1 K1]. destruct (Grid (s t0)) as [k2 K2]. rewrite K2 in K1, Up, F, Hn |- *. rewrite K1 in Up, F |- *.
        assert (k2 < k1)%Z. { apply Z.nle_gt. intro L. apply IZR_le in L. apply F. apply Rle_antisym; [nra|]. auto. }
        assert (IZR k2 + 1 <= IZR k1) by (rewrite <- plus_IZR; apply IZR_le; lia). rewrite S_INR in Hn. nra. }
  destruct (archimed ((B - s (S T)) / g)) as [A _]. set (n := Z.to_nat (Z.max 0 (up ((B - s (S T)) / g)))).
  apply (Q n (S T)); [lia|]. unfold n. rewrite INR_IZR_INZ, Z2Nat.id by lia.
  assert ((B - s (S T)) / g < IZR (Z.max 0 (up ((B - s (S T)) / g)))) by (eapply Rlt_le_trans; [apply A|apply IZR_le; lia]).
  apply Rmult_lt_reg_r with (/ g); [apply Rinv_0_lt_compat; auto|]. rewrite Rmult_assoc, Rinv_r, Rmult_1_r by lra. auto.
Qed.
Lemma mono_rests (f : R -> R) (s : nat -> R) g B T : 0 < g -> (forall a b, a <= b -> f a <= f b) -> (forall a, exists k, f a = IZR k * g) ->
  (forall t, (T <= t)%nat -> s (S t) = f (s t)) -> (forall t, (T <= t)%nat -> Rabs (s t) <= B) -> exists r, rests_at s r /\ f r = r.
Proof.
  intros Hg Mono Grid E HB. destruct (Rle_dec (s (S T)) (s (S (S T)))) as [U|U].
  - apply (up_rests f s g B T); auto. intros t Ht. specialize (HB t Ht). pose proof (Rle_abs (s t)). lra.
  - destruct (up_rests (fun a => - f (- a)) (fun t => - s t) g B T) as (r & (T1 & R1) & R2); auto.
    + intros a b Hab. specialize (Mono (- b) (- a) ltac:(lra)). lra.
    + intros a. destruct (Grid (- a)) as [k K]. exists (- k)%Z. rewrite opp_IZR, K. ring.
    + intros t Ht. rewrite Ropp_involutive, E by auto. auto.
    + intros t Ht. specialize (HB t Ht). pose proof (Rabs_maj2 (s t)). lra.
    + lra.
    + exists (- r). split; [|lra]. exists T1. intros t Ht. specialize (R1 t Ht). lra.
Qed.

Section Format.
Context (emin prec : Z) {Hp : Prec_gt_0 prec} (rm : R -> Z) {Hv : Valid_rnd rm}.
Notation fexp := (FLT_exp emin prec).
Notation rnd := (round radix2 fexp rm).
Instance ve : Valid_exp fexp := FLT_exp_valid emin prec.

Lemma rnd_grid x : exists k, rnd x = IZR k * bpow radix2 emin.
Proof.
  destruct (FLT_format_generic radix2 emin prec (rnd x)) as [[m e] H1 H2 H3]. { apply generic_format_round; auto. apply ve. }
  cbn in H2, H3. exists (m * 2 ^ (e - emin))%Z. rewrite H1. unfold F2R. cbn [Fnum Fexp]. rewrite mult_IZR. change 2%Z with (radix_val radix2). rewrite IZR_Zpower by lia.
  rewrite Rmult_assoc, <- bpow_plus. f_equal. f_equal. lia.
Qed.
Lemma rnd_0 : rnd 0 = 0. Proof. apply round_0; auto. Qed.
Lemma rnd_le x y : x <= y -> rnd x <= rnd y. Proof. apply round_le; auto. apply ve. Qed.
Lemma rnd_bpow k : (emin <= k)%Z -> rnd (bpow radix2 k) = bpow radix2 k.
Proof. intros H. apply round_generic; auto. apply generic_format_FLT_bpow; auto. Qed.
Lemma rnd_opp_bpow k : (emin <= k)%Z -> rnd (- bpow radix2 k) = - bpow radix2 k.
Proof. intros H. apply round_generic; auto. apply generic_format_opp, generic_format_FLT_bpow; auto. Qed.
Lemma rnd_rnd x : rnd (rnd x) = rnd x.
Proof. apply round_generic; auto. apply generic_format_round; auto. apply ve. Qed.
Lemma fmt_scale c k : (0 <= k)%Z -> generic_format radix2 fexp c -> rnd (c * bpow radix2 k) = c * bpow radix2 k.
Proof.
  intros Hk Hc. apply round_generic; auto. apply generic_format_FLT. destruct (FLT_format_generic radix2 emin prec c Hc) as [[m e] H1 H2 H3]. cbn in H2, H3.
  apply FLT_spec with (Float radix2 m (e + k)); cbn; try lia. rewrite H1. unfold F2R. cbn. rewrite bpow_plus. ring.
Qed.
(** a first order recursion with coefficient c in [0,1) and constant excitation d stays bounded *)
Lemma bounded (c d p : R) (s : nat -> R) T : generic_format radix2 fexp c -> 0 <= c < 1 ->
  (forall t, (T <= t)%nat -> s (S t) = rnd (rnd (c * s t) + d)) -> exists B, forall t, (T <= t)%nat -> Rabs (s t) <= B.
Proof.
  intros Fc Hc E.
  destruct (archimed (Rabs (s T) + Rabs d / (1 - c) + 1)) as [A _]. set (Y := up (Rabs (s T) + Rabs d / (1 - c) + 1)) in *.
  assert (Z0 : 0 <= Rabs d / (1 - c)) by (apply Rmult_le_pos; [apply Rabs_pos|]; apply Rlt_le, Rinv_0_lt_compat; lra).
  pose proof (Rabs_pos (s T)) as Z1.
  assert (Y0 : (0 <= Y)%Z) by (apply le_IZR; lra).
  set (k := Z.max Y emin). exists (bpow radix2 k).
  assert (Bk : IZR Y <= bpow radix2 k).
  { apply Rle_trans with (bpow radix2 Y); [|apply bpow_le; lia]. rewrite <- IZR_Zpower by lia. apply IZR_le. apply Z.lt_le_incl, Zpower_gt_id. }
  assert (Hd : Rabs d <= (1 - c) * bpow radix2 k).
  { replace (Rabs d) with ((1 - c) * (Rabs d / (1 - c))) by (field; lra). apply Rmult_le_compat_l; lra. }
  intros t Ht. induction Ht as [|t Ht IH]; [lra|].
  rewrite E by auto. assert (K1 : rnd (c * bpow radix2 k) = c * bpow radix2 k) by (apply fmt_scale; auto; lia).
  assert (K2 : rnd (- (c * bpow radix2 k)) = - (c * bpow radix2 k)). { apply round_generic; auto. apply generic_format_opp. rewrite <- K1. apply generic_format_round; auto. apply ve. }
  assert (IH1 : - bpow radix2 k <= s t <= bpow radix2 k) by (split; [pose proof (Rabs_maj2 (s t))|pose proof (Rle_abs (s t))]; lra).
  pose proof (Rle_abs d). pose proof (Rabs_maj2 d).
  apply Rabs_le. split.
  - rewrite <- (rnd_opp_bpow k) by lia. apply rnd_le. assert (- (c * bpow radix2 k) <= rnd (c * s t)) by (rewrite <- K2; apply rnd_le; nra). lra.
  - rewrite <- (rnd_bpow k) by lia. apply rnd_le. assert (rnd (c * s t) <= c * bpow radix2 k) by (rewrite <- K1; apply rnd_le; nra). lra.
Qed.
Lemma first_order_rests (c d : R) (s : nat -> R) T : generic_format radix2 fexp c -> 0 <= c < 1 ->
  (forall t, (T <= t)%nat -> s (S t) = rnd (rnd (c * s t) + d)) -> exists r, rests_at s r /\ rnd (rnd (c * r) + d) = r.
Proof.
  intros Fc Hc E. destruct (bounded c d 0 s T Fc Hc E) as [B HB].
  apply (mono_rests (fun p => rnd (rnd (c * p) + d)) s (bpow radix2 emin) B T); auto.
  - apply bpow_gt_0.
  - intros a b Hab. apply rnd_le. apply Rplus_le_compat_r, rnd_le. nra.
  - intros a. apply rnd_grid.
Qed.
Lemma rests_tail {A} (s : nat -> A) r k : rests_at (fun t => s (t + k)%nat) r <-> rests_at s r.
Proof.
  split; intros [T H].
  - exists (T + k)%nat. intros t Ht. replace t with ((t - k) + k)%nat by lia. apply H. lia.
  - exists T. intros t Ht. apply H. lia.
Qed.
(** lerp with constant input *)
Lemma lerp_rests (alpha : R) (x p : nat -> R) xc : 0 <= rnd (1 - alpha) < 1 -> rests_at x xc ->
  (forall t, p (S t) = rnd (rnd (rnd (1 - alpha) * p t) + rnd (alpha * x t))) -> exists r, rests_at p r /\ rnd (rnd (rnd (1 - alpha) * r) + rnd (alpha * xc)) = r.
Proof.
  intros Hc [T HT] E. apply (first_order_rests (rnd (1 - alpha)) (rnd (alpha * xc)) p T); auto.
  - apply generic_format_round; auto. apply ve.
  - intros t Ht. rewrite E, HT by auto. auto.
Qed.
End Format.

(** where the equilibrium is *)
Lemma equilibrium (u e : R) (rnd : R -> R) (alpha x r : R) : 0 <= u <= / 100 -> 0 <= e <= u / 100 -> rounding u e rnd -> 8 * u <= alpha <= 1 ->
  rnd (rnd (rnd (1 - alpha) * r) + rnd (alpha * x)) = r -> alpha * Rabs (r - x) <= 12 * u * Rabs x + 8 * e.
Proof.
  intros Hu He Hr Ha E. set (c := rnd (1 - alpha)) in *. set (a := rnd (c * r)) in *. set (b := rnd (alpha * x)) in *.
  pose proof (Hr (1 - alpha)) as H0. fold c in H0. pose proof (Hr (c * r)) as H1. fold a in H1. pose proof (Hr (alpha * x)) as H2. fold b in H2. pose proof (Hr (a + b)) as H3. rewrite E in H3.
  rewrite (Rabs_pos_eq (1 - alpha)) in H0 by lra. rewrite Rabs_mult in H1, H2. rewrite (Rabs_pos_eq alpha) in H2 by lra.
  assert (Ac : Rabs c <= 1 + u + e). { replace c with ((c - (1 - alpha)) + (1 - alpha)) by ring. eapply Rle_trans; [apply Rabs_triang|]. rewrite (Rabs_pos_eq (1 - alpha)) by lra. nra. }
  assert (Eq : alpha * (r - x) = (r - (a + b)) + (a - c * r) + (b - alpha * x) + (c - (1 - alpha)) * r) by ring.
  assert (Tr : alpha * Rabs (r - x) <= Rabs (r - (a + b)) + Rabs (a - c * r) + Rabs (b - alpha * x) + Rabs (c - (1 - alpha)) * Rabs r).
  { rewrite <- (Rabs_pos_eq alpha) at 1 by lra. rewrite <- Rabs_mult, Eq, <- Rabs_mult. eapply Rle_trans; [apply Rabs_triang|]. apply Rplus_le_compat_r. eapply Rle_trans; [apply Rabs_triang|]. apply Rplus_le_compat_r, Rabs_triang. }
  assert (Ab : Rabs (a + b) <= Rabs r + Rabs (r - (a + b))). { replace (a + b) with (r - (r - (a + b))) at 1 by ring. eapply Rle_trans; [apply Rabs_triang|]. rewrite Rabs_Ropp. lra. }
  set (q3 := Rabs (r - (a + b))) in *. set (q1 := Rabs (a - c * r)) in *. set (q2 := Rabs (b - alpha * x)) in *. set (q0 := Rabs (c - (1 - alpha))) in *. set (D := Rabs (r - x)) in *.
  assert (Rr : Rabs r <= D + Rabs x). { unfold D. replace r with ((r - x) + x) at 1 by ring. apply Rabs_triang. }
  pose proof (Rabs_pos r). pose proof (Rabs_pos x). set (ar := Rabs r) in *. set (ax := Rabs x) in *. set (ab := Rabs (a + b)) in *. assert (0 <= D) by apply Rabs_pos.
  assert (0 <= ab) by apply Rabs_pos. assert (q30 : 0 <= q3) by apply Rabs_pos. set (ac := Rabs c) in *.
  clearbody q0 q1 q2 q3 D ar ax ab ac. clear Eq E. clearbody a b c.
  assert (Q3 : q3 <= 1.02 * u * ar + 1.02 * e). { assert (u * ab <= u * ar + u * q3) by nra. assert (u * q3 <= / 100 * q3) by (apply Rmult_le_compat_r; lra). assert (0 <= u * ar) by nra. lra. }
  assert (Q1 : q1 <= 1.02 * u * ar + e). { assert (ac * ar <= 1.02 * ar) by (apply Rmult_le_compat_r; lra). nra. }
  assert (Q0 : q0 * ar <= 1.01 * u * ar). { apply Rmult_le_compat_r; auto. nra. }
  assert (Q2 : q2 <= u * ax + e). { assert (u * (alpha * ax) <= u * (1 * ax)) by (apply Rmult_le_compat_l; [lra|]; apply Rmult_le_compat_r; lra). lra. }
  assert (S1 : alpha * D <= 3.1 * u * ar + u * ax + 3.1 * e) by (assert (0 <= u * ar) by nra; lra).
  assert (S2 : u * ar <= u * D + u * ax) by nra. assert (S3 : 8 * (u * D) <= alpha * D) by nra. assert (0 <= u * ax) by nra. assert (0 <= u * D) by nra. lra.
Qed.

(** recursion without excitation: r' = rnd (c r) *)
Section Zero.
Context (emin prec : Z) {Hp : Prec_gt_0 prec} (ch : Z -> bool).
Notation fexp := (FLT_exp emin prec).
Notation rnd := (round radix2 fexp (Znearest ch)).
Instance ve' : Valid_exp fexp := FLT_exp_valid emin prec.

Lemma rnd_pos_grid x : 0 < rnd x -> bpow radix2 emin <= rnd x.
Proof.
  intros H. destruct (rnd_grid emin prec (Znearest ch) x) as [k K]. rewrite K in *. pose proof (bpow_gt_0 radix2 emin).
  assert (0 < k)%Z. { apply Z.nle_gt. intro L. apply IZR_le in L. nra. } assert (1 <= IZR k) by (apply IZR_le; lia). nra.
Qed.
(** the smallest positive number is kept *)
Lemma keep_min c p : / 2 < c -> bpow radix2 emin <= p -> bpow radix2 emin <= rnd (c * p).
Proof.
  intros Hc Hp'. apply Rle_trans with (rnd (c * bpow radix2 emin)).
  - apply rnd_pos_grid. apply Rnot_le_lt. intro L.
    assert (Q : Rabs (rnd (c * bpow radix2 emin) - c * bpow radix2 emin) <= Rabs (bpow radix2 emin - c * bpow radix2 emin)).
    { destruct (round_N_pt radix2 fexp ch (c * bpow radix2 emin)) as [_ Q]. apply Q. apply generic_format_FLT_bpow; auto; lia. }
    pose proof (bpow_gt_0 radix2 emin) as G. set (g := bpow radix2 emin) in *. set (y := rnd (c * g)) in *. clearbody g y.
    assert (Rabs (y - c * g) >= c * g - y). { rewrite Rabs_minus_sym. apply Rle_ge, Rle_abs. }
    destruct (Rle_dec c 1).
    + rewrite (Rabs_pos_eq (g - c * g)) in Q by nra. nra.
    + rewrite (Rabs_minus_sym g (c * g)), (Rabs_pos_eq (c * g - g)) in Q by nra. nra.
  - apply rnd_le; [apply Hp|typeclasses eauto|]. nra.
Qed.
Lemma half_ulp_small c r : 0 <= c < 1 -> generic_format radix2 fexp c -> 0 < r -> rnd (c * r) = r -> (1 - c) * r <= bpow radix2 (emin - 1).
Proof.
  intros Hc Fc Hr E.
  pose proof (error_le_half_ulp radix2 fexp ch (c * r)) as Q. rewrite E in Q.
  assert (Q' : (1 - c) * r <= / 2 * ulp radix2 fexp (c * r)). { replace ((1 - c) * r) with (r - c * r) by ring. eapply Rle_trans; [apply Rle_abs|exact Q]. }
  destruct (Req_dec c 0) as [C0|C0]. { exfalso. subst c. rewrite Rmult_0_l, round_0 in E by typeclasses eauto. lra. }
  assert (cr : 0 < c * r) by (apply Rmult_lt_0_compat; lra).
  rewrite ulp_neq_0 in Q' by lra. unfold cexp, FLT_exp in Q'.
  destruct (Z.max_spec (mag radix2 (c * r) - prec) emin) as [[_ M]|[L M]]; rewrite M in Q'.
  - replace (bpow radix2 (emin - 1)) with (/ 2 * bpow radix2 emin); auto. unfold Zminus. rewrite bpow_plus. cbn. lra.
  - exfalso. (* normal range: c <= 1 - 2^-prec *)
    assert (C1 : c <= 1 - bpow radix2 (- prec)).
    { replace 1 with (bpow radix2 0) by reflexivity. assert (P : pred radix2 fexp (bpow radix2 0) = bpow radix2 0 - bpow radix2 (fexp 0)).
      { apply pred_bpow. }
      assert (F1 : generic_format radix2 fexp (bpow radix2 0)).
      { apply generic_format_FLT_bpow; auto. destruct (Z.le_gt_cases emin 0); auto. exfalso.
        (* emin > 0: then c in format with 0<c<1 impossible *)
        destruct (rnd_grid emin prec (Znearest ch) c) as [k K]. rewrite round_generic in K by (typeclasses eauto || auto).
        assert (1 < bpow radix2 emin) by (change 1 with (bpow radix2 0); apply bpow_lt; lia). assert (0 < k)%Z by (apply Z.nle_gt; intro LL; apply IZR_le in LL; nra).
        assert (1 <= IZR k) by (apply IZR_le; lia). nra. }
      apply Rle_trans with (pred radix2 fexp (bpow radix2 0)).
      - apply pred_ge_gt; auto; [apply ve'|change (bpow radix2 0) with 1; lra].
      - rewrite P. apply Rplus_le_compat_l, Ropp_le_contravar, bpow_le. unfold FLT_exp. lia. }
    assert (B : bpow radix2 (mag radix2 (c * r) - 1) <= c * r). { pose proof (bpow_mag_le radix2 (c * r) ltac:(lra)) as Q2. rewrite (Rabs_pos_eq (c * r)) in Q2 by lra. exact Q2. }
    assert (U : / 2 * bpow radix2 (mag radix2 (c * r) - prec) <= bpow radix2 (- prec) * (c * r)).
    { replace (bpow radix2 (mag radix2 (c * r) - prec)) with (2 * (bpow radix2 (- prec) * bpow radix2 (mag radix2 (c * r) - 1))).
      - pose proof (bpow_gt_0 radix2 (- prec)). nra.
      - rewrite <- bpow_plus. change 2 with (bpow radix2 1). rewrite <- bpow_plus. f_equal. lia. }
    pose proof (bpow_gt_0 radix2 (- prec)) as G. set (v := bpow radix2 (- prec)) in *. clearbody v. assert (v * (c * r) < v * r) by (apply Rmult_lt_compat_l; auto; nra). nra.
Qed.
(** the whole story for a positive start *)
Lemma zero_rests_pos c (s : nat -> R) T : generic_format radix2 fexp c -> / 2 < c < 1 -> (forall t, (T <= t)%nat -> s (S t) = rnd (c * s t)) -> generic_format radix2 fexp (s T) -> 0 < s T ->
  (forall t, (T <= t)%nat -> bpow radix2 emin <= s t) /\ exists r, rests_at s r /\ bpow radix2 emin <= r /\ (1 - c) * r <= bpow radix2 (emin - 1).
Proof.
  intros Fc Hc E F0 P0.
  assert (M : forall t, (T <= t)%nat -> bpow radix2 emin <= s t).
  { intros t Ht. induction Ht.
    - assert (G : rnd (s T) = s T) by (apply round_generic; auto; typeclasses eauto). rewrite <- G. apply rnd_pos_grid. rewrite G. auto.
    - rewrite E by auto. apply keep_min; auto; lra. }
  split; auto.
  destruct (first_order_rests emin prec (Znearest ch) c 0 s T) as (r & (T1 & R1) & R2); auto; try lra.
  { intros t Ht. rewrite Rplus_0_r, (rnd_rnd emin prec (Znearest ch)). auto. }
  exists r. assert (bpow radix2 emin <= r) by (rewrite <- (R1 (Nat.max T T1)) by lia; apply M; lia). split; [exists T1; auto|]. split; auto.
  rewrite Rplus_0_r, (rnd_rnd emin prec (Znearest ch)) in R2. apply half_ulp_small; auto; try lra. pose proof (bpow_gt_0 radix2 emin). lra.
Qed.
End Zero.
Lemma zero_rests emin prec (Hp : Prec_gt_0 prec) ch c (s : nat -> R) T : let rnd := round radix2 (FLT_exp emin prec) (Znearest ch) in
  generic_format radix2 (FLT_exp emin prec) c -> / 2 < c < 1 -> (forall t, (T <= t)%nat -> s (S t) = rnd (c * s t)) -> generic_format radix2 (FLT_exp emin prec) (s T) -> s T <> 0 ->
  exists r, rests_at s r /\ bpow radix2 emin <= Rabs r <= bpow radix2 emin / (2 * (1 - c)) /\ 0 < r * s T /\ (forall t, (T <= t)%nat -> 0 < r * s t).
Proof.
  intros rnd Fc Hc E F0 N0. pose proof (bpow_gt_0 radix2 emin) as G.
  assert (H : forall r, 0 < r -> (1 - c) * r <= bpow radix2 (emin - 1) -> r <= bpow radix2 emin / (2 * (1 - c))).
  { intros r Hr Q. unfold Zminus in Q. rewrite bpow_plus in Q. change (bpow radix2 (- (1))) with (/ 2) in Q.
    apply Rmult_le_reg_l with (2 * (1 - c)); [lra|]. unfold Rdiv. replace (2 * (1 - c) * (bpow radix2 emin * / (2 * (1 - c)))) with (bpow radix2 emin) by (field; lra). lra. }
  destruct (Rlt_dec 0 (s T)) as [P|P].
  - destruct (zero_rests_pos emin prec ch c s T) as (M & r & R1 & R2 & R3); auto. exists r. rewrite Rabs_pos_eq by lra.
    assert (Q : forall t, (T <= t)%nat -> 0 < r * s t) by (intros t Ht; specialize (M t Ht); nra). repeat split; auto; apply H; auto; lra.
  - destruct (zero_rests_pos emin prec (fun t => negb (ch (- (t + 1))%Z)) c (fun t => - s t) T) as (M & r & (T1 & R1) & R2 & R3); auto; try lra.
    + intros t Ht. rewrite E by auto. unfold rnd. replace (c * s t) with (- (c * - s t)) by ring. rewrite round_N_opp. ring.
    + apply generic_format_opp; auto.
    + exists (- r). rewrite Rabs_Ropp, Rabs_pos_eq by lra.
      assert (Q : forall t, (T <= t)%nat -> 0 < - r * s t) by (intros t Ht; specialize (M t Ht); nra).
      split; [exists T1; intros t Ht; specialize (R1 t Ht); lra|]. repeat split; auto. apply H; auto; lra.
Qed.
(** with c < 1/2 zero is reached *)
Lemma zero_reached emin prec (Hp : Prec_gt_0 prec) ch c (s : nat -> R) T : let rnd := round radix2 (FLT_exp emin prec) (Znearest ch) in
  generic_format radix2 (FLT_exp emin prec) c -> 0 <= c < / 2 -> (forall t, (T <= t)%nat -> s (S t) = rnd (c * s t)) -> rests_at s 0.
Proof.
  intros rnd Fc Hc E. pose proof (bpow_gt_0 radix2 emin) as G.
  assert (Hn : forall ch' r, 0 < r -> round radix2 (FLT_exp emin prec) (Znearest ch') (c * r) = r -> False).
  { intros ch' r Hr Er. pose proof (half_ulp_small emin prec ch' c r ltac:(lra) Fc Hr Er) as Q. unfold Zminus in Q. rewrite bpow_plus in Q. change (bpow radix2 (- (1))) with (/ 2) in Q.
    pose proof (rnd_pos_grid emin prec ch' (c * r)) as L. rewrite Er in L. specialize (L Hr). nra. }
  destruct (first_order_rests emin prec (Znearest ch) c 0 s T) as (r & R1 & R2); auto; try lra.
  { intros t Ht. rewrite Rplus_0_r, (rnd_rnd emin prec (Znearest ch)). auto. }
  rewrite Rplus_0_r, (rnd_rnd emin prec (Znearest ch)) in R2.
  destruct (Rtotal_order r 0) as [L|[L|L]]; [|subst; auto|].
  - exfalso. apply (Hn (fun t => negb (ch (- (t + 1))%Z)) (- r)); [lra|]. rewrite <- R2 at 2. replace (c * r) with (- (c * - r)) by ring. rewrite round_N_opp. ring.
  - exfalso. apply (Hn ch r); auto.
Qed.
