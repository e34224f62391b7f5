(* The transfer curve of netpbm.hh *)
From Coq Require Import Reals Lra Lia ZArith.
From Flocq Require Import Core.
From Interval Require Import Tactic.
From Verif Require Import Model.Netpbm Proofs.WavInst.
Open Scope R_scope.

(** thr = 0.04045 / 12.92 *)
Definition thr : R := 0.04045 / 12.92.
(** the curve without quantisation, 0 <= v <= 1 *)
Definition curve (v : R) : R := if Rle_bool v thr then v * 12.92 else (1 + 0.055) * Rpower v (1 / 2.4) - 0.055.
Definition clamp01 (v : R) : R := if Rlt_bool 1 (if Rlt_bool v 0 then 0 else v) then 1 else (if Rlt_bool v 0 then 0 else v).

Lemma srgb_eq m v : pnm_srgb m v = ZnearestE (IZR m * curve (clamp01 v)).
Proof. reflexivity. Qed.

Lemma clamp01_id v : 0 <= v <= 1 -> clamp01 v = v.
Proof. intros H. unfold clamp01. rewrite (Rlt_bool_false v 0) by lra. rewrite Rlt_bool_false by lra. auto. Qed.
Lemma clamp01_range v : 0 <= clamp01 v <= 1.
Proof. unfold clamp01. destruct (Rlt_bool_spec v 0); [rewrite Rlt_bool_false by lra; lra|]. destruct (Rlt_bool_spec 1 v); lra. Qed.
Lemma clamp01_mono a b : a <= b -> clamp01 a <= clamp01 b.
Proof.
  intros H. unfold clamp01. destruct (Rlt_bool_spec a 0), (Rlt_bool_spec b 0); try lra.
  all: repeat match goal with |- context [Rlt_bool 1 ?x] => destruct (Rlt_bool_spec 1 x) end; lra.
Qed.

Lemma near_round (x : R) (z : Z) : Rabs (x - IZR z) < / 2 -> ZnearestE x = z.
Proof. apply Znearest_imp. Qed.

Lemma Znearest_le x y : x <= y -> (ZnearestE x <= ZnearestE y)%Z.
Proof. apply Zrnd_le. typeclasses eauto. Qed.

Lemma thr_pos : 0 < thr < 1. Proof. unfold thr. lra. Qed.

Lemma Rpower_mono a b e : 0 < e -> 0 < a <= b -> Rpower a e <= Rpower b e.
Proof. intros He [Ha Hab]. apply Rle_Rpower_l; lra. Qed.

(** the curve drops by less than 3.1e-8 at the joint of its two segments *)
Lemma joint_drop : 0.0404499 < 0.04044996 <= (1 + 0.055) * Rpower thr (1 / 2.4) - 0.055.
Proof. split; [lra|]. unfold thr, Rpower. interval with (i_prec 60). Qed.

Lemma curve_seg a b : 0 <= a <= b -> curve a <= curve b \/ curve a <= 0.04045 /\ 0.04044996 <= curve b.
Proof.
  intros [Ha Hab]. unfold curve. pose proof thr_pos as Ht.
  destruct (Rle_bool_spec a thr), (Rle_bool_spec b thr); try lra.
  - right. assert (Rpower thr (1 / 2.4) <= Rpower b (1 / 2.4)) by (apply Rpower_mono; lra).
    pose proof joint_drop. split; [|lra]. apply Rle_trans with (thr * 12.92); [nra|unfold thr; lra].
  - left. assert (Rpower a (1 / 2.4) <= Rpower b (1 / 2.4)) by (apply Rpower_mono; lra). lra.
Qed.

(** no rounding boundary lies inside the drop *)
Definition drop_check (m : Z) : bool :=
  let j := (2 * m * 4045 / 100000)%Z in ((j * 100000000 <? 2 * m * 4044996)%Z || Z.even j)%bool.
Lemma drop_checked : forallb drop_check (List.map Z.of_nat (List.seq 1 255)) = true.
Proof. vm_compute. reflexivity. Qed.

Lemma drop_round m : (1 <= m <= 255)%Z -> ZnearestE (IZR m * 0.04044996) = ZnearestE (IZR m * 0.04045).
Proof.
  intros Hm. assert (C : drop_check m = true).
  { apply (proj1 (List.forallb_forall _ _) drop_checked). apply List.in_map_iff. exists (Z.to_nat m). split; [lia|]. apply List.in_seq. lia. }
  set (z := ZnearestE (IZR m * 0.04045)). apply near_round.
  pose proof (Znearest_half (fun x => negb (Z.even x)) (IZR m * 0.04045)) as H. fold z in H. apply Rabs_le_inv in H.
  assert (HM : 1 <= IZR m) by (apply IZR_le; lia).
  apply Rabs_def1; [lra|]. apply Rnot_le_lt. intros Hc.
  (* 2z-1 lies in the drop *)
  assert (H1 : (2 * m * 4044996 <= (2 * z - 1) * 100000000)%Z).
  { apply le_IZR. rewrite !mult_IZR, minus_IZR, mult_IZR. lra. }
  assert (H2 : ((2 * z - 1) * 100000 <= 2 * m * 4045)%Z).
  { apply le_IZR. rewrite !mult_IZR, minus_IZR, mult_IZR. lra. }
  assert (E : (2 * m * 4045 / 100000 = 2 * z - 1)%Z).
  { symmetry. apply Z.div_unique with (2 * m * 4045 - (2 * z - 1) * 100000)%Z; lia. }
  unfold drop_check in C. rewrite E in C. apply Bool.orb_true_iff in C. destruct C as [C|C].
  - apply Z.ltb_lt in C. lia.
  - replace (2 * z - 1)%Z with (2 * (z - 1) + 1)%Z in C by ring. rewrite Z.even_add_mul_2 in C || rewrite Z.even_add, Z.even_mul in C. discriminate.
Qed.

Lemma srgb_mono m a b : (1 <= m <= 255)%Z -> a <= b -> (pnm_srgb m a <= pnm_srgb m b)%Z.
Proof.
  intros Hm H. rewrite !srgb_eq. apply clamp01_mono in H. pose proof (clamp01_range a).
  assert (HM : 1 <= IZR m) by (apply IZR_le; lia).
  destruct (curve_seg (clamp01 a) (clamp01 b)) as [C | [C1 C2]]; [lra| |].
  - apply Znearest_le. nra.
  - apply Z.le_trans with (ZnearestE (IZR m * 0.04045)). apply Znearest_le. nra. rewrite <- drop_round by auto. apply Znearest_le. nra.
Qed.

Lemma curve_0 : curve 0 = 0.
Proof. unfold curve. rewrite Rle_bool_true by (pose proof thr_pos; lra). lra. Qed.
Lemma curve_1 : curve 1 = 1.
Proof.
  unfold curve. pose proof thr_pos. rewrite Rle_bool_false by lra.
  replace (Rpower 1 (1 / 2.4)) with 1; [lra|]. unfold Rpower. rewrite ln_1, Rmult_0_r, exp_0. auto.
Qed.

(** a power function in terms of a relative change of its argument *)
Lemma Rpower_rel x e p q : 0 < x -> Rabs e <= p -> p < 1 -> 0 < q <= 1 ->
  Rabs (Rpower (x * (1 + e)) q - Rpower x q) <= Rpower x q * p.
Proof.
  intros Hx He Hp Hq.
  assert (He' : - p <= e <= p) by (apply Rabs_le_inv; auto).
  rewrite <- Rpower_mult_distr by lra. set (y := Rpower x q). assert (Hy : 0 < y) by apply exp_pos.
  assert (H1 : 1 - p <= Rpower (1 + e) q <= 1 + p).
  { assert (Hb : forall t, 0 < t <= 1 -> t <= Rpower t q).
    { intros t Ht. rewrite <- (Rpower_1 t) at 1 by lra. unfold Rpower. assert (ln t <= 0) by (rewrite <- ln_1; destruct (proj2 Ht) as [L| ->]; [left; apply ln_increasing; lra|lra]).
      destruct (Req_dec (1 * ln t) (q * ln t)) as [->|]; [lra|]. left. apply exp_increasing. nra. }
    assert (Hc : forall t, 1 <= t -> Rpower t q <= t).
    { intros t Ht. rewrite <- (Rpower_1 t) at 2 by lra. apply Rle_Rpower; lra. }
    destruct (Rle_dec (1 + e) 1).
    - split. apply Rle_trans with (1 + e); [lra|apply Hb; lra].
      apply Rle_trans with (Rpower 1 q). apply Rpower_mono; lra. unfold Rpower. rewrite ln_1, Rmult_0_r, exp_0. lra.
    - split. apply Rle_trans with (Rpower 1 q). unfold Rpower. rewrite ln_1, Rmult_0_r, exp_0. lra. apply Rpower_mono; lra.
      apply Rle_trans with (1 + e); [apply Hc; lra|lra]. }
  replace (y * Rpower (1 + e) q - y) with (y * (Rpower (1 + e) q - 1)) by ring.
  rewrite Rabs_mult, (Rabs_pos_eq y) by lra. apply Rmult_le_compat_l; [lra|]. apply Rabs_le. lra.
Qed.

(** linear segment read back through the power segment: the two branches nearly agree close to the joint *)
Lemma joint s : 0.0404 <= s <= 0.081 -> - 0.0001 - 0.3 * Rabs (s - 0.04045) <= (1 + 0.055) * Rpower (s / 12.92) (1 / 2.4) - 0.055 - s <= 0.0001.
Proof.
  intros H. unfold Rpower. split.
  - destruct (Rle_dec s 0.04045).
    + assert (-0.0001 <= (1 + 0.055) * exp (1 / 2.4 * ln (s / 12.92)) - 0.055 - s) by interval with (i_prec 60, i_bisect s, i_taylor s).
      pose proof (Rabs_pos (s - 0.04045)). lra.
    + rewrite Rabs_pos_eq by lra.
      assert (0 <= (1 + 0.055) * exp (1 / 2.4 * ln (s / 12.92)) - 0.055 - s + 0.0001 + 0.3 * (s - 0.04045)) by interval with (i_prec 60, i_bisect s, i_taylor s).
      lra.
  - interval with (i_prec 60, i_bisect s, i_taylor s).
Qed.

(** reading a code and writing it back, tolerating a relative error of 1e-6 of the value in between *)
Lemma code_roundtrip m v x : (1 <= m <= 255)%Z -> (0 <= v <= m)%Z ->
  Rabs (x - pnm_linear m v) <= 0.000001 * pnm_linear m v -> pnm_srgb m x = v.
Proof.
  intros Hm Hv Hx. rewrite srgb_eq. apply near_round.
  set (M := IZR m). set (V := IZR v). set (s := V / M).
  assert (HM : 1 <= M <= 255) by (split; apply IZR_le; lia).
  assert (HV : 0 <= V <= M) by (split; apply IZR_le; lia).
  assert (Es : V = s * M) by (unfold s; field; lra).
  assert (Hs : 0 <= s <= 1). { unfold s. split. apply Rmult_le_pos; [lra|]. left; apply Rinv_0_lt_compat; lra. apply Rmult_le_reg_r with M; [lra|]. unfold Rdiv. rewrite Rmult_assoc, Rinv_l by lra. lra. }
  unfold pnm_linear in Hx. fold M V in Hx. set (K0 := ZnearestE (0.04045 * M)) in *.
  assert (HK : Rabs (0.04045 * M - IZR K0) <= / 2) by apply Znearest_half.
  apply Rabs_le_inv in HK.
  destruct (Z.leb_spec v K0) as [HvK|HvK].
  - (* linear segment *)
    assert (HVK : V <= IZR K0) by (apply IZR_le; auto).
    assert (EL : V / (12.92 * M) = s / 12.92) by (unfold s; field; lra). rewrite EL in Hx.
    assert (H12 : 0 <= s / 12.92 <= 0.0775) by (unfold Rdiv; lra).
    apply Rabs_le_inv in Hx. rewrite clamp01_id by lra.
    assert (Hsm : s * M <= 0.04045 * M + / 2) by lra.
    unfold curve. destruct (Rle_bool_spec x thr) as [Hle|Hgt].
    + rewrite Es. apply Rabs_def1; nra.
    + assert (HsL : 0.0404 <= s). { unfold thr in Hgt. lra. }
      assert (HVM : (1 <= v)%Z). { apply le_IZR. apply Rnot_lt_le. intros C. assert (v < 1)%Z by (apply lt_IZR; auto). assert (v = 0)%Z by lia. subst v. unfold s, V in HsL. lra. }
      assert (HV1 : 1 <= V) by (apply IZR_le; auto).
      assert (HM12 : 12.36 <= M). { assert (/2 <= 0.04045 * M) by lra. lra. }
      assert (HsU0 : M * (s - 0.04045) <= / 2) by lra.
      assert (HsU : s <= 0.081).
      { assert (s <= 0.04045 + / (2 * M)). { apply Rmult_le_reg_r with M; [lra|]. rewrite Rmult_plus_distr_r. replace (/ (2 * M) * M) with (/2) by (field; lra). lra. }
        assert (/ (2 * M) <= / 24.72) by (apply Rinv_le_contravar; lra). lra. }
      pose proof (joint s ltac:(lra)) as J.
      pose proof (Rpower_rel (s / 12.92) (x / (s / 12.92) - 1) 0.000001 (1 / 2.4)) as R.
      replace (s / 12.92 * (1 + (x / (s / 12.92) - 1))) with x in R by (field; lra).
      assert (Hss : 0 < s / 12.92) by lra.
      assert (HP : Rpower (s / 12.92) (1 / 2.4) <= 1).
      { apply Rle_trans with (Rpower 1 (1 / 2.4)). apply Rpower_mono; lra. unfold Rpower. rewrite ln_1, Rmult_0_r, exp_0. lra. }
      assert (RE : Rabs (x / (s / 12.92) - 1) <= 0.000001).
      { replace (x / (s / 12.92) - 1) with ((x - s / 12.92) / (s / 12.92)) by (field; lra). unfold Rdiv at 1. rewrite Rabs_mult, (Rabs_pos_eq (/ _)) by (left; apply Rinv_0_lt_compat; lra).
        apply Rmult_le_reg_r with (s / 12.92); [lra|]. rewrite Rmult_assoc, Rinv_l by lra. rewrite Rmult_1_r. apply Rabs_le. lra. }
      specialize (R Hss RE ltac:(lra) ltac:(lra)). apply Rabs_le_inv in R.
      assert (HP0 : 0 < Rpower (s / 12.92) (1 / 2.4)) by apply exp_pos.
      set (P := Rpower (s / 12.92) (1 / 2.4)) in *. set (Q := Rpower x (1 / 2.4)) in *.
      assert (HD : Rabs (s - 0.04045) * M <= / 2).
      { destruct (Rle_dec s 0.04045). rewrite Rabs_left1 by lra. nra. rewrite Rabs_pos_eq by lra. lra. }
      assert (D1 : - 0.0002 - 0.3 * Rabs (s - 0.04045) <= (1 + 0.055) * Q - 0.055 - s <= 0.0002) by lra.
      set (D := (1 + 0.055) * Q - 0.055 - s) in *. replace (M * ((1 + 0.055) * Q - 0.055) - V) with (M * D) by (unfold D; rewrite Es; ring).
      pose proof (Rabs_pos (s - 0.04045)). clearbody D. apply Rabs_def1; nra.
  - (* power segment *)
    assert (HVK : IZR K0 + 1 <= V) by (rewrite <- plus_IZR; apply IZR_le; lia).
    assert (HsM : 0.04045 * M + / 2 <= s * M) by lra.
    assert (HsL : 0.0424 <= s).
    { apply Rmult_le_reg_r with M; [lra|]. nra. }
    set (t := (s + 0.055) / 1.055). assert (Ht : 0.0923 <= t <= 1) by (unfold t; lra).
    assert (EL : (V + 0.055 * M) / (M + 0.055 * M) = t). { unfold t, s. replace 0.055 with (55 / 1000) by lra. replace 1.055 with (1055 / 1000) by lra. field. lra. } rewrite EL in Hx.
    set (L := Rpower t 2.4) in *.
    assert (HL0 : 0.00328 <= L). { apply Rle_trans with (Rpower 0.0923 2.4). unfold Rpower; interval. apply Rpower_mono; lra. }
    assert (HL1 : L <= 1). { apply Rle_trans with (Rpower 1 2.4). apply Rpower_mono; lra. unfold Rpower. rewrite ln_1, Rmult_0_r, exp_0. lra. }
    apply Rabs_le_inv in Hx.
    assert (Hc : exists e, clamp01 x = L * (1 + e) /\ Rabs e <= 0.000001).
    { exists (clamp01 x / L - 1). split; [field; lra|].
      replace (clamp01 x / L - 1) with ((clamp01 x - L) / L) by (field; lra). unfold Rdiv at 1. rewrite Rabs_mult, (Rabs_pos_eq (/ _)) by (left; apply Rinv_0_lt_compat; lra).
      apply Rmult_le_reg_r with L; [lra|]. rewrite Rmult_assoc, Rinv_l by lra. rewrite Rmult_1_r. apply Rabs_le.
      unfold clamp01. rewrite (Rlt_bool_false x 0) by lra. destruct (Rlt_bool_spec 1 x); lra. }
    destruct Hc as (e & Ec & He). rewrite Ec. apply Rabs_le_inv in He as He'.
    unfold curve. rewrite Rle_bool_false by (unfold thr; nra).
    pose proof (Rpower_rel L e 0.000001 (1 / 2.4) ltac:(lra) He ltac:(lra) ltac:(lra)) as R.
    assert (EP : Rpower L (1 / 2.4) = t).
    { unfold L. rewrite Rpower_mult. replace (2.4 * (1 / 2.4)) with 1 by lra. apply Rpower_1. lra. }
    rewrite EP in R. apply Rabs_le_inv in R. set (Q := Rpower (L * (1 + e)) (1 / 2.4)) in *.
    assert (D1 : - 0.00001 <= (1 + 0.055) * Q - 0.055 - s <= 0.00001). { unfold t in R. lra. }
    set (D := (1 + 0.055) * Q - 0.055 - s) in *. replace (M * ((1 + 0.055) * Q - 0.055) - V) with (M * D) by (unfold D; rewrite Es; ring).
    clearbody D. apply Rabs_def1; nra.
Qed.

Lemma linear_range m v : (1 <= m <= 255)%Z -> (0 <= v <= m)%Z -> 0 <= pnm_linear m v <= 1.
Proof.
  intros Hm Hv. unfold pnm_linear.
  assert (HM : 1 <= IZR m <= 255) by (split; apply IZR_le; lia).
  assert (HV : 0 <= IZR v <= IZR m) by (split; apply IZR_le; lia).
  destruct (v <=? _)%Z.
  - split. apply Rmult_le_pos; [lra|]. left; apply Rinv_0_lt_compat; lra.
    apply Rmult_le_reg_r with (12.92 * IZR m); [lra|]. unfold Rdiv. rewrite Rmult_assoc, Rinv_l by lra. lra.
  - split. left. apply exp_pos.
    assert (0 < (IZR v + 0.055 * IZR m) / (IZR m + 0.055 * IZR m) <= 1).
    { split. apply Rmult_lt_0_compat; [lra|apply Rinv_0_lt_compat; lra].
      apply Rmult_le_reg_r with (IZR m + 0.055 * IZR m); [lra|]. unfold Rdiv. rewrite Rmult_assoc, Rinv_l by lra. lra. }
    apply Rle_trans with (Rpower 1 2.4). apply Rpower_mono; lra. unfold Rpower. rewrite ln_1, Rmult_0_r, exp_0. lra.
Qed.

Lemma srgb_0 m : pnm_srgb m 0 = 0%Z.
Proof. rewrite srgb_eq, clamp01_id, curve_0 by lra. rewrite Rmult_0_r. apply near_round. rewrite Rminus_0_r, Rabs_R0. lra. Qed.
Lemma srgb_1 m : pnm_srgb m 1 = m.
Proof. rewrite srgb_eq, clamp01_id, curve_1 by lra. rewrite Rmult_1_r. apply near_round. rewrite Rminus_diag_eq, Rabs_R0 by auto. lra. Qed.
Lemma srgb_clamp m v : (v <= 0 -> pnm_srgb m v = 0%Z) /\ (1 <= v -> pnm_srgb m v = m).
Proof.
  split; intros H.
  - rewrite <- (srgb_0 m), !srgb_eq. do 3 f_equal. rewrite (clamp01_id 0) by lra. unfold clamp01.
    destruct (Rlt_bool_spec v 0); [|replace v with 0 by lra]; rewrite Rlt_bool_false by lra; auto.
  - rewrite <- (srgb_1 m) at 2. rewrite !srgb_eq. do 3 f_equal. rewrite (clamp01_id 1) by lra. unfold clamp01.
    rewrite (Rlt_bool_false v 0) by lra. destruct (Rlt_bool_spec 1 v); lra.
Qed.

(** for larger maxvals the drop at the joint becomes visible *)
Lemma srgb_not_mono : exists a b, a <= b /\ (pnm_srgb 2089 b < pnm_srgb 2089 a)%Z.
Proof.
  exists thr, (thr + / 10 ^ 13). pose proof thr_pos. split; [lra|].
  assert (pnm_srgb 2089 thr = 85)%Z.
  { rewrite srgb_eq, clamp01_id by lra. unfold curve. rewrite Rle_bool_true by lra. apply near_round. unfold thr. apply Rabs_def1; lra. }
  assert (pnm_srgb 2089 (thr + / 10 ^ 13) = 84)%Z.
  { rewrite srgb_eq, clamp01_id by (unfold thr; lra). unfold curve. rewrite Rle_bool_false by lra. apply near_round. unfold thr, Rpower.
    apply Rabs_def1; interval with (i_prec 80). }
  lia.
Qed.
