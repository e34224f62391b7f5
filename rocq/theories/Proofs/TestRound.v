(* The test programs with floating point numbers pass *)
From Coq Require Import Reals ZArith Lia Lra.
From Interval Require Import Tactic.
From Flocq Require Import Core.
From Verif Require Import Proofs.BaseLemmas Spec.Rounding Spec.Angle Model.UnitCircle Model.Atan2 Model.Cordic Proofs.UnitCircleProofs Proofs.UcRound Proofs.PhasorProofs Proofs.AtRound Model.TestPrograms.
From Verif Require Import Props.PFftRound Props.PCordic Props.PAtRound.
Open Scope R_scope.

(** * loops of assertions *)
Lemma for_all_ok (body : Z -> unit -> outcome unit) n : forall i, (forall k, (i <= k < i + Z.of_nat n)%Z -> body k tt = Ok tt) -> for_loop n i body tt = Ok tt.
Proof.
  induction n as [|n IH]; intros i H; cbn [for_loop]; auto. rewrite H by lia. cbn [bind]. apply IH. intros k Hk. apply H. lia.
Qed.

(** * cordic_test *)
Lemma scale_near rnd K c r : rounding (bpow radix2 (-53)) (bpow radix2 (-1075)) rnd -> 0 <= K <= 32767 -> Rabs r <= 1 -> Rabs (c - r) <= 1e-15 ->
  Rabs (rnd (rnd K * c) - K * r) <= / 262144.
Proof.
  intros Hr HK Hc Hd. assert (E : bpow radix2 (-1075) <= bpow radix2 (-53)) by (apply bpow_le; lia). pose proof (bpow_gt_0 radix2 (-1075)) as E0.
  change (bpow radix2 (-53)) with (/ 9007199254740992) in *. set (e := bpow radix2 (-1075)) in *. clearbody e.
  pose proof (Hr K) as A. rewrite (Rabs_pos_eq K) in A by lra.
  assert (A' : Rabs (rnd K - K) <= 1e-11) by lra. set (K' := rnd K) in *. clearbody K'. clear A.
  assert (B : Rabs (K' * c - K * r) <= 1e-10).
  { replace (K' * c - K * r) with ((K' - K) * (c - r) + (K' - K) * r + K * (c - r)) by ring.
    eapply Rle_trans; [apply Rabs_triang|]. eapply Rle_trans; [apply Rplus_le_compat_r, Rabs_triang|]. rewrite !Rabs_mult, (Rabs_pos_eq K) by lra.
    pose proof (Rabs_pos (K' - K)). pose proof (Rabs_pos (c - r)). pose proof (Rabs_pos r).
    assert (Rabs (K' - K) * Rabs (c - r) <= 1e-11 * 1e-15) by (apply Rmult_le_compat; auto).
    assert (Rabs (K' - K) * Rabs r <= 1e-11 * 1) by (apply Rmult_le_compat; auto).
    assert (K * Rabs (c - r) <= 32767 * 1e-15) by (apply Rmult_le_compat; lra). lra. }
  pose proof (Hr (K' * c)) as D.
  assert (M : Rabs (K' * c) <= 32768). { replace (K' * c) with ((K' * c - K * r) + K * r) by ring. eapply Rle_trans; [apply Rabs_triang|]. rewrite Rabs_mult, (Rabs_pos_eq K) by lra.
    assert (K * Rabs r <= 32767 * 1) by (apply Rmult_le_compat; try lra; apply Rabs_pos). lra. }
  replace (rnd (K' * c) - K * r) with ((rnd (K' * c) - K' * c) + (K' * c - K * r)) by ring. eapply Rle_trans; [apply Rabs_triang|]. lra.
Qed.
Lemma near_range u K r : Rabs r <= 1 -> (0 <= K)%Z -> Rabs (u - IZR K * r) <= / 262144 -> (- K <= ZnearestE u <= K)%Z.
Proof.
  intros Hr HK H. pose proof (Znearest_half (fun x => negb (Z.even x)) u) as Z. assert (K0 : 0 <= IZR K) by (apply IZR_le; auto).
  assert (M : Rabs (IZR K * r) <= IZR K). { rewrite Rabs_mult, (Rabs_pos_eq (IZR K)) by auto. rewrite <- (Rmult_1_r (IZR K)) at 2. apply Rmult_le_compat_l; auto. }
  apply Rabs_le_inv in H, Z, M. set (z := ZnearestE u) in *.
  assert (IZR z < IZR (K + 1)) by (rewrite plus_IZR; lra). assert (IZR (- K - 1) < IZR z) by (rewrite minus_IZR, opp_IZR; lra). apply lt_IZR in H0, H1. lia.
Qed.
Lemma cordic_test_ok BYTES : (BYTES = 1 \/ BYTES = 2)%Z -> cordic_test rnd64 BYTES = Ok tt.
Proof.
  intros HB. unfold cordic_test. cbv zeta. apply for_all_ok. intros n Hn.
  set (N := (2 ^ (8 * BYTES))%Z) in *. assert (HN : (N = 256 \/ N = 65536)%Z) by (unfold N; destruct HB as [-> | ->]; vm_compute; auto).
  assert (RN : (- N / 2 <= n < N / 2)%Z). { clearbody N. rewrite Z2Nat.id in Hn by lia. destruct HN as [-> | ->]; [change (- (256) / 2)%Z with (-128)%Z in *; change (256 / 2)%Z with 128%Z|change (- (65536) / 2)%Z with (-32768)%Z in *; change (65536 / 2)%Z with 32768%Z]; lia. }
  assert (Hn' : (Z.abs n <= N)%Z) by (clearbody N; destruct HN as [-> | ->]; [change (- (256) / 2)%Z with (-128)%Z in *; change (256 / 2)%Z with 128%Z in *|change (- (65536) / 2)%Z with (-32768)%Z in *; change (65536 / 2)%Z with 32768%Z in *]; lia).
  destruct (C75_binary64 n N) as (c & s & -> & -> & Ac & As); [lia|auto|unfold INT_MAX; lia|]. cbn [bind nmul nofZ Fn].
  set (K := (N / 2 - 1)%Z). assert (HK : (0 <= K <= 32767)%Z) by (unfold K; destruct HN as [E|E]; rewrite E; vm_compute; intuition discriminate).
  assert (HK' : 0 <= IZR K <= 32767) by (split; apply IZR_le; lia).
  assert (C1 : forall t, Rabs (cos t) <= 1) by (intros; apply Rabs_le, COS_bound). assert (S1 : forall t, Rabs (sin t) <= 1) by (intros; apply Rabs_le, SIN_bound).
  pose proof (scale_near _ _ _ _ fmt64 HK' (C1 _) Ac) as Bc. pose proof (scale_near _ _ _ _ fmt64 HK' (S1 _) As) as Bs.
  set (u := rnd64 (rnd64 (IZR K) * c)) in *. set (v := rnd64 (rnd64 (IZR K) * s)) in *. clearbody u v.
  pose proof (near_range _ _ _ (C1 _) (proj1 HK) Bc) as Rc. pose proof (near_range _ _ _ (S1 _) (proj1 HK) Bs) as Rs.
  unfold to_int. assert (PW : (2 ^ (8 * BYTES - 1) = K + 1)%Z) by (unfold K, N; destruct HB as [-> | ->]; reflexivity). rewrite PW.
  assert (G : forall w, (- K <= w <= K)%Z -> ((- (K + 1) <=? w) && (w <? K + 1))%Z = true) by (intros w Hw; apply andb_true_intro; split; [apply Z.leb_le|apply Z.ltb_lt]; lia).
  rewrite !G by auto. cbn [bind].
  assert (X : exists a, cordic_atan2 BYTES (ZnearestE v) (ZnearestE u) = Ok a /\ (Z.abs (a - n) <= 1)%Z).
  { assert (KE : K = (N / 2 - 1)%Z) by reflexivity. assert (NE : N = (2 ^ (8 * BYTES))%Z) by reflexivity. clearbody K N. clear PW G. destruct HB as [-> | ->].
    - change (2 ^ (8 * 1))%Z with 256%Z in NE. subst N. change (256 / 2 - 1)%Z with 127%Z in KE. change (256 / 2)%Z with 128%Z in *. change (- (256) / 2)%Z with (-128)%Z in *. subst K. replace (2 * PI * IZR n / 256) with (IZR n * (2 * PI / 256)) in * by field. apply C37_full8; auto.
    - change (2 ^ (8 * 2))%Z with 65536%Z in NE. subst N. change (65536 / 2 - 1)%Z with 32767%Z in KE. change (65536 / 2)%Z with 32768%Z in *. change (- (65536) / 2)%Z with (-32768)%Z in *. subst K. replace (2 * PI * IZR n / 65536) with (IZR n * (2 * PI / 65536)) in * by field. apply C37_full16; auto. }
  destruct X as (a & -> & Ha). cbn [bind]. rewrite (proj2 (Z.leb_le _ _) Ha). auto.
Qed.

(** * atan2_test *)
Lemma tan_ge d : - (PI / 2) < d < PI / 2 -> Rabs d <= Rabs (tan d).
Proof.
  intros H. pose proof (AtRound.atan_lip (tan d) 0) as L. rewrite atan_0, !Rminus_0_r, atan_tan in L by auto. auto.
Qed.
Lemma angle_near x y t th h : angle_of x y t -> Rabs (x - cos th) <= h -> Rabs (y - sin th) <= h -> 0 <= h <= 1 / 1000 -> Rabs (t - th) < PI -> Rabs (t - th) <= 1.42 * h.
Proof.
  intros (_ & Ex & Ey) Hx Hy Hh Hw. set (r := sqrt (x * x + y * y)) in *. pose proof (sqrt_pos (x * x + y * y)) as R0. fold r in R0. clearbody r.
  set (d := t - th) in *. assert (Sd : r * sin d = (y - sin th) * cos th - (x - cos th) * sin th). { unfold d. rewrite sin_minus, Ex, Ey. ring. }
  assert (Cd : r * cos d = 1 + (x - cos th) * cos th + (y - sin th) * sin th).
  { unfold d. rewrite cos_minus. pose proof (sin2_cos2 th) as Q. unfold Rsqr in Q. rewrite Ex, Ey. replace 1 with (sin th * sin th + cos th * cos th) by lra. ring. }
  assert (Q : Rabs (cos th) + Rabs (sin th) <= 1.4143).
  { pose proof (sin2_cos2 th) as Q. unfold Rsqr in Q. pose proof (Rabs_pos (cos th)). pose proof (Rabs_pos (sin th)). rewrite <- (Rabs_pos_eq (sin th * sin th)), <- (Rabs_pos_eq (cos th * cos th)), !Rabs_mult in Q by nra.
    set (a := Rabs (cos th)) in *. set (b := Rabs (sin th)) in *. clearbody a b. assert ((a + b) * (a + b) <= 2) by (pose proof (Rle_0_sqr (a - b)); unfold Rsqr in *; lra). apply Rnot_lt_le. intros L. nra. }
  assert (AB : forall a b p q, Rabs a <= h -> Rabs b <= h -> Rabs p + Rabs q <= 1.4143 -> Rabs (a * p + b * q) <= 1.4143 * h).
  { intros a b p q Ha Hb Hpq. eapply Rle_trans; [apply Rabs_triang|]. rewrite !Rabs_mult. pose proof (Rabs_pos p). pose proof (Rabs_pos q).
    assert (Rabs a * Rabs p <= h * Rabs p) by (apply Rmult_le_compat_r; auto). assert (Rabs b * Rabs q <= h * Rabs q) by (apply Rmult_le_compat_r; auto).
    assert (h * (Rabs p + Rabs q) <= h * 1.4143) by (apply Rmult_le_compat_l; lra). lra. }
  assert (S1 : Rabs (r * sin d) <= 1.4143 * h). { rewrite Sd. replace ((y - sin th) * cos th - (x - cos th) * sin th) with ((y - sin th) * cos th + (x - cos th) * - sin th) by ring. apply AB; auto. rewrite Rabs_Ropp. auto. }
  assert (C1 : 1 - 1.4143 * h <= r * cos d). { pose proof (AB _ _ _ _ Hx Hy Q) as X. apply Rabs_le_inv in X. rewrite Cd. lra. }
  assert (C2 : 0.998 < r * cos d) by lra. assert (Rp : 0 < r) by (destruct R0 as [|<-]; auto; lra).
  assert (C3 : 0 < cos d). { apply (Rmult_lt_reg_l r); auto. lra. }
  assert (D : - (PI / 2) < d < PI / 2).
  { apply Rabs_def2 in Hw. split; apply Rnot_le_lt; intros L.
    - rewrite <- cos_neg in C3. assert (cos (- d) <= 0) by (apply cos_le_0; lra). lra.
    - assert (cos d <= 0) by (apply cos_le_0; lra). lra. }
  eapply Rle_trans; [apply (tan_ge d D)|]. replace (tan d) with ((r * sin d) / (r * cos d)) by (unfold tan; field; lra).
  unfold Rdiv. rewrite Rabs_mult, Rabs_inv, (Rabs_pos_eq (r * cos d)) by lra.
  apply (Rmult_le_reg_r (r * cos d)); [lra|]. rewrite Rmult_assoc, Rinv_l, Rmult_1_r by lra.
  assert (1.42 * h * (1 - 1.4143 * h) <= 1.42 * h * (r * cos d)) by (apply Rmult_le_compat_l; lra). nra.
Qed.

Lemma sin_low a : 2.3e-8 <= a <= PI - 2.3e-8 -> 2e-8 <= sin a.
Proof.
  intros H. assert (G : forall z, 2.3e-8 <= z <= 1.58 -> 2e-8 <= sin z) by (intros z Hz; interval).
  destruct (Rle_dec a 1.58); [apply G; lra|]. rewrite <- sin_PI_x. apply G. assert (PI < 3.1416) by interval. lra.
Qed.
Lemma sin_sign t : - PI < t <= PI -> 0 < sin t -> 0 < t < PI.
Proof.
  intros H S. split; apply Rnot_le_lt; intros L.
  - assert (0 <= sin (- t)) by (apply sin_ge_0; lra). rewrite sin_neg in H0. lra.
  - replace t with PI in S by lra. rewrite sin_PI in S. lra.
Qed.
Lemma same_side x y t th : angle_of x y t -> - PI < th < PI -> 0 < y * sin th -> Rabs (t - th) < PI.
Proof.
  intros (T & _ & Ey) Hth H. pose proof (sqrt_pos (x * x + y * y)) as R0. set (r := sqrt (x * x + y * y)) in *. clearbody r.
  destruct (Rtotal_order y 0) as [Y|[Y|Y]].
  - assert (sin th < 0) by nra. assert (sin t < 0) by nra. assert (t <> PI) by (intros ->; rewrite sin_PI in *; lra).
    destruct (sin_sign (- t)) as [A B]; [lra|rewrite sin_neg; lra|]. destruct (sin_sign (- th)) as [C D]; [lra|rewrite sin_neg; lra|]. apply Rabs_def1; lra.
  - rewrite Y in H. lra.
  - assert (0 < sin th) by nra. assert (0 < sin t) by nra. destruct (sin_sign t); auto. destruct (sin_sign th); [lra|auto|]. apply Rabs_def1; lra.
Qed.

Section AtTest.
Context (u e : R) (rT : R -> R).
Hypothesis Hu : 0 < u <= 1 / 10000000.
Hypothesis He : 0 <= e <= u * 1e-36.
Hypothesis HT : rounding u e rT.
Context (P : num R) (d db : R).
Hypothesis Hd : 0 <= d <= 1e-9.
Hypothesis Puc : forall n N, (1 <= N)%Z -> (Z.abs n <= N)%Z -> (8 * N <= INT_MAX)%Z -> exists c s, uc_cos P n N = Ok c /\ uc_sin P n N = Ok s /\
  Rabs (c - cos (2 * PI * IZR n / IZR N)) <= d /\ Rabs (s - sin (2 * PI * IZR n / IZR N)) <= d.
Hypothesis Pb : forall n N, (1 <= N)%Z -> (2 * Z.abs n <= N)%Z -> (8 * N <= INT_MAX)%Z ->
  Rabs (ndiv P (nmul P (TwoPi P) (nofZ P n)) (nofZ P N) - 2 * PI * IZR n / IZR N) <= db.
Hypothesis Psub : forall a b, Rabs (nsub P a b - (a - b)) <= 1e-6 * Rabs (a - b) + 1e-6 * u.
Hypothesis Pabs : nabs P = Rabs.
Hypothesis Plt : nltb P = Rlt_bool.
Hypothesis Hbudget : 13 * u + 1.1e-16 + 1.42 * (d + 1.0001 * u) + db <= 19.8 * u.

Lemma atan2_case n N : (1 <= N)%Z -> (2 * Z.abs n <= N - 2)%Z -> (8 * N <= INT_MAX)%Z ->
  exists c s, uc_cos P n N = Ok c /\ uc_sin P n N = Ok s /\ Rabs (atan2 (Fn rT) (Rlt_bool (rT s) 0) (rT s) (rT c) - 2 * PI * IZR n / IZR N) <= 13 * u + 1.1e-16 + 1.42 * (d + 1.0001 * u).
Proof.
  intros HN Hn HI. destruct (Puc n N) as (c & s & Ec & Es & Ac & As); auto; [lia|]. exists c, s. split; auto. split; auto.
  set (th := 2 * PI * IZR n / IZR N) in *.
  assert (N1 : 1 <= IZR N <= 268435455) by (unfold INT_MAX in HI; split; apply IZR_le; lia). assert (PP : 3.14159 < PI < 3.1416) by (split; interval).
  assert (h : forall a r, Rabs r <= 1 -> Rabs (a - r) <= d -> Rabs (rT a - a) <= 1.00005 * u /\ Rabs (rT a - r) <= d + 1.0001 * u).
  { intros a r Hr Ha. pose proof (HT a) as X. assert (Rabs a <= 1 + 1e-9). { replace a with ((a - r) + r) by ring. eapply Rle_trans; [apply Rabs_triang|]. lra. }
    assert (u * Rabs a <= u * (1 + 1e-9)) by (apply Rmult_le_compat_l; lra). assert (Rabs (rT a - a) <= 1.00005 * u) by lra. split; auto.
    replace (rT a - r) with ((rT a - a) + (a - r)) by ring. eapply Rle_trans; [apply Rabs_triang|]. lra. }
  destruct (h c (cos th)) as [_ Bc]; auto. { apply Rabs_le, COS_bound. } destruct (h s (sin th)) as [Ds Bs]; auto. { apply Rabs_le, SIN_bound. }
  set (h0 := d + 1.0001 * u) in *. assert (Hh : 0 <= h0 <= 1 / 1000) by (unfold h0; lra).
  assert (NZ : ~ (rT c = 0 /\ rT s = 0)). { intros [Z1 Z2]. rewrite Z1, Rminus_0_l, Rabs_Ropp in Bc. rewrite Z2, Rminus_0_l, Rabs_Ropp in Bs.
    pose proof (sin2_cos2 th) as Q. unfold Rsqr in Q. apply Rabs_le_inv in Bc, Bs. nra. }
  destruct (C91_atan2 u e rT (Rlt_bool (rT s) 0) (rT c) (rT s) Hu He HT NZ) as (t & A & _ & B1 & B2 & _).
  { intros L. apply Rlt_bool_true. auto. } { intros L. apply Rlt_bool_false. auto. }
  assert (W : Rabs (t - th) < PI /\ (0 <= rT c \/ 1e-33 <= Rabs (rT s / rT c))).
  { destruct (Z.eq_dec n 0) as [En|En].
    - assert (T0 : th = 0) by (unfold th; rewrite En; unfold Rdiv; ring). rewrite T0, cos_0 in Bc. apply Rabs_le_inv in Bc. split; [|left; lra]. rewrite T0, Rminus_0_r.
      destruct A as (T & Ex & _). pose proof (sqrt_pos (rT c * rT c + rT s * rT s)). assert (t <> PI). { intros E. rewrite E, cos_PI in Ex. lra. } apply Rabs_def1; lra.
    - assert (Bn : 1 <= IZR (Z.abs n)) by (apply IZR_le; lia). assert (Bn2 : 2 * IZR (Z.abs n) <= IZR N - 2) by (apply IZR_le in Hn; rewrite mult_IZR, minus_IZR in Hn; auto).
      assert (TA : Rabs th = 2 * PI * IZR (Z.abs n) / IZR N). { unfold th, Rdiv. rewrite !Rabs_mult, Rabs_inv, <- (abs_IZR n), (Rabs_pos_eq (IZR N)), (Rabs_pos_eq PI), (Rabs_pos_eq 2) by lra. auto. }
      assert (I : / 268435455 <= / IZR N) by (apply Rinv_le; lra).
      assert (L1 : 2.3e-8 <= Rabs th). { rewrite TA. apply Rle_trans with (6.283 * / 268435455); [lra|]. unfold Rdiv. apply Rmult_le_compat; try lra. nra. }
      assert (L2 : Rabs th <= PI - 2.3e-8). { rewrite TA. apply (Rmult_le_reg_r (IZR N)); [lra|]. unfold Rdiv. rewrite Rmult_assoc, Rinv_l, Rmult_1_r by lra. nra. }
      pose proof (sin_low (Rabs th) (conj L1 L2)) as SL.
      assert (TS : - PI < th < PI) by (assert (RT : Rabs th < PI) by lra; apply Rabs_def2 in RT; lra).
      assert (SS : Rabs (sin th) = sin (Rabs th)). { unfold Rabs at 2. destruct (Rcase_abs th) as [C|C].
        - rewrite Rabs_left in SL by auto. rewrite sin_neg in *. rewrite Rabs_left; lra.
        - rewrite Rabs_pos_eq in SL by lra. rewrite Rabs_pos_eq; lra. }
      assert (SA : 2e-8 <= Rabs (sin th)) by (rewrite SS; auto).
      pose proof (HT s) as Hs. assert (X : 1e-8 <= Rabs (rT s) /\ 0 < rT s * sin th).
      { assert (1.9e-8 <= Rabs s). { assert (Rabs (sin th) <= Rabs s + Rabs (s - sin th)). { replace (sin th) with (s + - (s - sin th)) at 1 by ring. eapply Rle_trans; [apply Rabs_triang|]. rewrite Rabs_Ropp. lra. } lra. }
        assert (Q : Rabs (rT s - s) <= 0.001 * Rabs s). { assert (u * Rabs s <= 1 / 10000000 * Rabs s) by (apply Rmult_le_compat_r; lra). lra. }
        clear - SA H Q As Hd. apply Rabs_le_inv in As. unfold Rabs in *. destruct (Rcase_abs s), (Rcase_abs (rT s)), (Rcase_abs (rT s - s)), (Rcase_abs (sin th)); split; try lra; nra. }
      destruct X as [X1 X2]. split; [apply (same_side (rT c) (rT s)); auto|].
      destruct (Rle_dec 0 (rT c)); [left; auto|right]. assert (Rabs (rT c) <= 2). { replace (rT c) with ((rT c - cos th) + cos th) by ring. eapply Rle_trans; [apply Rabs_triang|]. pose proof (COS_bound th). assert (Rabs (cos th) <= 1) by (apply Rabs_le; lra). lra. }
      assert (0 < Rabs (rT c)) by (apply Rabs_pos_lt; lra). unfold Rdiv. rewrite Rabs_mult, Rabs_inv. assert (/ 2 <= / Rabs (rT c)) by (apply Rinv_le; auto).
      apply Rle_trans with (1e-8 * / 2); [lra|]. apply Rmult_le_compat; lra. }
  destruct W as [W W2]. pose proof (angle_near _ _ _ _ h0 A Bc Bs Hh W) as AN.
  assert (B : Rabs (atan2 (Fn rT) (Rlt_bool (rT s) 0) (rT s) (rT c) - t) <= 13 * u + 1.1e-16). { destruct W2 as [W2|W2]; [specialize (B1 W2); lra|apply B2; auto]. }
  replace (atan2 (Fn rT) (Rlt_bool (rT s) 0) (rT s) (rT c) - th) with ((atan2 (Fn rT) (Rlt_bool (rT s) 0) (rT s) (rT c) - t) + (t - th)) by ring.
  eapply Rle_trans; [apply Rabs_triang|]. lra.
Qed.

Lemma atan2_test_gen MAX : (8 * MAX <= INT_MAX)%Z -> atan2_test rT (2 * u) P MAX = Ok tt.
Proof.
  intros HM. unfold atan2_test. apply for_all_ok. intros N HN. apply for_all_ok. intros n Hn.
  destruct (atan2_case n N) as (c & s & -> & -> & A); [lia| |lia|]. { pose proof (Z.mul_div_le N 2 ltac:(lia)). lia. }
  cbn [bind]. cbv zeta. pose proof (Pb n N ltac:(lia) ltac:(pose proof (Z.mul_div_le N 2 ltac:(lia)); lia) ltac:(lia)) as B.
  set (a := atan2 _ _ _ _) in *. set (b := ndiv P _ _) in *. set (th := 2 * PI * IZR n / IZR N) in *. clearbody a b th. rewrite Pabs, Plt.
  assert (D : Rabs (a - b) <= 19.8 * u). { replace (a - b) with ((a - th) + - (b - th)) by ring. eapply Rle_trans; [apply Rabs_triang|]. rewrite Rabs_Ropp. lra. }
  pose proof (Psub a b) as S. assert (E : Rabs (nsub P a b) <= 19.9 * u). { replace (nsub P a b) with ((nsub P a b - (a - b)) + (a - b)) by ring. eapply Rle_trans; [apply Rabs_triang|]. lra. }
  rewrite Rlt_bool_true; auto. cbn [nmul nofZ Fn].
  pose proof (HT 10) as T1. rewrite (Rabs_pos_eq 10) in T1 by lra. assert (T2 : 9.999 <= rT 10 <= 10.001) by (apply Rabs_le_inv in T1; lra).
  pose proof (HT (rT 10 * (2 * u))) as T3. rewrite (Rabs_pos_eq (rT 10 * (2 * u))) in T3 by nra.
  assert (19.99 * u <= rT 10 * (2 * u)) by nra. assert (rT 10 * (2 * u) <= 20.1 * u) by nra. apply Rabs_le_inv in T3.
  assert (u * (rT 10 * (2 * u)) <= u * 1e-4) by (apply Rmult_le_compat_l; lra). lra.
Qed.
End AtTest.

(** the angle computed by the test *)
Lemma exact_int emin prec m : (emin <= 0)%Z -> (53 <= prec)%Z -> (Z.abs m < 2 ^ 53)%Z -> round radix2 (FLT_exp emin prec) ZnearestE (IZR m) = IZR m.
Proof.
  intros He Hp Hm. assert (Pr : Prec_gt_0 prec) by (unfold Prec_gt_0; lia). apply round_generic; [typeclasses eauto|]. apply generic_format_FLT.
  apply FLT_spec with (Float radix2 m 0); cbn [Fnum Fexp]; [unfold F2R; cbn; lra| |lia].
  apply Z.lt_le_trans with (1 := Hm). apply (Zpower_le radix2); lia.
Qed.
Lemma turn_round u e rnd n N : 0 <= u <= 1e-9 -> 0 <= e <= u -> rounding u e rnd -> rnd (IZR n) = IZR n -> rnd (IZR N) = IZR N -> (1 <= N)%Z -> (2 * Z.abs n <= N)%Z ->
  Rabs (rnd (rnd (rnd TwoPi_lit * rnd (IZR n)) / rnd (IZR N)) - 2 * PI * IZR n / IZR N) <= 14 * u + 1e-60.
Proof.
  intros Hu He Hr En EN HN Hn. rewrite En, EN. assert (N1 : 1 <= IZR N) by (apply IZR_le; auto).
  assert (T : Rabs (TwoPi_lit - 2 * PI) <= 1e-60) by (unfold TwoPi_lit; interval with (i_prec 230)).
  assert (T2 : Rabs TwoPi_lit <= 6.2832) by (unfold TwoPi_lit; interval).
  pose proof (Hr TwoPi_lit) as A. set (p := rnd TwoPi_lit) in *. clearbody p. set (l := TwoPi_lit) in *. clearbody l.
  assert (A1 : Rabs (p - l) <= 6.2832 * u + e). { assert (u * Rabs l <= u * 6.2832) by (apply Rmult_le_compat_l; lra). lra. }
  assert (P1 : Rabs p <= 6.2833). { replace p with ((p - l) + l) by ring. eapply Rle_trans; [apply Rabs_triang|]. lra. }
  set (q := IZR n / IZR N). assert (Q : Rabs q <= 1 / 2).
  { unfold q, Rdiv. rewrite Rabs_mult, Rabs_inv, (Rabs_pos_eq (IZR N)), <- abs_IZR by lra. apply (Rmult_le_reg_r (IZR N)); [lra|]. rewrite Rmult_assoc, Rinv_l, Rmult_1_r by lra.
    apply IZR_le in Hn. rewrite mult_IZR in Hn. lra. }
  pose proof (Hr (p * IZR n)) as B. set (b := rnd (p * IZR n)) in *. clearbody b.
  assert (PQ : Rabs (p * q) <= 3.14165). { rewrite Rabs_mult. apply Rle_trans with (6.2833 * (1 / 2)); [apply Rmult_le_compat; auto using Rabs_pos|lra]. }
  assert (I : 0 < / IZR N <= 1). { split; [apply Rinv_0_lt_compat; lra|]. rewrite <- Rinv_1. apply Rinv_le; lra. }
  assert (B1 : Rabs (b / IZR N - p * q) <= 3.14165 * u + e).
  { replace (b / IZR N - p * q) with ((b - p * IZR n) * / IZR N) by (unfold q, Rdiv; ring). rewrite Rabs_mult, (Rabs_pos_eq (/ IZR N)) by lra.
    apply Rle_trans with ((u * Rabs (p * IZR n) + e) * / IZR N); [apply Rmult_le_compat_r; lra|].
    replace ((u * Rabs (p * IZR n) + e) * / IZR N) with (u * (Rabs (p * IZR n) * / IZR N) + e * / IZR N) by ring.
    replace (Rabs (p * IZR n) * / IZR N) with (Rabs (p * q)). 2:{ unfold q, Rdiv. rewrite <- Rmult_assoc, (Rabs_mult (p * IZR n)), (Rabs_pos_eq (/ IZR N)) by lra. auto. }
    assert (u * Rabs (p * q) <= u * 3.14165) by (apply Rmult_le_compat_l; lra). assert (e * / IZR N <= e * 1) by (apply Rmult_le_compat_l; lra). lra. }
  pose proof (Hr (b / IZR N)) as C. set (c := rnd (b / IZR N)) in *. clearbody c. set (z := b / IZR N) in *. clearbody z.
  assert (Z1 : Rabs z <= 3.1417). { replace z with ((z - p * q) + p * q) by ring. eapply Rle_trans; [apply Rabs_triang|]. lra. }
  assert (u * Rabs z <= u * 3.1417) by (apply Rmult_le_compat_l; lra).
  assert (L : Rabs (p * q - l * q) <= 3.1416 * u + e). { rewrite <- Rmult_minus_distr_r, Rabs_mult. apply Rle_trans with ((6.2832 * u + e) * (1 / 2)); [apply Rmult_le_compat; auto using Rabs_pos|lra]. }
  assert (L2 : Rabs (l * q - 2 * PI * q) <= 1e-60). { rewrite <- Rmult_minus_distr_r, Rabs_mult. apply Rle_trans with (1e-60 * (1 / 2)); [apply Rmult_le_compat; auto using Rabs_pos|lra]. }
  replace (c - 2 * PI * IZR n / IZR N) with ((c - z) + (z - p * q) + (p * q - l * q) + (l * q - 2 * PI * q)) by (unfold q, Rdiv; ring).
  apply Rabs_le_inv in B1, C, L, L2. apply Rabs_le. lra.
Qed.

Lemma fmt80 : rounding (bpow radix2 (-64)) (bpow radix2 (-16446)) rnd80.
Proof. apply (flt_rounding (-16445) 64); lia. Qed.
Lemma eps80 : 0 < bpow radix2 (-64) /\ bpow radix2 (-64) <= 5.5e-20 /\ 0 <= bpow radix2 (-16446) <= bpow radix2 (-64) / 1000000.
Proof.
  pose proof (bpow_gt_0 radix2 (-16446)). assert (bpow radix2 (-16446) <= bpow radix2 (-64 + -30)) by (apply bpow_le; lia). rewrite bpow_plus in H0.
  change (bpow radix2 (-64)) with (/ 18446744073709551616) in *. change (bpow radix2 (-30)) with (/ 1073741824) in *. lra.
Qed.
Lemma small80 z : Rabs z <= 2 -> Rabs (rnd80 z - z) <= 1.2e-19.
Proof. intros H. pose proof (fmt80 z). destruct eps80 as (A & B & C). assert (bpow radix2 (-64) * Rabs z <= bpow radix2 (-64) * 2) by (apply Rmult_le_compat_l; lra). lra. Qed.

(** one Horner step in long double with a literal that went through double *)
Lemma hs80 xx xx' q q' c E Q C : 0 <= xx <= 0.617 -> Rabs (xx' - xx) <= 1.2e-19 -> Rabs (q' - q) <= E -> Rabs q <= Q -> Rabs c <= C -> E <= 1e-10 -> Q <= 1 -> C <= 1 ->
  Rabs (rnd80 (rnd80 (xx' * q') + rnd80 (rnd64 c)) - (xx * q + c)) <= 0.618 * E + C * 1.2e-16 + 1e-18.
Proof.
  intros Hxx Hx Hq HQ Hc HE HQ1 HC.
  assert (L : Rabs (rnd64 c - c) <= C * 1.12e-16 + 1e-30). { pose proof (Rabs_pos c). pose proof (fmt64 c) as X. assert (bpow radix2 (-1075) <= bpow radix2 (-100)) by (apply bpow_le; lia). change (bpow radix2 (-53)) with (/ 9007199254740992) in X.
    assert (bpow radix2 (-100) <= 1e-30) by (change (bpow radix2 (-100)) with (/ 1267650600228229401496703205376); lra). lra. }
  pose proof (Rabs_pos c). set (c1 := rnd64 c) in *. clearbody c1.
  assert (M1 : Rabs c1 <= 1.1). { replace c1 with ((c1 - c) + c) by ring. eapply Rle_trans; [apply Rabs_triang|]. lra. }
  pose proof (small80 c1 ltac:(lra)) as L2. set (c2 := rnd80 c1) in *. clearbody c2.
  pose proof (Rabs_pos q). pose proof (Rabs_pos (q' - q)). pose proof (Rabs_pos (xx' - xx)).
  assert (P : Rabs (xx' * q' - xx * q) <= 0.617 * E + 1.3e-19).
  { replace (xx' * q' - xx * q) with (xx * (q' - q) + (xx' - xx) * q + (xx' - xx) * (q' - q)) by ring.
    eapply Rle_trans; [apply Rabs_triang|]. eapply Rle_trans; [apply Rplus_le_compat_r, Rabs_triang|]. rewrite !Rabs_mult, (Rabs_pos_eq xx) by lra.
    assert (xx * Rabs (q' - q) <= 0.617 * E) by (apply Rmult_le_compat; lra). assert (Rabs (xx' - xx) * Rabs q <= 1.2e-19 * 1) by (apply Rmult_le_compat; lra).
    assert (Rabs (xx' - xx) * Rabs (q' - q) <= 1.2e-19 * 1e-10) by (apply Rmult_le_compat; lra). lra. }
  assert (XQ : Rabs (xx * q) <= 0.617). { rewrite Rabs_mult, (Rabs_pos_eq xx) by lra. apply Rle_trans with (0.617 * 1); [apply Rmult_le_compat; lra|lra]. }
  assert (M2 : Rabs (xx' * q') <= 0.7). { replace (xx' * q') with ((xx' * q' - xx * q) + xx * q) by ring. eapply Rle_trans; [apply Rabs_triang|]. lra. }
  pose proof (small80 (xx' * q') ltac:(lra)) as L3. set (p := xx' * q') in *. set (p1 := rnd80 p) in *. clearbody p p1.
  assert (M3 : Rabs (p1 + c2) <= 2). { replace (p1 + c2) with ((p1 - p) + p + (c2 - c1) + c1) by ring. apply Rabs_le_inv in L3, M2, L2, M1. apply Rabs_le. lra. }
  pose proof (small80 _ M3) as L4. set (r := rnd80 (p1 + c2)) in *. clearbody r.
  apply Rabs_le_inv in L, L2, L3, L4, P. apply Rabs_le. lra.
Qed.
Lemma not_2pi c : Rabs c <= 2 -> Req_bool c TwoPi_lit = false.
Proof. intros H. apply Req_bool_false. intros ->. revert H. apply Rlt_not_le. unfold TwoPi_lit. interval. Qed.

Lemma xx80 x : Rabs x <= 0.7854 -> 0 <= x * x <= 0.617 /\ Rabs (rnd80 (x * x) - x * x) <= 1.2e-19.
Proof. intros H. assert (0 <= x * x <= 0.617) by (apply Rabs_le_inv in H; nra). split; auto. apply small80. rewrite Rabs_pos_eq; lra. Qed.
Ltac st80 xx xx' q0' H0 H1 E' E Q C :=
  match type of H0 with Rabs (_ - ?q) <= _ =>
  match goal with |- context [rnd80 (rnd80 (xx' * q0') + rnd80 (rnd64 ?c))] =>
    assert (H1 : Rabs (rnd80 (rnd80 (xx' * q0') + rnd80 (rnd64 c)) - (xx * q + c)) <= E') by
      (eapply Rle_trans; [apply (hs80 xx xx' q q0' c E Q C); [assumption|assumption|eassumption|interval with (i_prec 60)|interval with (i_prec 60)|lra|lra|lra]|lra]);
    generalize dependent (rnd80 (rnd80 (xx' * q0') + rnd80 (rnd64 c))) end end; clear H0 q0'.
Ltac lit80 := cbn [nadd nmul nlit Ln Fn Rn]; lits; repeat (rewrite not_2pi by interval).
Lemma first80 c C : Rabs c <= C -> C <= 1 -> Rabs (rnd80 (rnd64 c) - c) <= C * 1.2e-16 + 1e-18.
Proof.
  intros H H1. pose proof (hs80 0 0 0 0 c 0 0 C) as X. rewrite !Rmult_0_l, !Rplus_0_l in X.
  assert (L : Rabs (rnd64 c - c) <= C * 1.12e-16 + 1e-30). { pose proof (Rabs_pos c). pose proof (fmt64 c) as Y. assert (bpow radix2 (-1075) <= bpow radix2 (-100)) by (apply bpow_le; lia). change (bpow radix2 (-53)) with (/ 9007199254740992) in Y.
    assert (bpow radix2 (-100) <= 1e-30) by (change (bpow radix2 (-100)) with (/ 1267650600228229401496703205376); lra). lra. }
  pose proof (Rabs_pos c). set (c1 := rnd64 c) in *. clearbody c1. clear X.
  assert (M1 : Rabs c1 <= 1.1). { replace c1 with ((c1 - c) + c) by ring. eapply Rle_trans; [apply Rabs_triang|]. lra. }
  pose proof (small80 c1 ltac:(lra)) as L2. apply Rabs_le_inv in L, L2. apply Rabs_le. lra.
Qed.
Lemma cosine80 x : Rabs x <= 0.7854 -> Rabs (cosine_approx Ln x - cosine_approx Rn x) <= 1.7e-16.
Proof.
  intros H. destruct (xx80 x H) as [B E]. unfold cosine_approx, cosine_kernel. lit80.
  set (xx' := rnd80 (x * x)) in *. set (xx := x * x) in *. clearbody xx xx'. clear H x.
  pose proof (first80 (-1.13585365213876817300E-11) 1e-10 ltac:(interval) ltac:(lra)) as H0.
  assert (H0' : Rabs (rnd80 (rnd64 (-1.13585365213876817300E-11)) - -1.13585365213876817300E-11) <= 2e-18) by lra. clear H0.
  generalize dependent (rnd80 (rnd64 (-1.13585365213876817300E-11))). intros q0' H0.
  st80 xx xx' q0' H0 H1 3e-18 2e-18 0.0001 0.0001. intros q1' H1. st80 xx xx' q1' H1 H2 3e-18 3e-18 0.0001 0.0001. intros q2' H2.
  st80 xx xx' q2' H2 H3 3e-18 3e-18 0.0001 0.0001. intros q3' H3. st80 xx xx' q3' H3 H4 4e-18 3e-18 0.0001 0.002. intros q4' H4.
  st80 xx xx' q4' H4 H5 1e-17 4e-18 0.002 0.042. intros q5' H5. st80 xx xx' q5' H5 H6 7e-17 1e-17 0.042 0.5. intros q6' H6.
  rewrite (Rplus_comm (rnd80 _) (rnd80 _)), (Rplus_comm 1.0 (xx * _)).
  match type of H6 with Rabs (_ - ?q) <= _ => eapply Rle_trans; [apply (hs80 xx xx' q q6' 1.0 7e-17 0.5 1.0); [assumption|assumption|eassumption|interval with (i_prec 60)|interval with (i_prec 60)|lra|lra|lra]|lra] end.
Qed.
Lemma sine80 x : Rabs x <= 0.7854 -> Rabs (sine_approx Ln x - sine_approx Rn x) <= 1.2e-16.
Proof.
  intros H. destruct (xx80 x H) as [B E]. unfold sine_approx, sine_kernel. lit80.
  set (xx' := rnd80 (x * x)) in *. set (xx := x * x) in *. clearbody xx xx'.
  pose proof (first80 (1.58962301576546568060E-10) 1e-9 ltac:(interval) ltac:(lra)) as H0.
  assert (H0' : Rabs (rnd80 (rnd64 (1.58962301576546568060E-10)) - 1.58962301576546568060E-10) <= 2e-18) by lra. clear H0.
  generalize dependent (rnd80 (rnd64 (1.58962301576546568060E-10))). intros q0' H0.
  st80 xx xx' q0' H0 H1 3e-18 2e-18 0.0001 0.0001. intros q1' H1. st80 xx xx' q1' H1 H2 3e-18 3e-18 0.0001 0.0001. intros q2' H2.
  st80 xx xx' q2' H2 H3 4e-18 3e-18 0.0001 0.0002. intros q3' H3. st80 xx xx' q3' H3 H4 5e-18 4e-18 0.0002 0.0084. intros q4' H4.
  st80 xx xx' q4' H4 H5 3e-17 5e-18 0.0084 0.167. intros q5' H5. st80 xx xx' q5' H5 H6 1.42e-16 3e-17 0.167 1.0. intros q6' H6.
  match type of H6 with Rabs (_ - ?q) <= _ => assert (Q : Rabs q <= 1.0) by interval with (i_prec 60); set (qq := q) in *; clearbody qq end.
  assert (A : Rabs (x * q6' - x * qq) <= 0.7854 * 1.42e-16). { rewrite <- Rmult_minus_distr_l, Rabs_mult. apply Rmult_le_compat; auto using Rabs_pos. }
  assert (M : Rabs (x * q6') <= 2). { replace (x * q6') with ((x * q6' - x * qq) + x * qq) by ring. eapply Rle_trans; [apply Rabs_triang|]. rewrite (Rabs_mult x qq). pose proof (Rabs_pos x). pose proof (Rabs_pos qq). nra. }
  pose proof (small80 _ M) as S. apply Rabs_le_inv in A, S. apply Rabs_le. lra.
Qed.
Lemma rad80 s d : uc_rad Ln s d = uc_rad (Fn rnd80) s d.
Proof. unfold uc_rad, TwoPi. cbn [ndiv nmul nlit nofZ Ln Fn]. rewrite Req_bool_true by auto. auto. Qed.

Lemma uc80 n N : (1 <= N)%Z -> (Z.abs n <= N)%Z -> (8 * N <= INT_MAX)%Z ->
  exists c s, uc_cos Ln n N = Ok c /\ uc_sin Ln n N = Ok s /\
  Rabs (c - cos (2 * PI * IZR n / IZR N)) <= 2e-16 /\ Rabs (s - sin (2 * PI * IZR n / IZR N)) <= 2e-16.
Proof.
  intros HN Hn HI. rewrite uc_cos_red, uc_sin_red by auto. do 2 eexists. split; [reflexivity|]. split; [reflexivity|]. rewrite rad80.
  destruct (red_ok n N) as (Hd & Hs & _); auto. destruct eps80 as (E1 & E2 & E3).
  destruct (rad_acc' (bpow radix2 (-64)) (bpow radix2 (-16446)) rnd80 ltac:(lra) E3 fmt80 _ _ Hd Hs) as [B E].
  set (a := uc_rad (Fn rnd80) _ _) in *. set (th := 2 * PI * _) in *. 
  assert (AC : Rabs (cosine_approx Ln a - cos th) <= 2e-16).
  { pose proof (cosine_acc _ B) as A. pose proof (cosine80 _ B) as R. pose proof (cos_lip a th) as L. apply Rabs_le_inv in A, R, L. apply Rabs_le. lra. }
  assert (AS : Rabs (sine_approx Ln a - sin th) <= 2e-16).
  { pose proof (sine_acc _ B) as A. pose proof (sine80 _ B) as R. pose proof (sin_lip a th) as L. apply Rabs_le_inv in A, R, L. apply Rabs_le. lra. }
  unfold th in AC, AS. clearbody a. 
  destruct (quarters (2 * PI * IZR n / IZR N) (quarter n N) 0 0 _ _ (quarter_cases n N) eq_refl eq_refl) as [-> ->].
  rewrite red_angle in AC, AS by auto.
  assert (Ng : forall a b e, Rabs (a - b) <= e -> Rabs (- a - - b) <= e) by (intros a' b e' H; rewrite <- Rabs_Ropp; replace (- (- a' - - b)) with (a' - b) by ring; auto).
  cbn [nopp Ln].
  destruct (quarter_cases n N) as [Q|[Q|[Q|[Q|[Q|[Q|[Q|[Q| Q]]]]]]]]; rewrite Q in *; split; auto.
Qed.

Lemma atan2_test_float MAX : (8 * MAX <= INT_MAX)%Z -> atan2_test rnd32 (2 * bpow radix2 (-24)) (Fn rnd64) MAX = Ok tt.
Proof.
  intros HM. destruct (fmt_range3 (-24) (-150)) as [Hu He]; try lia. destruct (fmt_range3 (-53) (-1075)) as [Hu' He']; try lia.
  change (bpow radix2 (-53)) with (/ 9007199254740992) in *.
  assert (U : bpow radix2 (-24) = / 16777216) by reflexivity.
  apply (atan2_test_gen _ _ _ Hu He fmt32 (Fn rnd64) 1e-15 1e-14); auto; try lra.
  - intros. apply C75_binary64; auto.
  - intros n N HN Hn HI. cbn [ndiv nmul nofZ Fn]. unfold TwoPi. cbn [nlit Fn]. eapply Rle_trans; [apply (turn_round _ _ rnd64 n N) with (3 := fmt64); auto|].
    + change (bpow radix2 (-53)) with (/ 9007199254740992). lra.
    + change (bpow radix2 (-53)) with (/ 9007199254740992). lra.
    + apply exact_int; unfold INT_MAX in *; lia.
    + apply exact_int; unfold INT_MAX in *; lia.
    + change (bpow radix2 (-53)) with (/ 9007199254740992). lra.
  - intros a b. cbn [nsub Fn]. pose proof (fmt64 (a - b)) as X. change (bpow radix2 (-53)) with (/ 9007199254740992) in X. pose proof (Rabs_pos (a - b)). rewrite U. lra.
Qed.
Lemma atan2_test_double MAX : (8 * MAX <= INT_MAX)%Z -> atan2_test rnd64 (2 * bpow radix2 (-53)) Ln MAX = Ok tt.
Proof.
  intros HM. destruct (fmt_range3 (-53) (-1075)) as [Hu He]; try lia. destruct eps80 as (E1 & E2 & E3).
  assert (U : bpow radix2 (-53) = / 9007199254740992) by reflexivity.
  apply (atan2_test_gen _ _ _ Hu He fmt64 Ln 2e-16 1e-18); auto; try lra.
  - apply uc80.
  - intros n N HN Hn HI. unfold TwoPi. cbn [ndiv nmul nlit nofZ Ln Fn]. rewrite Req_bool_true by auto. eapply Rle_trans; [apply (turn_round _ _ rnd80 n N) with (3 := fmt80); auto; try lra|].
    + apply exact_int; unfold INT_MAX in *; lia.
    + apply exact_int; unfold INT_MAX in *; lia.
    + lra.
  - intros a b. cbn [nsub Ln Fn]. pose proof (fmt80 (a - b)) as X. pose proof (Rabs_pos (a - b)).
    assert (bpow radix2 (-64) * Rabs (a - b) <= 5.5e-20 * Rabs (a - b)) by (apply Rmult_le_compat_r; lra). rewrite U. lra.
Qed.
