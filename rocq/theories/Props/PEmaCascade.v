(* C84: frequency response of EMA and EMACascade, and where their cutoff is (ema.hh) *)
From Coq Require Import Reals ZArith Lia Lra List.
From Coquelicot Require Import Coquelicot.
From Interval Require Import Tactic.
From Flocq Require Import Core.
From Verif Require Import Proofs.BaseLemmas Model.Ema Spec.Iir Spec.Dft Proofs.SignalLemmas Proofs.SecondOrder
  Proofs.FftKernels Proofs.BiquadProofs Proofs.Butterworth Proofs.EmaProofs Props.PRecursive.
Import ListNotations.
Open Scope R_scope.

(** the number of samples per N turns at which EMACascade puts the cutoff of its sections *)
Notation section_cutoff k n := (ZnearestE (IZR n / cascade_factor Rn k)).
Notation cutoff_cascade prevs a0 n N := (emac_cutoff Rn exact_trig (fun x => ZnearestE x) (mkEmac prevs a0) n N).

Lemma gain_unique sys (w g h : C) : Cmod w = 1 -> gain_at sys w g -> gain_at sys w h -> g = h.
Proof.
  intros W G H. specialize (G (RtoC 1)). specialize (H (RtoC 1)). unfold approaches in G, H. set (y := sys _) in *.
  assert (L : is_lim_seq (fun _ : nat => Cmod (g - h)%C) 0).
  { apply is_lim_seq_le_le with (u := fun _ => 0) (w := fun t => Cmod (y t - g * (RtoC 1 * Cpown w t))%C + Cmod (y t - h * (RtoC 1 * Cpown w t))%C).
    - intros t. split; [apply Cmod_ge_0|]. assert (P : Cmod (Cpown w t) = 1) by (induction t as [|t IH]; cbn; [rewrite Cmod_R, Rabs_R1; auto|rewrite Cmod_mult, IH, W; ring]).
      assert (Q : Cmod (g - h)%C = Cmod ((g - h) * Cpown w t)%C) by (rewrite Cmod_mult, P; ring). rewrite Q.
      replace ((g - h) * Cpown w t)%C with ((y t - h * (RtoC 1 * Cpown w t)) - (y t - g * (RtoC 1 * Cpown w t)))%C by ring. rewrite Rplus_comm. unfold Cminus at 1. eapply Rle_trans; [apply Cmod_triangle|]. rewrite Cmod_opp. lra.
    - apply is_lim_seq_const.
    - replace (Finite 0) with (Finite (0 + 0)) by (f_equal; ring). apply is_lim_seq_plus'; auto. }
  apply is_lim_seq_unique in L. rewrite Lim_seq_const in L. injection L as L. apply Cmod_eq_0 in L. replace g with ((g - h) + h)%C by ring. rewrite L. ring.
Qed.
Lemma last_cons {A} (l : list A) : forall p d, last (p :: l) d = last l p.
Proof. induction l as [|q l IH]; intros p d; auto. change (last (q :: l) d = last (q :: l) p). rewrite !IH. reflexivity. Qed.
Lemma half_sin t : 1 - cos t = 2 * sin (t / 2) ^ 2.
Proof. replace t with (2 * (t / 2)) at 1 by field. rewrite cos_2a_sin. ring. Qed.
Lemma sin_frac m N : (0 < m < N)%Z -> 0 < sin (PI * IZR m / IZR N).
Proof.
  intros H. pose proof PI_RGT_0. assert (P : 0 < IZR N) by (apply IZR_lt; lia). assert (0 < IZR m < IZR N) by (split; apply IZR_lt; lia). assert (0 < / IZR N) by (apply Rinv_0_lt_compat; lra).
  replace (PI * IZR m / IZR N) with (PI * (IZR m / IZR N)) by (unfold Rdiv; ring). assert (0 < IZR m / IZR N) by (apply Rmult_lt_0_compat; lra).
  assert (IZR m / IZR N < 1) by (apply Rmult_lt_reg_r with (IZR N); auto; unfold Rdiv; rewrite Rmult_assoc, Rinv_l; lra). apply sin_gt_0; nra.
Qed.
Lemma alpha_closed m N t : (0 < m < N)%Z -> let a := cutoff_alpha Rn exact_trig m N in 0 < a < 1 /\
  a * a / (a * a + 2 * (1 - a) * (1 - cos t)) = 1 / (1 + (sin (t / 2) / sin (PI * IZR m / IZR N)) ^ 2).
Proof.
  intros H a. set (x := cos (2 * PI * IZR m / IZR N)). pose proof (sin_frac m N H) as S. set (s := sin (PI * IZR m / IZR N)) in *.
  assert (X : 1 - x = 2 * s ^ 2). { unfold x, s. rewrite half_sin. do 3 f_equal. field. apply not_0_IZR. lia. }
  destruct (alpha_range x) as [A E]. { split; [apply COS_bound|nra]. } change (x - 1 + sqrt (x * (x - 4) + 3)) with a in A, E. split; auto.
  rewrite half_sin. rewrite X in E. set (v := sin (t / 2)). assert (Q : a * a = 4 * (1 - a) * s ^ 2) by lra.
  rewrite Q. assert (0 < 1 - a) by lra. assert (0 <= v ^ 2) by apply pow2_ge_0. assert (0 < s ^ 2) by (apply pow_lt; auto).
  replace (4 * (1 - a) * s ^ 2 + 2 * (1 - a) * (2 * v ^ 2)) with (4 * (1 - a) * (s ^ 2 + v ^ 2)) by ring. replace ((v / s) ^ 2) with (v ^ 2 / s ^ 2) by (field; lra). field. repeat split; lra.
Qed.

(** C84  EMA with cutoff(n, N) has power gain 1/(1 + (sin(t/2)/sin(pi n/N))^2) at every angular frequency t, from every state. *)
Theorem C84_ema_response (e : ema R C) (n N : Z) (t : R) : (0 < n < N)%Z ->
  exists g, gain_at (out cema (ema_cutoff Rn exact_trig e n N)) (cis t) g /\ Cmod g ^ 2 = 1 / (1 + (sin (t / 2) / sin (PI * IZR n / IZR N)) ^ 2).
Proof.
  intros H. destruct (alpha_closed n N t H) as [A E]. set (a := cutoff_alpha Rn exact_trig n N) in *.
  exists (RtoC a * cis t / (cis t - RtoC (1 - a)))%C. split.
  - intros amp. assert (A' : 0 < em_alpha (ema_cutoff Rn exact_trig e n N) < 2) by (change (0 < a < 2); lra).
    pose proof (em_gain (ema_cutoff Rn exact_trig e n N) _ amp (cis t) A' (Cmod_cis t) (approaches_refl _)) as G.
    unfold approaches in *. eapply is_lim_seq_ext; [|exact G]. intros k. cbv beta. change (em_alpha (ema_cutoff Rn exact_trig e n N)) with a. f_equal. f_equal. ring.
  - rewrite ema_power by auto. exact E.
Qed.
Print Assumptions C84_ema_response.
(** C84  EMACascade with cutoff(n, N) has the ORDER-th power of that response, for the cutoff m = nearbyint(n / factor) of its sections. *)
Theorem C84_cascade_response (prevs : list C) (a0 : R) (n N : Z) (t : R) : let k := length prevs in let m := section_cutoff k n in (0 < m < N)%Z ->
  exists g, gain_at (out cemac (cutoff_cascade prevs a0 n N)) (cis t) g /\ Cmod g ^ 2 = (1 / (1 + (sin (t / 2) / sin (PI * IZR m / IZR N)) ^ 2)) ^ k.
Proof.
  intros k m H. destruct (alpha_closed m N t H) as [A E]. destruct (C47_gain (cutoff_alpha Rn exact_trig m N) t prevs A) as (g & G & P). exists g. split; [exact G|].
  rewrite P, E. reflexivity.
Qed.
Print Assumptions C84_cascade_response.

Definition factor (k : nat) : R := sqrt (Rpower 2 (1 / INR k) - 1).
Lemma factor_pow k : (1 <= k)%nat -> 0 < factor k <= 1 /\ (1 + factor k ^ 2) ^ k = 2.
Proof.
  intros Hk. assert (K : 1 <= INR k) by (apply (le_INR 1); lia). assert (P : 1 < Rpower 2 (1 / INR k)). { assert (L : Rpower 2 0 < Rpower 2 (1 / INR k)) by (apply Rpower_lt; [lra|]; apply Rmult_lt_0_compat; [lra|apply Rinv_0_lt_compat; lra]). rewrite Rpower_O in L by lra. exact L. }
  assert (P2 : Rpower 2 (1 / INR k) <= 2). { assert (L : Rpower 2 (1 / INR k) <= Rpower 2 1) by (apply Rle_Rpower; [lra|]; apply Rmult_le_reg_r with (INR k); [lra|]; unfold Rdiv; rewrite Rmult_assoc, Rinv_l by lra; lra). rewrite Rpower_1 in L by lra. exact L. }
  unfold factor. split.
  - split; [apply sqrt_lt_R0; lra|]. apply Rle_trans with (sqrt 1); [apply sqrt_le_1_alt; lra|rewrite sqrt_1; lra].
  - rewrite pow2_sqrt by lra. replace (1 + (Rpower 2 (1 / INR k) - 1)) with (Rpower 2 (1 / INR k)) by ring. rewrite <- Rpower_pow by lra. rewrite Rpower_mult. replace (1 / INR k * INR k) with 1 by (field; lra). apply Rpower_1. lra.
Qed.
Lemma pow_iff (a b : R) k : (1 <= k)%nat -> 0 <= a -> 0 <= b -> (a ^ k <= b ^ k <-> a <= b).
Proof.
  intros Hk Ha Hb. split; intros H; [|apply pow_incr; lra]. apply Rnot_lt_le. intros L. destruct k as [|k]; [lia|]. assert (b ^ S k < a ^ S k); [|lra].
  clear H Hk. induction k as [|k IH]; [lra|]. change (b * b ^ S k < a * a ^ S k). apply Rmult_le_0_lt_compat; auto. apply pow_le; auto.
Qed.
Lemma half_iff k v S : (1 <= k)%nat -> 0 < S -> 0 <= v -> (1 / 2 <= (1 / (1 + (v / S) ^ 2)) ^ k <-> v <= factor k * S).
Proof.
  intros Hk HS Hv. destruct (factor_pow k Hk) as [[F0 F1] F2]. set (c := factor k) in *. set (q := v / S). assert (Q0 : 0 <= q) by (apply Rmult_le_pos; auto; apply Rlt_le, Rinv_0_lt_compat; auto).
  assert (Q : v = q * S) by (unfold q; field; lra). unfold Rdiv. rewrite !Rmult_1_l, pow_inv. pose proof (pow2_ge_0 q). assert (P : 0 < (1 + q ^ 2) ^ k) by (apply pow_lt; lra).
  transitivity ((1 + q ^ 2) ^ k <= (1 + c ^ 2) ^ k).
  - rewrite F2. split; intros L.
    + apply Rinv_le_contravar in L; [|lra]. rewrite !Rinv_inv in L. exact L.
    + apply Rinv_le_contravar; lra.
  - rewrite pow_iff by (auto; nra). transitivity (q <= c).
    + split; intros L; [|assert (q * q <= c * c) by (apply Rmult_le_compat; lra); lra]. apply Rnot_lt_le. intros L'. nra.
    + rewrite Q. split; intros L; [apply Rmult_le_compat_r; lra|apply Rmult_le_reg_r with S; auto].
Qed.
Lemma sin_concave c x : 0 <= c <= 1 -> 0 <= x <= PI / 2 -> c * sin x <= sin (c * x).
Proof.
  intros Hc Hx. pose proof PI_RGT_0. destruct (Req_dec x 0) as [->|Nx]; [rewrite Rmult_0_r, sin_0; lra|].
  set (f := fun y => sin (c * y) - c * sin y). destruct (MVT_gen f 0 x (fun y => c * cos (c * y) - c * cos y)) as (y & Hy & E).
  - intros y Hy. unfold f. auto_derive; auto. ring.
  - intros y Hy. unfold f. reg.
  - rewrite Rmin_left, Rmax_right in Hy by lra. assert (0 <= f x); [|unfold f in *; lra]. assert (f 0 = 0) by (unfold f; rewrite Rmult_0_r, sin_0; ring).
    assert (cos y <= cos (c * y)). { assert (0 <= c * y) by (apply Rmult_le_pos; lra). assert (0 <= (1 - c) * y) by (apply Rmult_le_pos; lra). apply cos_decr_1; lra. }
    assert (0 <= (c * cos (c * y) - c * cos y) * (x - 0)); [|lra]. replace (c * cos (c * y) - c * cos y) with (c * (cos (c * y) - cos y)) by ring. apply Rmult_le_pos; [apply Rmult_le_pos|]; lra.
Qed.
Lemma sin_cubic x : 0 <= x <= 2 -> x * (1 - x ^ 2 / 6) <= sin x.
Proof.
  intros Hx. destruct (pre_sin_bound x 0) as [L _]; try lra. unfold sin_approx in L. cbn [Nat.mul Nat.add sum_f_R0] in L. unfold sin_term in L. cbn [fact Nat.mul Nat.add pow INR] in L. lra.
Qed.
(** C84  Up to the Nyquist frequency the gain falls, and half of the power passes at exactly one frequency f (in turns per N samples).
    It is n itself only for ORDER 1; in general it lies between (n - 1/3) (1 - (pi m/N)^2/6) and n + 1/3. *)
Theorem C84_half_power (prevs : list C) (a0 : R) (n N : Z) : let k := length prevs in let m := section_cutoff k n in (1 <= k <= 16)%nat -> (0 < n <= INT_MAX)%Z -> (0 < m /\ 2 * m <= N)%Z ->
  exists f, 0 < f /\ 2 * f <= IZR N /\
  (forall p g, 0 <= 2 * p <= IZR N -> gain_at (out cemac (cutoff_cascade prevs a0 n N)) (cis (2 * PI * p / IZR N)) g -> (1/2 <= Cmod g ^ 2 <-> p <= f)) /\
  (IZR n - 1/3) * (1 - (PI * IZR m / IZR N) ^ 2 / 6) <= f <= IZR n + 1/3.
Proof.
  intros k m Hk Hn Hm. pose proof PI_RGT_0 as PP. destruct (factor_pow k ltac:(lia)) as [[F0 F1] _]. set (c := factor k) in *. set (x := PI * IZR m / IZR N).
  assert (NP : 0 < IZR N) by (apply IZR_lt; lia). assert (M : 0 < IZR m /\ 2 * IZR m <= IZR N) by (split; [apply IZR_lt|rewrite <- mult_IZR; apply IZR_le]; lia).
  assert (X : 0 < x <= PI / 2). { split; [apply Rmult_lt_0_compat; [nra|apply Rinv_0_lt_compat; auto]|]. unfold x. apply Rmult_le_reg_r with (IZR N); auto. replace (PI * IZR m / IZR N * IZR N) with (PI * IZR m) by (field; lra). nra. }
  set (S := sin x). assert (HS : 0 < S <= 1) by (split; [apply sin_frac; lia|apply SIN_bound]). set (z := c * S). assert (Z : 0 < z <= 1) by (unfold z; nra).
  set (f := asin z * IZR N / PI). assert (SA : sin (asin z) = z) by (apply sin_asin; lra). pose proof (asin_bound z) as AB.
  assert (A0 : 0 < asin z). { apply Rnot_le_lt. intros L. assert (sin (asin z) <= 0); [|lra]. replace (asin z) with (- - asin z) by ring. rewrite sin_neg. assert (0 <= sin (- asin z)) by (apply sin_ge_0; lra). lra. }
  assert (Fh : PI * f / IZR N = asin z) by (unfold f; field; lra).
  assert (Lit : Rabs (c * IZR m - IZR n) <= 1/3).
  { pose proof (Znearest_half (fun x => negb (Z.even x)) (IZR n / cascade_factor Rn k)) as R. fold m in R. set (cl := cascade_factor Rn k) in *.
    destruct (Nat.eq_dec k 1) as [K1|K1].
    - assert (C1' : cl = 1) by (unfold cl; rewrite K1; reflexivity). assert (C2' : c = 1). { unfold c, factor. rewrite K1, <- C47_factor_1. reflexivity. }
      assert (Em : m = n). { unfold m. fold cl. rewrite C1'. unfold Rdiv. rewrite Rinv_1, Rmult_1_r. apply Znearest_imp. replace (IZR n - IZR n) with 0 by ring. rewrite Rabs_R0. lra. } rewrite Em, C2'. replace (1 * IZR n - IZR n) with 0 by ring. rewrite Rabs_R0. lra.
    - pose proof (C47_factor k ltac:(lia)) as L. fold c in L. fold cl in L. change (sqrt (Rpower 2 (1 / INR k) - 1)) with c in L. apply Rabs_le_inv in L.
      assert (CB : 0.21 <= cl <= 0.6436). { unfold cl. clearbody k. assert (E : exists j, (j < 15)%nat /\ k = (2 + j)%nat) by (exists (k - 2)%nat; lia). destruct E as (j & J & ->). clear -J. do 15 (destruct j as [|j]; [unfold cascade_factor; cbn [nlit Rn Nat.add]; lra|]). lia. }
      set (q := IZR n / cl) in *. assert (Q : IZR n = q * cl) by (unfold q; field; lra). assert (NB : 1 <= IZR n <= 2147483647) by (split; apply IZR_le; unfold INT_MAX in *; lia).
      assert (QB : 0 <= q <= 1.1e10) by (split; [unfold q; apply Rmult_le_pos; [lra|apply Rlt_le, Rinv_0_lt_compat; lra]|nra]).
      apply Rabs_le_inv in R. assert (R' : -1/2 <= IZR m - q <= 1/2) by lra. replace (c * IZR m - IZR n) with (c * (IZR m - q) + q * (c - cl)) by (rewrite Q; ring).
      assert (Rabs (c * (IZR m - q)) <= 0.3219). { rewrite Rabs_mult, (Rabs_pos_eq c) by lra. assert (Rabs (IZR m - q) <= 1/2) by (apply Rabs_le; lra). pose proof (Rabs_pos (IZR m - q)). nra. }
      assert (Rabs (q * (c - cl)) <= 1.1e10 * 1e-60). { rewrite Rabs_mult. apply Rmult_le_compat; try apply Rabs_pos. { rewrite Rabs_pos_eq; lra. } apply Rabs_le. lra. }
      eapply Rle_trans; [apply Rabs_triang|]. lra. }
  apply Rabs_le_inv in Lit. assert (Xf : c * x * IZR N / PI = c * IZR m) by (unfold x; field; lra). exists f. split; [|split; [|split; [|split]]].
  - unfold f. apply Rmult_lt_0_compat; [nra|apply Rinv_0_lt_compat; lra].
  - unfold f. apply Rmult_le_reg_r with PI; auto. replace (2 * (asin z * IZR N / PI) * PI) with (2 * asin z * IZR N) by (field; lra). nra.
  - intros p g Hp G. destruct (C84_cascade_response prevs a0 n N (2 * PI * p / IZR N) ltac:(fold k; fold m; lia)) as (g' & G' & P'). fold k in P'. fold m in P'. fold x in P'. fold S in P'.
    assert (E : g = g'). { apply (gain_unique _ (cis (2 * PI * p / IZR N)) _ _ (Cmod_cis _) G G'). } rewrite E, P'.
    replace (2 * PI * p / IZR N / 2) with (PI * p / IZR N) by (field; lra). set (y := PI * p / IZR N).
    assert (Y : 0 <= y <= PI / 2). { split; [apply Rmult_le_pos; [nra|apply Rlt_le, Rinv_0_lt_compat; auto]|]. unfold y. apply Rmult_le_reg_r with (IZR N); auto. replace (PI * p / IZR N * IZR N) with (PI * p) by (field; lra). nra. }
    rewrite half_iff by (try lia; try lra; apply sin_ge_0; lra). fold c. fold z. rewrite <- SA at 1.
    transitivity (y <= asin z).
    + split; intros L; [apply sin_incr_0; lra|apply sin_incr_1; lra].
    + rewrite <- Fh. unfold y. split; intros L; [|apply Rmult_le_compat_r; [apply Rlt_le, Rinv_0_lt_compat; auto|]; apply Rmult_le_compat_l; lra].
      apply Rmult_le_reg_l with (PI / IZR N); [apply Rmult_lt_0_compat; [auto|apply Rinv_0_lt_compat; auto]|]. unfold Rdiv in *. lra.
  - apply Rle_trans with (c * IZR m * (1 - x ^ 2 / 6)). { apply Rmult_le_compat_r; [|lra]. assert (x <= 1.6) by (assert (PI / 2 <= 1.6) by interval; lra). nra. }
    rewrite <- Xf. unfold f. replace (c * x * IZR N / PI * (1 - x ^ 2 / 6)) with (c * (x * (1 - x ^ 2 / 6)) * IZR N / PI) by (field; lra).
    apply Rmult_le_compat_r; [apply Rlt_le, Rinv_0_lt_compat; auto|]. apply Rmult_le_compat_r; [lra|].
    apply Rle_trans with z. { unfold z. apply Rmult_le_compat_l; [lra|]. apply sin_cubic. assert (PI / 2 <= 2) by interval. lra. } rewrite <- SA at 1. apply Rlt_le, sin_lt_x. auto.
  - apply Rle_trans with (c * IZR m); [|lra]. rewrite <- Xf. unfold f. apply Rmult_le_compat_r; [apply Rlt_le, Rinv_0_lt_compat; auto|]. apply Rmult_le_compat_r; [lra|].
    assert (CX : 0 <= c * x <= PI / 2) by nra. apply sin_incr_0; try lra. rewrite SA. unfold z, S. apply sin_concave; lra.
Qed.
Print Assumptions C84_half_power.
(** C84  The power at n/N is not one half: two sections with cutoff(1, 4) pass 4/9 of it. *)
Theorem C84_half_at_n_refuted (p q : C) (a0 : R) : exists g, gain_at (out cemac (cutoff_cascade [p; q] a0 1 4)) (cis (2 * PI * 1 / 4)) g /\ Cmod g ^ 2 = 4/9.
Proof.
  assert (E : section_cutoff 2 1 = 2%Z). { apply Znearest_imp. unfold cascade_factor. cbn [nlit Rn]. interval. }
  destruct (C84_cascade_response [p; q] a0 1 4 (2 * PI * 1 / 4)) as (g & G & P); [cbn [length]; rewrite E; lia|]. exists g. split; auto. rewrite P. cbn [length]. rewrite E.
  replace (2 * PI * 1 / 4 / 2) with (PI / 4) by field. replace (PI * 2 / 4) with (PI / 2) by field. rewrite sin_PI2, sin_PI4. assert (0 < sqrt 2) by (apply sqrt_lt_R0; lra).
  replace ((1 / sqrt 2 / 1) ^ 2) with (1 / sqrt 2 ^ 2) by (field; lra). rewrite pow2_sqrt by lra. field.
Qed.
Print Assumptions C84_half_at_n_refuted.
(** C84  Above N/5 the cutoff of the sections wraps around the circle: with 16 sections cutoff(21, 100) sets alpha to 0 and the filter
    answers every input with its old state for ever. *)
Theorem C84_wrap_refuted (prevs : list C) (a0 : R) (x : nat -> C) (t : nat) : length prevs = 16%nat ->
  section_cutoff 16 21 = 100%Z /\ out cemac (cutoff_cascade prevs a0 21 100) x t = last prevs 0%C.
Proof.
  intros HL. assert (E : section_cutoff 16 21 = 100%Z). { apply Znearest_imp. unfold cascade_factor. cbn [nlit Rn]. interval. } split; auto.
  assert (A : cutoff_alpha Rn exact_trig 100 100 = 0). { unfold cutoff_alpha. cbn [tcos exact_trig nadd nsub nmul nsqrt nofZ n1 Rn]. replace (2 * PI * 100 / 100) with (2 * PI) by field. rewrite cos_2PI. replace (1 * (1 - 4) + 3) with 0 by ring. rewrite sqrt_0. ring. }
  unfold emac_cutoff. cbn [ec_prev]. rewrite HL. cbn [ndiv nofZ Rn]. rewrite E, A. set (s := mkEmac prevs 0).
  assert (L : forall ps i, emac_loop Rn (vcplx Rn) 0 ps i = (ps, last ps i)).
  { induction ps as [|p ps IH]; intros i; auto. cbn [emac_loop]. assert (Lp : lerp Rn (vcplx Rn) p i 0 = p) by (apply injective_projections; cbn; unfold creal, cimag; ring). rewrite Lp, IH, last_cons. reflexivity. }
  assert (St : forall y, emac_step Rn (vcplx Rn) s y = (s, last prevs 0%C)).
  { intros y. unfold emac_step, s. cbn [ec_alpha ec_prev]. rewrite L. f_equal. destruct prevs as [|p ps]; [discriminate|]. rewrite !last_cons. reflexivity. }
  assert (S : state_at cemac s x t = s) by (induction t as [|t IH]; auto; cbn [state_at]; rewrite IH, St; reflexivity).
  unfold out. rewrite S, St. reflexivity.
Qed.
Print Assumptions C84_wrap_refuted.
(** three sections with cutoff(10, 1000) (m = 20): the half-power point is within 9.6 .. 10.4 *)
Example C84_example (p q r : C) (a0 : R) : exists f, (forall v g, 0 <= 2 * v <= 1000 -> gain_at (out cemac (cutoff_cascade [p; q; r] a0 10 1000)) (cis (2 * PI * v / 1000)) g -> (1/2 <= Cmod g ^ 2 <-> v <= f)) /\ 9.6 <= f <= 10.4.
Proof.
  assert (E : section_cutoff 3 10 = 20%Z). { apply Znearest_imp. unfold cascade_factor. cbn [nlit Rn]. interval. }
  destruct (C84_half_power [p; q; r] a0 10 1000) as (f & _ & _ & H & B); [cbn; lia|unfold INT_MAX; lia|cbn [length]; rewrite E; lia|]. exists f. split; auto. cbn [length] in B. rewrite E in B.
  assert ((PI * 20 / 1000) ^ 2 / 6 <= 0.001) by interval. lra.
Qed.
