(* C90: rounding errors of decibel and idecibel (decibel.hh), ldexp and exp10 (exp.hh) *)
From Coq Require Import Reals ZArith Lia Lra.
From Flocq Require Import Core.
From Interval Require Import Tactic.
From Verif Require Import Spec.Rounding Model.Num Proofs.BaseLemmas Model.Exp Proofs.ExpProofs Proofs.DbRound Proofs.ExpRound Props.PExp Props.PFftRound.
Open Scope R_scope.

(** decibel(v), every operation and literal being rounded with relative error u, is within 12000 u of 10 log10(v)
    over 600 dB: the ten square roots lose ten bits, which the factor 2048*10/ln(10) brings to light. *)
Theorem C90_decibel (u e : R) (rnd : R -> R) (v : R) :
  0 < u <= 1 / 10000000 -> 0 <= e <= u * 1e-20 -> rounding u e rnd -> 1e-30 <= v <= 1e30 ->
  Rabs (decibel (Fn rnd) v - 10 * (ln v / ln 10)) <= 11990 * u + 1e-19.
Proof.
  intros Hu He Hr Hv. pose proof (decibel_round u e rnd Hu He Hr v Hv) as A. destruct (C40_accuracy v) as [B _]. specialize (B Hv). rewrite decibel_eq in B by lra.
  apply Rabs_le_inv in A, B. apply Rabs_le. lra.
Qed.
Print Assumptions C90_decibel.

(** numbers of 24 bits (and of 53 bits) are representable: integers, 1233/4096 times an integer, powers of two *)
Lemma fmt_range2 p q : (-1080 <= q)%Z -> (q <= p - 100)%Z -> (p <= -24)%Z -> 0 < bpow radix2 p <= 1 / 10000000 /\ 0 <= bpow radix2 q <= bpow radix2 p * 1e-20.
Proof.
  intros H1 H2 H3. pose proof (bpow_gt_0 radix2 p). pose proof (bpow_gt_0 radix2 q).
  assert (bpow radix2 p <= bpow radix2 (-24)) by (apply bpow_le; lia). assert (bpow radix2 q <= bpow radix2 (p + -100)) by (apply bpow_le; lia).
  rewrite bpow_plus in H5. change (bpow radix2 (-24)) with (/ 16777216) in *. change (bpow radix2 (-100)) with (/ 1267650600228229401496703205376) in *. lra.
Qed.
Lemma flt_exact emin prec : (emin <= -100)%Z -> (24 <= prec)%Z -> forall m k : Z, (Z.abs m <= 2 ^ 24)%Z -> (-100 <= k)%Z ->
  round radix2 (FLT_exp emin prec) ZnearestE (IZR m * bpow radix2 k) = IZR m * bpow radix2 k.
Proof.
  intros He Hp m k Hm Hk. assert (Pr : Prec_gt_0 prec) by (unfold Prec_gt_0; lia). apply round_generic; [typeclasses eauto|]. apply generic_format_FLT.
  destruct (Z.eq_dec (Z.abs m) (2 ^ 24)) as [E|E].
  - assert (M : exists s, m = (s * 2 ^ 24)%Z /\ (Z.abs s = 1)%Z) by (destruct (Z.abs_spec m) as [[_ F]|[_ F]]; [exists 1%Z|exists (-1)%Z]; lia).
    destruct M as (s & -> & Hs). apply FLT_spec with (Float radix2 s (24 + k)); cbn [Fnum Fexp]; [|rewrite Hs; apply Zpower_gt_1; lia|lia].
    unfold F2R. cbn [Fnum Fexp]. rewrite mult_IZR, bpow_plus, <- (IZR_Zpower radix2 24) by lia. change (radix_val radix2) with 2%Z. ring.
  - apply FLT_spec with (Float radix2 m k); cbn [Fnum Fexp]; [reflexivity| |lia]. change (radix_val radix2) with 2%Z. apply Z.lt_le_trans with (2 ^ 24)%Z; [lia|]. apply Z.pow_le_mono_r; lia.
Qed.

(** decibel<double> and decibel<float> *)
Theorem C90_decibel_binary64 (v : R) : 1e-30 <= v <= 1e30 -> Rabs (decibel (Fn rnd64) v - 10 * (ln v / ln 10)) <= 1.4e-12.
Proof.
  intros Hv. destruct (fmt_range2 (-53) (-1075)) as [Hu He]; try lia. eapply Rle_trans; [apply (C90_decibel _ _ _ v Hu He fmt64 Hv)|].
  change (bpow radix2 (-53)) with (/ 9007199254740992). lra.
Qed.
Print Assumptions C90_decibel_binary64.
Theorem C90_decibel_binary32 (v : R) : 1e-30 <= v <= 1e30 -> Rabs (decibel (Fn rnd32) v - 10 * (ln v / ln 10)) <= 7.2e-4.
Proof.
  intros Hv. destruct (fmt_range2 (-24) (-150)) as [Hu He]; try lia. eapply Rle_trans; [apply (C90_decibel _ _ _ v Hu He fmt32 Hv)|].
  change (bpow radix2 (-24)) with (/ 16777216). lra.
Qed.
Print Assumptions C90_decibel_binary32.

(** the error is absolute, not relative: next to 1 the square root rounds to 1 and decibel returns 0 *)
Theorem C90_relative_refuted : exists v, generic_format radix2 (FLT_exp (-149) 24) v /\ v <> 1 /\ decibel (Fn rnd32) v = 0.
Proof.
  assert (F1 : generic_format radix2 (FLT_exp (-149) 24) 1) by (change 1 with (bpow radix2 0); apply generic_format_bpow; unfold FLT_exp; lia).
  assert (R1 : rnd32 1 = 1) by (apply round_generic; [typeclasses eauto|auto]).
  exists (1 + / 8388608). split; [|split; [lra|]].
  { apply generic_format_FLT. apply FLT_spec with (Float radix2 8388609 (-23)); cbn [Fnum Fexp]; [|cbn; lia|lia]. unfold F2R. cbn [Fnum Fexp]. change (bpow radix2 (-23)) with (/ 8388608). lra. }
  assert (SQ : rnd32 (sqrt (1 + / 8388608)) = 1).
  { apply Rle_antisym.
    - assert (Pr : Prec_gt_0 24) by (unfold Prec_gt_0; lia). apply round_N_le_midp; [typeclasses eauto|auto|]. rewrite succ_eq_pos by lra.
      assert (U : ulp radix2 (FLT_exp (-149) 24) 1 = / 8388608). { change 1 with (bpow radix2 0). rewrite ulp_bpow. change (FLT_exp (-149) 24 (0 + 1)) with (-23)%Z. change (bpow radix2 (-23)) with (/ 8388608). reflexivity. }
      rewrite U. rewrite <- (sqrt_square ((1 + (1 + / 8388608)) / 2)) by lra. apply sqrt_lt_1_alt. lra.
    - apply Rle_trans with (rnd32 1); [rewrite R1; lra|]. assert (Pr : Prec_gt_0 24) by (unfold Prec_gt_0; lia). apply round_le; try typeclasses eauto. apply Rle_trans with (sqrt 1); [rewrite sqrt_1; lra|]. apply sqrt_le_1_alt. lra. }
  assert (S1 : rnd32 (sqrt 1) = 1) by (rewrite sqrt_1; auto).
  assert (I : forall k, Nat.iter (S k) (fun a => rnd32 (sqrt a)) (1 + / 8388608) = 1).
  { induction k as [|k IH]; [exact SQ|]. change (rnd32 (sqrt (Nat.iter (S k) (fun a => rnd32 (sqrt a)) (1 + / 8388608))) = 1). rewrite IH. auto. }
  unfold decibel. cbn [nadd nsub nmul ndiv nsqrt n1 nlit Fn]. rewrite (I 9%nat). 
  assert (R0 : rnd32 0 = 0) by (apply round_0; typeclasses eauto).
  replace (1 - 1) with 0 by ring. rewrite R0. unfold Rdiv at 1. rewrite Rmult_0_l, R0, Rmult_0_r, R0, Rmult_0_l. exact R0.
Qed.
Print Assumptions C90_relative_refuted.

(** exp10(x) in floating point: the relative error is below 8 u (plus the 2e-16 of the rational function, C39) for
    all |x| <= 76.8, since the reduction by multiples of log10(2) is done in two parts, the first one exactly. *)
Theorem C90_exp10 (u e : R) (rnd : R -> R) (rint : R -> Z) (x : R) :
  0 < u <= 1 / 10000000 -> 0 <= e <= u * 1e-20 -> rounding u e rnd ->
  (forall m k : Z, (Z.abs m <= 2 ^ 24)%Z -> (-100 <= k)%Z -> rnd (IZR m * bpow radix2 k) = IZR m * bpow radix2 k) ->
  (forall z, Rabs (IZR (rint z) - z) <= 1/2) -> Rabs x <= 76.8 ->
  exists v, exp10 (Fn rnd) rint x = Ok v /\ Rabs (v - Rpower 10 x) <= (8 * u + 2e-16) * Rpower 10 x + e.
Proof. intros. eapply exp10_round; eauto. Qed.
Print Assumptions C90_exp10.
Theorem C90_exp10_binary64 (rint : R -> Z) (x : R) : (forall z, Rabs (IZR (rint z) - z) <= 1/2) -> Rabs x <= 76.8 ->
  exists v, exp10 (Fn rnd64) rint x = Ok v /\ Rabs (v - Rpower 10 x) <= 1.1e-15 * Rpower 10 x + bpow radix2 (-1075).
Proof.
  intros Hr Hx. destruct (fmt_range2 (-53) (-1075)) as [Hu He]; try lia.
  destruct (C90_exp10 _ _ _ rint x Hu He fmt64 (flt_exact (-1074) 53 ltac:(lia) ltac:(lia)) Hr Hx) as (v & E & A). exists v. split; auto.
  eapply Rle_trans; [exact A|]. apply Rplus_le_compat_r, Rmult_le_compat_r; [apply Rlt_le, exp_pos|]. change (bpow radix2 (-53)) with (/ 9007199254740992). lra.
Qed.
Print Assumptions C90_exp10_binary64.
Theorem C90_exp10_binary32 (rint : R -> Z) (x : R) : (forall z, Rabs (IZR (rint z) - z) <= 1/2) -> Rabs x <= 38 ->
  exists v, exp10 (Fn rnd32) rint x = Ok v /\ Rabs (v - Rpower 10 x) <= 4.8e-7 * Rpower 10 x + bpow radix2 (-150).
Proof.
  intros Hr Hx. destruct (fmt_range2 (-24) (-150)) as [Hu He]; try lia.
  destruct (C90_exp10 _ _ _ rint x Hu He fmt32 (flt_exact (-149) 24 ltac:(lia) ltac:(lia)) Hr ltac:(lra)) as (v & E & A). exists v. split; auto.
  eapply Rle_trans; [exact A|]. apply Rplus_le_compat_r, Rmult_le_compat_r; [apply Rlt_le, exp_pos|]. change (bpow radix2 (-24)) with (/ 16777216). lra.
Qed.
Print Assumptions C90_exp10_binary32.

(** idecibel(dB): the rounded quotient dB/10 adds an error growing with the level *)
Theorem C90_idecibel (u e : R) (rnd : R -> R) (rint : R -> Z) (dB : R) :
  0 < u <= 1 / 10000000 -> 0 <= e <= u * 1e-20 -> rounding u e rnd ->
  (forall m k : Z, (Z.abs m <= 2 ^ 24)%Z -> (-100 <= k)%Z -> rnd (IZR m * bpow radix2 k) = IZR m * bpow radix2 k) ->
  (forall z, Rabs (IZR (rint z) - z) <= 1/2) -> Rabs dB <= 760 ->
  exists v, idecibel (Fn rnd) rint dB = Ok v /\ Rabs (v - Rpower 10 (dB / 10)) <= ((8.1 + 0.24 * Rabs dB) * u + 3e-16) * Rpower 10 (dB / 10) + e.
Proof.
  intros Hu He Hr Hx Hri HD. unfold idecibel. cbn [ndiv nofZ Fn]. rewrite (ofZ_exact rnd Hx 10) by lia.
  pose proof (Hr (dB / 10)) as Q. set (y := dB / 10) in *. assert (Hy : Rabs y = Rabs dB / 10) by (unfold y, Rdiv; rewrite Rabs_mult, (Rabs_pos_eq (/ 10)); lra).
  set (d := rnd y - y) in *. assert (Y : rnd y = y + d) by (unfold d; ring). rewrite Y.
  assert (DD : Rabs d <= u * (Rabs dB / 10) + u * 1e-20) by (rewrite Hy in Q; lra). pose proof (Rabs_pos dB).
  assert (D1 : Rabs d <= 0.00001) by (assert (u * (Rabs dB / 10) <= 1 / 10000000 * 76) by (apply Rmult_le_compat; lra); lra).
  destruct (C90_exp10 u e rnd rint (y + d) Hu He Hr Hx Hri) as (v & E & A).
  { eapply Rle_trans; [apply Rabs_triang|]. lra. }
  exists v. split; auto. unfold Rpower in *. rewrite Rmult_plus_distr_r, exp_plus in A. set (W := exp (y * ln 10)) in *. assert (HW : 0 < W) by apply exp_pos.
  set (w := d * ln 10) in *. assert (L10 : 2.3025 <= ln 10 <= 2.302586) by (split; interval).
  assert (Hw : Rabs w <= 2.302586 * Rabs d) by (unfold w; rewrite Rabs_mult, (Rabs_pos_eq (ln 10)), Rmult_comm by lra; apply Rmult_le_compat_r; [apply Rabs_pos|lra]).
  assert (Ew : Rabs (exp w - 1) <= 1.0001 * Rabs w).
  { pose proof (exp_ineq1_le w). pose proof (exp_ineq1_le (- w)). assert (EE : exp w * exp (- w) = 1) by (rewrite <- exp_plus, Rplus_opp_r, exp_0; auto). pose proof (exp_pos w).
    assert (Hw1 : Rabs w <= 0.00003) by lra. apply Rabs_le_inv in Hw1. assert (exp w * (1 - w) <= 1) by (rewrite <- EE; apply Rmult_le_compat_l; lra).
    assert (P2 : exp w <= 1 + 1.0001 * Rabs w). { apply Rmult_le_reg_r with (1 - w); [lra|]. eapply Rle_trans; [eassumption|]. unfold Rabs. destruct (Rcase_abs w); nra. }
    apply Rabs_le. split; [|lra]. pose proof (Rabs_pos w). unfold Rabs in *. destruct (Rcase_abs w); lra. }
  assert (UD : 0 <= u * Rabs dB) by (apply Rmult_le_pos; lra). assert (EW : Rabs (exp w - 1) <= 0.2304 * (u * Rabs dB) + u * 1e-19) by lra.
  assert (Ew1 : exp w <= 1.0001) by (apply Rabs_le_inv in Ew; lra).
  set (X := exp w) in *. replace (v - W) with ((v - W * X) + W * (X - 1)) by ring. eapply Rle_trans; [apply Rabs_triang|].
  rewrite (Rabs_mult W), (Rabs_pos_eq W) by lra.
  assert (P1 : W * Rabs (X - 1) <= W * (0.2304 * (u * Rabs dB) + u * 1e-19)) by (apply Rmult_le_compat_l; lra).
  assert (P2 : (8 * u + 2e-16) * (W * X) <= (8 * u + 2e-16) * (W * 1.0001)) by (apply Rmult_le_compat_l; [lra|apply Rmult_le_compat_l; lra]).
  assert (0 <= W * u) by (apply Rmult_le_pos; lra). assert (0 <= W * (u * Rabs dB)) by (apply Rmult_le_pos; [lra|apply Rmult_le_pos; lra]). lra.
Qed.
Print Assumptions C90_idecibel.

(** idecibel and decibel one after the other, and the accuracy of idecibel<double> and idecibel<float> *)
Lemma round_trip rnd v dB a b : Rabs (decibel (Fn rnd) v - 10 * (ln v / ln 10)) <= a ->
  Rabs (v - Rpower 10 (dB / 10)) <= b * Rpower 10 (dB / 10) -> 0 <= b <= 0.0001 -> Rabs (decibel (Fn rnd) v - dB) <= a + 4.344 * b.
Proof.
  intros A B Hb. set (W := Rpower 10 (dB / 10)) in *. assert (HW : 0 < W) by apply exp_pos. set (t := v / W - 1). assert (V : v = W * (1 + t)) by (unfold t; field; lra).
  assert (T : Rabs t <= b). { apply Rmult_le_reg_l with W; auto. rewrite <- (Rabs_pos_eq W) at 1 by lra. rewrite <- Rabs_mult. replace (W * t) with (v - W) by (rewrite V; ring). lra. }
  assert (T1 : Rabs t <= 0.0001) by lra. apply Rabs_le_inv in T1.
  assert (L10 : 2.30258 <= ln 10 <= 2.302586) by (split; interval).
  assert (E : 10 * (ln v / ln 10) = dB + 10 * (ln (1 + t) / ln 10)).
  { rewrite V, ln_mult by lra. unfold W, Rpower. rewrite ln_exp. field. lra. }
  assert (L : Rabs (ln (1 + t)) <= 1.00011 * Rabs t).
  { pose proof (exp_ineq1_le (ln (1 + t))) as P. rewrite exp_ln in P by lra. pose proof (exp_ineq1_le (- ln (1 + t))) as P'. rewrite exp_Ropp, exp_ln in P' by lra.
    assert (I : / (1 + t) * (1 + t) = 1) by (field; lra). assert (I1 : / (1 + t) <= 1 + 1.00011 * Rabs t).
    { apply Rmult_le_reg_r with (1 + t); [lra|]. rewrite I. unfold Rabs. destruct (Rcase_abs t); nra. }
    apply Rabs_le. pose proof (Rabs_pos t). unfold Rabs in *. destruct (Rcase_abs t); lra. }
  assert (K : Rabs (10 * (ln (1 + t) / ln 10)) <= 4.344 * Rabs t).
  { unfold Rdiv. rewrite !Rabs_mult, (Rabs_pos_eq 10), (Rabs_pos_eq (/ ln 10)) by (try (apply Rlt_le, Rinv_0_lt_compat); lra).
    assert (/ ln 10 <= / 2.30258) by (apply Rinv_le_contravar; lra). assert (0 < / ln 10) by (apply Rinv_0_lt_compat; lra). pose proof (Rabs_pos (ln (1 + t))).
    assert (Rabs (ln (1 + t)) * / ln 10 <= (1.00011 * Rabs t) * / 2.30258) by (apply Rmult_le_compat; lra). pose proof (Rabs_pos t). lra. }
  rewrite E in A. replace (decibel (Fn rnd) v - dB) with ((decibel (Fn rnd) v - (dB + 10 * (ln (1 + t) / ln 10))) + 10 * (ln (1 + t) / ln 10)) by ring.
  eapply Rle_trans; [apply Rabs_triang|]. lra.
Qed.
Lemma level_range dB : Rabs dB <= 299 -> 1.2e-30 <= Rpower 10 (dB / 10) <= 0.8e30.
Proof. intros H. apply Rabs_le_inv in H. unfold Rpower. split; interval. Qed.
Theorem C90_idecibel_binary64 (rint : R -> Z) (dB : R) : (forall z, Rabs (IZR (rint z) - z) <= 1/2) -> Rabs dB <= 299 ->
  exists v, idecibel (Fn rnd64) rint dB = Ok v /\ Rabs (v - Rpower 10 (dB / 10)) <= 9.3e-15 * Rpower 10 (dB / 10) /\
  Rabs (decibel (Fn rnd64) v - dB) <= 1.5e-12.
Proof.
  intros Hr Hx. destruct (fmt_range2 (-53) (-1075)) as [Hu He]; try lia.
  destruct (C90_idecibel _ _ _ rint dB Hu He fmt64 (flt_exact (-1074) 53 ltac:(lia) ltac:(lia)) Hr ltac:(lra)) as (v & E & A). exists v. split; auto.
  pose proof (level_range dB Hx) as L. 
  assert (A' : Rabs (v - Rpower 10 (dB / 10)) <= 9.3e-15 * Rpower 10 (dB / 10)).
  { eapply Rle_trans; [exact A|]. set (W := Rpower 10 (dB / 10)) in *. assert (Q : bpow radix2 (-1075) <= bpow radix2 (-160)) by (apply bpow_le; lia). change (bpow radix2 (-160)) with (/ 1461501637330902918203684832716283019655932542976) in Q.
    change (bpow radix2 (-53)) with (/ 9007199254740992) in *. assert (((8.1 + 0.24 * Rabs dB) * / 9007199254740992 + 3e-16) * W <= 9.28e-15 * W) by (apply Rmult_le_compat_r; lra). lra. }
  split; auto. eapply Rle_trans; [apply (round_trip rnd64 v dB 1.4e-12 9.3e-15); auto; [|lra]|lra]. apply C90_decibel_binary64. apply Rabs_le_inv in A'. lra.
Qed.
Print Assumptions C90_idecibel_binary64.
Theorem C90_idecibel_binary32 (rint : R -> Z) (dB : R) : (forall z, Rabs (IZR (rint z) - z) <= 1/2) -> Rabs dB <= 299 ->
  exists v, idecibel (Fn rnd32) rint dB = Ok v /\ Rabs (v - Rpower 10 (dB / 10)) <= 4.9e-6 * Rpower 10 (dB / 10) /\
  Rabs (decibel (Fn rnd32) v - dB) <= 7.5e-4.
Proof.
  intros Hr Hx. destruct (fmt_range2 (-24) (-150)) as [Hu He]; try lia.
  destruct (C90_idecibel _ _ _ rint dB Hu He fmt32 (flt_exact (-149) 24 ltac:(lia) ltac:(lia)) Hr ltac:(lra)) as (v & E & A). exists v. split; auto.
  pose proof (level_range dB Hx) as L. 
  assert (A' : Rabs (v - Rpower 10 (dB / 10)) <= 4.9e-6 * Rpower 10 (dB / 10)).
  { eapply Rle_trans; [exact A|]. set (W := Rpower 10 (dB / 10)) in *. change (bpow radix2 (-150)) with (/ 1427247692705959881058285969449495136382746624). 
    change (bpow radix2 (-24)) with (/ 16777216) in *. assert (((8.1 + 0.24 * Rabs dB) * / 16777216 + 3e-16) * W <= 4.85e-6 * W) by (apply Rmult_le_compat_r; lra). lra. }
  split; auto. eapply Rle_trans; [apply (round_trip rnd32 v dB 7.2e-4 4.9e-6); auto; [|lra]|lra]. apply C90_decibel_binary32. apply Rabs_le_inv in A'. lra.
Qed.
Print Assumptions C90_idecibel_binary32.

(** C90  A value meeting the hypotheses: 30 dB there and back in binary32, nearbyint rounding ties to even *)
Example C90_example : exists v, idecibel (Fn rnd32) ZnearestE 30 = Ok v /\ Rabs (v - 1000) <= 0.0049 /\ Rabs (decibel (Fn rnd32) v - 30) <= 7.5e-4.
Proof.
  destruct (C90_idecibel_binary32 ZnearestE 30) as (v & E & A & B). { intros z. rewrite Rabs_minus_sym. pose proof (Znearest_half (fun x => negb (Z.even x)) z). lra. } { rewrite Rabs_pos_eq; lra. }
  exists v. splits; auto. replace (Rpower 10 (30 / 10)) with 1000 in A; [lra|]. replace (30 / 10) with (INR 3) by (cbn; lra). rewrite Rpower_pow by lra. lra.
Qed.
