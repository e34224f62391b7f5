(* Property C87: rounding error of the Fourier transform in the Euclidean norm, and of a round trip *)
From Coq Require Import Floats Reals ZArith Lia Lra List Psatz.
From Coquelicot Require Import Complex.
From Flocq Require Import Core.
From Interval Require Import Tactic.
From Verif Require Import Proofs.BaseLemmas Spec.Dft Spec.Norm Spec.Rounding Model.Const Model.Fft Model.UnitCircle Model.Num64 Proofs.FftAlg Proofs.FftSplit Proofs.FftProofs Proofs.FftInverse Proofs.UcRound Proofs.FftRound Proofs.FftL2 Props.PFftRound.
Import ListNotations.
Open Scope R_scope.

(** what running the transform in arithmetic [N] with tables [tr] has to give: no undefined behaviour, nothing
    written beyond bin BINS-1, and bins v with ||v - DFT|| <= eps (||DFT|| + BINS X) *)
Definition runs_to (N : num R) (tr : trig R) (BINS SIGN : Z) (out : list (option C)) (inp : list C) (v : nat -> C) : Prop :=
  exists out', fft N tr BINS SIGN out inp = Ok out' /\ zlen out' = zlen out /\ (forall k, (BINS <= k)%Z -> znth out' k = znth out k) /\
    forall k, (k < Z.to_nat BINS)%nat -> znth out' (Z.of_nat k) = Some (Some (v k)).
Definition spectrum (SIGN BINS : Z) (inp : list C) (k : nat) : C := DFT SIGN (Z.to_nat BINS) (fun n => nth n inp (RtoC 0)) k.
(** the tables have absolute error t *)
Definition tables (t : R) (tr : trig R) (BINS : Z) : Prop :=
  (forall n M, (0 <= n < M)%Z -> (M <= Z.max 31 BINS)%Z ->
     Rabs (tcos tr n M - cos (2 * PI * IZR n / IZR M)) <= t /\ Rabs (tsin tr n M - sin (2 * PI * IZR n / IZR M)) <= t) /\
  Rabs (trsqrt2 tr - / sqrt 2) <= t.

(** C87: every operation rounded with relative error u and absolute error e near zero, tables with error t; X is
    any threshold with u + 2 e/X <= h.  For BINS <= 2^m the vector of all bins is wrong by at most
    (1+h)^(240 m) - 1 relative to its own norm (plus BINS X for underflow); for BINS = 2^m it is (1+h)^(34 m) - 1.
    Nothing is assumed about the inputs. *)
Theorem C87_rounding_error (u e t h X : R) (rnd : R -> R) (tr : trig R) (BINS SIGN : Z) (out : list (option C)) (inp : list C) (m : nat) :
  0 <= u -> 0 <= e -> rounding u e rnd -> rnd 1 = 1 -> rnd (-1) = -1 -> 0 < X -> tables t tr BINS ->
  t <= h -> u + 2 * e / X <= h -> u * (1 + t) + e <= h ->
  (0 < BINS)%Z -> smooth31 BINS -> SIGN = 1%Z \/ SIGN = (-1)%Z -> (BINS <= zlen out)%Z -> (BINS <= zlen inp)%Z -> (BINS <= 2 ^ Z.of_nat m)%Z ->
  exists v, runs_to (Fn rnd) tr BINS SIGN out inp v /\
    l2 (Z.to_nat BINS) (fun k => v k - spectrum SIGN BINS inp k)%C <=
      ((1 + h) ^ (if (BINS =? 2 ^ Z.of_nat m)%Z then 34 * m else 240 * m) - 1) * (l2 (Z.to_nat BINS) (spectrum SIGN BINS inp) + IZR BINS * X).
Proof.
  intros Hu He Hr R1 R2 HX (HT & HT2) Ht H1 H2 HB Hsm HS Lo Li Hm.
  assert (Hh : 0 <= h). { assert (0 <= 2 * e / X). { apply Rmult_le_pos; [lra|]. apply Rlt_le, Rinv_0_lt_compat; auto. } lra. }
  assert (PV : l2 (Z.to_nat BINS) (spectrum SIGN BINS inp) = sqrt (IZR BINS) * nr (Z.to_nat BINS) (fun n => Cmod (nth n inp (RtoC 0)))).
  { pose proof (cn_parseval SIGN (Z.to_nat BINS) (fun n => nth n inp (RtoC 0)) HS ltac:(lia)) as E. rewrite INR_IZR_INZ, Z2Nat.id in E by lia. exact E. }
  rewrite PV. assert (X0 : 0 <= IZR BINS * X) by (apply Rmult_le_pos; [apply IZR_le; lia|lra]).
  pose proof (nr_nn (Z.to_nat BINS) (fun n => Cmod (nth n inp (RtoC 0)))) as N0. pose proof (sqrt_pos (IZR BINS)) as S0.
  destruct (Z.eqb_spec BINS (2 ^ Z.of_nat m)) as [E2|_].
  - destruct (fft_l2 u e t h X rnd tr BINS SIGN out inp dep34) as (out' & v & E & L & U & VV & B); auto.
    { intros n Hn Hd Hs. apply (dep34_ok m); auto. rewrite <- E2. auto. }
    exists v. split; [exists out'; auto|]. eapply Rle_trans; [exact B|]. replace (dep34 BINS) with (34 * m)%nat by (unfold dep34; rewrite E2, Z.log2_pow2 by lia; lia). apply Rle_refl.
  - destruct (fft_l2 u e t h X rnd tr BINS SIGN out inp dep240) as (out' & v & E & L & U & VV & B); auto.
    { intros n Hn _ Hs. apply dep240_ok; auto. }
    exists v. split; [exists out'; auto|]. eapply Rle_trans; [exact B|]. apply Rmult_le_compat_r; [apply Rplus_le_le_0_compat; [apply Rmult_le_pos|]; auto|]. apply Rplus_le_compat_r, Rle_pow; [lra|]. apply dep240_le; auto.
Qed.
Print Assumptions C87_rounding_error.

(** C87: transforming forward and backward gives BINS times the input, up to twice that error *)
Theorem C87_round_trip (u e t h X : R) (rnd : R -> R) (tr : trig R) (BINS SIGN : Z) (out out2 : list (option C)) (inp : list C) (m : nat) :
  0 <= u -> 0 <= e -> rounding u e rnd -> rnd 1 = 1 -> rnd (-1) = -1 -> 0 < X -> tables t tr BINS ->
  t <= h -> u + 2 * e / X <= h -> u * (1 + t) + e <= h ->
  (0 < BINS)%Z -> smooth31 BINS -> SIGN = 1%Z \/ SIGN = (-1)%Z -> (BINS <= zlen out)%Z -> (BINS <= zlen out2)%Z -> (BINS <= zlen inp)%Z -> (BINS <= 2 ^ Z.of_nat m)%Z ->
  exists v w : nat -> C, runs_to (Fn rnd) tr BINS SIGN out inp v /\ runs_to (Fn rnd) tr BINS (- SIGN) out2 (map v (seq 0 (Z.to_nat BINS))) w /\
    l2 (Z.to_nat BINS) (fun k => w k - IZR BINS * nth k inp (RtoC 0))%C <=
      ((1 + h) ^ (2 * (if (BINS =? 2 ^ Z.of_nat m)%Z then 34 * m else 240 * m)) - 1) * (IZR BINS * (l2 (Z.to_nat BINS) (fun k => nth k inp (RtoC 0)) + sqrt (IZR BINS) * X)).
Proof.
  intros Hu He Hr R1 R2 HX HT Ht H1 H2 HB Hsm HS Lo Lo2 Li Hm.
  assert (Hh : 0 <= h). { assert (0 <= 2 * e / X). { apply Rmult_le_pos; [lra|]. apply Rlt_le, Rinv_0_lt_compat; auto. } lra. }
  destruct (C87_rounding_error u e t h X rnd tr BINS SIGN out inp m) as (v & RV & B1); auto.
  set (y := map v (seq 0 (Z.to_nat BINS))).
  assert (Ly : zlen y = BINS) by (unfold y, zlen; rewrite map_length, seq_length; lia).
  destruct (C87_rounding_error u e t h X rnd tr BINS (- SIGN) out2 y m) as (w & RW & B2); auto; try lia.
  exists v, w. split; [auto|]. split; [auto|].
  set (d := if (BINS =? 2 ^ Z.of_nat m)%Z then (34 * m)%nat else (240 * m)%nat) in *. set (n := Z.to_nat BINS) in *.
  assert (En : INR n = IZR BINS) by (unfold n; rewrite INR_IZR_INZ, Z2Nat.id by lia; auto).
  assert (Ny : forall k, (k < n)%nat -> nth k y (RtoC 0) = v k).
  { intros k Hk. unfold y. rewrite (nth_indep _ _ (v 0%nat)) by (rewrite map_length, seq_length; lia). rewrite map_nth, seq_nth by lia. auto. }
  set (x := fun k => nth k inp (RtoC 0)).
  assert (PX : l2 n (spectrum SIGN BINS inp) = sqrt (IZR BINS) * l2 n x) by (pose proof (cn_parseval SIGN n x HS ltac:(lia)) as Q; rewrite En in Q; exact Q).
  assert (PY : l2 n (spectrum (- SIGN) BINS y) = sqrt (IZR BINS) * l2 n v).
  { pose proof (cn_parseval (- SIGN) n (fun k => nth k y (RtoC 0)) ltac:(lia) ltac:(lia)) as Q. rewrite En in Q. rewrite (nr_ext n (fun k => Cmod (nth k y (RtoC 0))) (fun k => Cmod (v k))) in Q by (intros; rewrite Ny; auto). exact Q. }
  rewrite PX in B1. rewrite PY in B2.
  set (eps := (1 + h) ^ d - 1) in *. assert (eps0 : 0 <= eps) by (unfold eps; pose proof (pow_R1_Rle (1 + h) d ltac:(lra)); lra).
  set (r := sqrt (IZR BINS)) in *. assert (B0 : 1 <= IZR BINS) by (apply IZR_le; lia). assert (rr : r * r = IZR BINS) by (apply sqrt_sqrt; lra).
  assert (r1 : 1 <= r) by (rewrite <- sqrt_1; apply sqrt_le_1_alt; auto).
  set (d1 := l2 n (fun k => v k - spectrum SIGN BINS inp k)%C) in *. assert (d10 : 0 <= d1) by apply sqrt_pos.
  assert (NV : l2 n v <= d1 + r * l2 n x).
  { rewrite <- PX. unfold d1. eapply Rle_trans; [|apply (nr_plus n (fun k => Cmod (v k - spectrum SIGN BINS inp k)%C) (fun k => Cmod (spectrum SIGN BINS inp k)))]. apply nr_le'. intros k Hk. split; [apply Cmod_ge_0|apply Cmod_of_sub]. }
  assert (DI : l2 n (fun k => spectrum (- SIGN) BINS y k - IZR BINS * x k)%C = r * d1).
  { pose proof (cn_parseval (- SIGN) n (fun k => v k - spectrum SIGN BINS inp k)%C ltac:(lia) ltac:(lia)) as Q. rewrite En in Q. fold r in Q. change (nr n (fun k => Cmod (v k - spectrum SIGN BINS inp k)%C)) with d1 in Q. rewrite <- Q.
    apply nr_ext. intros k Hk. f_equal. rewrite <- En. unfold x. rewrite <- (DFT_inverse SIGN n (fun k => nth k inp (RtoC 0)) k HS Hk). unfold spectrum. fold n.
    rewrite (DFT_ext (- SIGN) n (fun n0 => nth n0 y (RtoC 0)) v k Ny). unfold DFT at 1 2 4. rewrite <- Csum_minus. apply Csum_ext. intros j Hj. ring. }
  assert (TR : l2 n (fun k => w k - IZR BINS * x k)%C <= l2 n (fun k => w k - spectrum (- SIGN) BINS y k)%C + r * d1).
  { rewrite <- DI. eapply Rle_trans; [|apply (nr_plus n (fun k => Cmod (w k - spectrum (- SIGN) BINS y k)%C) (fun k => Cmod (spectrum (- SIGN) BINS y k - IZR BINS * x k)%C))]. apply nr_le'. intros k Hk. split; [apply Cmod_ge_0|apply Cmod_sub_le]. }
  change (fun k => nth k inp (RtoC 0)) with x. eapply Rle_trans; [exact TR|]. replace (2 * d)%nat with (d + d)%nat by lia. rewrite pow_add. replace ((1 + h) ^ d) with (1 + eps) by (unfold eps; ring).
  assert (x0 : 0 <= l2 n x) by apply sqrt_pos. set (a := l2 n x) in *. set (b := l2 n v) in *. set (dd := l2 n (fun k => w k - spectrum (- SIGN) BINS y k)%C) in *. rewrite <- rr in *. clearbody a b dd d1 eps r.
  assert (Q1 : r * b <= r * d1 + r * r * a) by nra.
  assert (Q2 : dd <= eps * (r * d1 + r * r * a + r * r * X)) by (eapply Rle_trans; [exact B2|]; apply Rmult_le_compat_l; lra).
  assert (Q3 : r * d1 <= eps * (r * r * a + r * r * r * X)) by nra.
  assert (Q4 : r * r * X <= r * r * r * X). { assert (r * r * X * 1 <= r * r * X * r) by (apply Rmult_le_compat_l; [apply Rmult_le_pos; nra|auto]). lra. }
  assert (Q5 : eps * (r * d1) <= eps * (eps * (r * r * a + r * r * r * X))) by (apply Rmult_le_compat_l; auto).
  assert (Q6 : eps * (r * r * X) <= eps * (r * r * r * X)) by (apply Rmult_le_compat_l; auto). lra.
Qed.
Print Assumptions C87_round_trip.

(** with the tables UnitCircle computes in the same arithmetic *)
Lemma uc_tables p q (rnd : R -> R) BINS : (-1080 <= q)%Z -> (q <= p - 30)%Z -> (-53 <= p <= -24)%Z -> rounding (bpow radix2 p) (bpow radix2 q) rnd ->
  (8 * BINS <= INT_MAX)%Z -> tables (8.5 * bpow radix2 p) (uc_trig (Fn rnd)) BINS.
Proof.
  intros H1 H2 H3 Hr HI. destruct (fmt_range p q) as [Hu He]; try lia. set (u := bpow radix2 p) in *. set (e := bpow radix2 q) in *.
  assert (U53 : / 9007199254740992 <= u) by (change (/ 9007199254740992) with (bpow radix2 (-53)); apply bpow_le; lia).
  split.
  - intros n M HnM HM. destruct (uc_round u e rnd Hu He Hr n M) as (c & s & E1 & E2 & A & B); try lia. { unfold INT_MAX in *; lia. }
    cbn [tcos tsin uc_trig]. rewrite E1, E2. lra.
  - cbn [trsqrt2 uc_trig]. unfold InvSqrtTwo. cbn [nlit Fn].
    assert (I1 : Rabs InvSqrtTwo_lit <= 0.71) by (unfold InvSqrtTwo_lit; interval).
    assert (I2 : Rabs (InvSqrtTwo_lit - / sqrt 2) <= 1e-60) by (unfold InvSqrtTwo_lit; interval with (i_prec 300)).
    pose proof (Hr InvSqrtTwo_lit) as Q. replace (rnd InvSqrtTwo_lit - / sqrt 2) with ((rnd InvSqrtTwo_lit - InvSqrtTwo_lit) + (InvSqrtTwo_lit - / sqrt 2)) by ring.
    eapply Rle_trans; [apply Rabs_triang|]. assert (u * Rabs InvSqrtTwo_lit <= u * 0.71) by (apply Rmult_le_compat_l; lra). lra.
Qed.
Lemma l2_uc p q Xmin (rnd : R -> R) BINS SIGN (out : list (option C)) (inp : list C) (m : nat) :
  (-1080 <= q)%Z -> (q <= p - 30)%Z -> (-53 <= p <= -24)%Z -> Xmin = (q - p - 2)%Z -> rounding (bpow radix2 p) (bpow radix2 q) rnd -> rnd 1 = 1 -> rnd (-1) = -1 ->
  (0 < BINS)%Z -> smooth31 BINS -> SIGN = 1%Z \/ SIGN = (-1)%Z -> (8 * BINS <= INT_MAX)%Z -> (BINS <= zlen out)%Z -> (BINS <= zlen inp)%Z -> (BINS <= 2 ^ Z.of_nat m)%Z -> (m <= 28)%nat ->
  exists v, runs_to (Fn rnd) (uc_trig (Fn rnd)) BINS SIGN out inp v /\
    l2 (Z.to_nat BINS) (fun k => v k - spectrum SIGN BINS inp k)%C <=
      (if (BINS =? 2 ^ Z.of_nat m)%Z then 310 else 2200) * INR m * bpow radix2 p * (l2 (Z.to_nat BINS) (spectrum SIGN BINS inp) + IZR BINS * bpow radix2 Xmin).
Proof.
  intros H1 H2 H3 H4 Hr R1 R2 HB Hsm HS HI Lo Li Hm M28.
  destruct (fmt_range p q) as [Hu He]; try lia. pose proof (uc_tables p q rnd BINS H1 H2 H3 Hr HI) as HT. set (u := bpow radix2 p) in *. set (e := bpow radix2 q) in *.
  pose proof (bpow_gt_0 radix2 Xmin) as X0.
  assert (EX : 2 * e / bpow radix2 Xmin <= 8 * u).
  { unfold Rdiv. rewrite <- bpow_opp. change 2 with (bpow radix2 1). change 8 with (bpow radix2 3). unfold e, u. rewrite <- !bpow_plus. apply bpow_le. lia. }
  destruct (C87_rounding_error u e (8.5 * u) (9 * u) (bpow radix2 Xmin) rnd (uc_trig (Fn rnd)) BINS SIGN out inp m) as (v & RV & B); auto; try lra.
  { assert (u * u <= u * (1 / 10000000)) by (apply Rmult_le_compat_l; lra). lra. }
  exists v. split; [auto|]. eapply Rle_trans; [exact B|].
  apply Rmult_le_compat_r. { apply Rplus_le_le_0_compat; [apply sqrt_pos|apply Rmult_le_pos; [apply IZR_le; lia|lra]]. }
  assert (IM : 0 <= INR m <= 28). { split; [apply pos_INR|]. apply le_INR in M28. cbn in M28. lra. }
  assert (P0 : 0 <= INR m * u) by nra. assert (u28 : INR m * u <= 28 * (1 / 16777216)).
  { assert (u <= 1 / 16777216) by (replace (1 / 16777216) with (bpow radix2 (-24)) by (cbn; lra); apply bpow_le; lia). assert (INR m * u <= 28 * u) by (apply Rmult_le_compat_r; lra). lra. }
  destruct (Z.eqb_spec BINS (2 ^ Z.of_nat m)) as [E2|_].
  - assert (I11 : INR (34 * m) = 34 * INR m) by (rewrite mult_INR; cbn; lra).
    pose proof (pow1h (9 * u) (34 * m) ltac:(lra)) as Q. rewrite I11 in Q. specialize (Q ltac:(lra)).
    set (w := INR m * u) in *. replace (34 * INR m * (9 * u)) with (306 * w) in Q by (unfold w; ring). replace (310 * INR m * u) with (310 * w) by (unfold w; ring). clearbody w.
    assert (306 * w * (306 * w) <= 306 * w * (1 / 100)) by (apply Rmult_le_compat_l; lra). lra.
  - assert (I11 : INR (240 * m) = 240 * INR m) by (rewrite mult_INR; f_equal; rewrite INR_IZR_INZ; reflexivity).
    pose proof (pow1h (9 * u) (240 * m) ltac:(lra)) as Q. rewrite I11 in Q. specialize (Q ltac:(lra)).
    set (w := INR m * u) in *. replace (240 * INR m * (9 * u)) with (2160 * w) in Q by (unfold w; ring). replace (2200 * INR m * u) with (2200 * w) by (unfold w; ring). clearbody w.
    assert (2160 * w * (2160 * w) <= 2160 * w * (1 / 100)) by (apply Rmult_le_compat_l; lra). lra.
Qed.
(** FastFourierTransform<BINS, Complex<double>, SIGN> and <BINS, Complex<float>, SIGN> *)
Theorem C87_binary64 (BINS SIGN : Z) (out : list (option C)) (inp : list C) (m : nat) :
  (0 < BINS)%Z -> smooth31 BINS -> SIGN = 1%Z \/ SIGN = (-1)%Z -> (8 * BINS <= INT_MAX)%Z -> (BINS <= zlen out)%Z -> (BINS <= zlen inp)%Z -> (BINS <= 2 ^ Z.of_nat m)%Z -> (m <= 28)%nat ->
  exists v, runs_to (Fn rnd64) (uc_trig (Fn rnd64)) BINS SIGN out inp v /\
    l2 (Z.to_nat BINS) (fun k => v k - spectrum SIGN BINS inp k)%C <=
      (if (BINS =? 2 ^ Z.of_nat m)%Z then 310 else 2200) * INR m * bpow radix2 (-53) * (l2 (Z.to_nat BINS) (spectrum SIGN BINS inp) + IZR BINS * bpow radix2 (-1024)).
Proof.
  intros. apply (l2_uc (-53) (-1075) (-1024)); auto; try lia.
  - exact fmt64.
  - change 1 with (bpow radix2 0). apply round_generic; [typeclasses eauto|]. apply generic_format_bpow. unfold FLT_exp. lia.
  - replace (-1) with (- bpow radix2 0) by (cbn; lra). apply round_generic; [typeclasses eauto|]. apply generic_format_opp, generic_format_bpow. unfold FLT_exp. lia.
Qed.
Print Assumptions C87_binary64.
Theorem C87_binary32 (BINS SIGN : Z) (out : list (option C)) (inp : list C) (m : nat) :
  (0 < BINS)%Z -> smooth31 BINS -> SIGN = 1%Z \/ SIGN = (-1)%Z -> (8 * BINS <= INT_MAX)%Z -> (BINS <= zlen out)%Z -> (BINS <= zlen inp)%Z -> (BINS <= 2 ^ Z.of_nat m)%Z -> (m <= 28)%nat ->
  exists v, runs_to (Fn rnd32) (uc_trig (Fn rnd32)) BINS SIGN out inp v /\
    l2 (Z.to_nat BINS) (fun k => v k - spectrum SIGN BINS inp k)%C <=
      (if (BINS =? 2 ^ Z.of_nat m)%Z then 310 else 2200) * INR m * bpow radix2 (-24) * (l2 (Z.to_nat BINS) (spectrum SIGN BINS inp) + IZR BINS * bpow radix2 (-128)).
Proof.
  intros. apply (l2_uc (-24) (-150) (-128)); auto; try lia.
  - exact fmt32.
  - change 1 with (bpow radix2 0). apply round_generic; [typeclasses eauto|]. apply generic_format_bpow. unfold FLT_exp. lia.
  - replace (-1) with (- bpow radix2 0) by (cbn; lra). apply round_generic; [typeclasses eauto|]. apply generic_format_opp, generic_format_bpow. unfold FLT_exp. lia.
Qed.
Print Assumptions C87_binary32.

(** C87: the bound is for the whole vector, a single bin can be completely wrong: the input 1, -1, 2^-60, 0 has
    bin 0 equal to 2^-60, in double precision it comes out as 0 *)
Theorem C87_single_bin_refuted :
  DFT (-1) 4 (fun n => nth n [RtoC 1; RtoC (-1); RtoC (/ 2 ^ 60); RtoC 0] (RtoC 0)) 0 = RtoC (/ 2 ^ 60) /\
  exists out, fft Dn (uc_trig Dn) 4 (-1) (repeat None 4) [(1, 0); (-1, 0); (0x1p-60, 0); (0, 0)]%float = Ok out /\ znth out 0 = Some (Some (0, 0)%float).
Proof.
  split.
  - unfold DFT. cbn [Csum nth]. replace (INR 0) with 0 by reflexivity. rewrite !Rmult_0_r. unfold Rdiv. rewrite !Rmult_0_l, cis_0. rewrite !Cmult_1_r, <- !RtoC_plus. f_equal. lra.
  - eexists. split; [vm_compute; reflexivity|reflexivity].
Qed.
Print Assumptions C87_single_bin_refuted.

(** 1024 bins in single precision *)
Example C87_example (inp : list C) : zlen inp = 1024%Z -> 1 <= l2 1024 (spectrum 1 1024 inp) ->
  exists v, runs_to (Fn rnd32) (uc_trig (Fn rnd32)) 1024 1 (repeat None 1024) inp v /\
    l2 1024 (fun k => v k - spectrum 1 1024 inp k)%C <= 0.0002 * l2 1024 (spectrum 1 1024 inp).
Proof.
  intros L B. assert (Sm : smooth31 1024). { change 1024%Z with (8 * (8 * (8 * 2)))%Z. repeat apply smooth_mul; apply smooth_radix; cbn; auto 20. }
  assert (Lo : (1024 <= zlen (@repeat (option C) None 1024))%Z) by (vm_compute; discriminate).
  destruct (C87_binary32 1024 1 (repeat None 1024) inp 10 ltac:(lia) Sm ltac:(auto) ltac:(unfold INT_MAX; lia) Lo ltac:(lia) ltac:(cbn; lia) ltac:(lia)) as (v & RV & E).
  exists v. split; [auto|]. change (Z.to_nat 1024) with 1024%nat in E. eapply Rle_trans; [exact E|]. change (1024 =? 2 ^ Z.of_nat 10)%Z with true. cbn iota.
  set (a := l2 1024 (spectrum 1 1024 inp)) in *. clearbody a. clear E RV. replace (INR 10) with 10 by (cbn; lra). replace (bpow radix2 (-24)) with (/ 16777216) by reflexivity.
  assert (bpow radix2 (-128) <= / 1000000000). { replace (/ 1000000000) with (/ 1000000000) by auto. apply Rle_trans with (bpow radix2 (-30)); [apply bpow_le; lia|]. cbn. lra. }
  assert (1024 * bpow radix2 (-128) <= 0.00001 * a) by lra. lra.
Qed.
