(* Property C109: rounding error of frequency domain zero padding *)
From Coq Require Import Reals ZArith Lia Lra List Psatz.
From Coquelicot Require Import Complex.
From Flocq Require Import Core.
From Verif Require Import Proofs.BaseLemmas Spec.Dft Spec.Norm Spec.Rounding Model.Fft Model.UnitCircle Model.Fdzp Proofs.FftAlg Proofs.FftSplit Proofs.FftProofs Proofs.FftRound Proofs.FftL2 Proofs.FdzpProofs Proofs.FdzpRound Props.PFftRound Props.PFftL2.
Import ListNotations.
Open Scope R_scope.

(** roundings on the way through a transform of BINS <= 2^m bins (C87) *)
Definition depth (BINS : Z) (m : nat) : nat := if (BINS =? 2 ^ Z.of_nat m)%Z then (34 * m)%nat else (240 * m)%nat.

(** C109: one call.  Every operation rounded with relative error u and absolute error e near zero, tables with error t:
    the call is defined, leaves the zeros of tmp in place, writes OUTPUT cells, and these are the samples of a
    trigonometric polynomial through the input samples (the exact result, C31) up to the factor (1+h)^d - 1 of
    sqrt(OUTPUT/INPUT) times the norm of the input *)
Theorem C109_error (u e t h X : R) (rnd : R -> R) (tr : trig R) (OUTPUT INPUT : Z) (tmp output : list (option C)) (input : list C) (mi mo : nat) :
  0 <= u -> 0 <= e -> rounding u e rnd -> rnd 1 = 1 -> rnd (-1) = -1 -> rnd (1/2) = 1/2 -> rnd (IZR INPUT) = IZR INPUT -> 0 < X -> tables t tr OUTPUT ->
  t <= h -> u + 2 * e / X <= h -> u * (1 + t) + e <= h -> u + IZR INPUT * e <= h ->
  (0 < INPUT)%Z -> (INPUT mod 2 = 0)%Z -> (3 * INPUT <= 2 * OUTPUT)%Z -> smooth31 INPUT -> smooth31 OUTPUT ->
  zeroed OUTPUT INPUT tmp -> (OUTPUT <= zlen output)%Z -> (INPUT <= zlen input)%Z -> (INPUT <= 2 ^ Z.of_nat mi)%Z -> (OUTPUT <= 2 ^ Z.of_nat mo)%Z ->
  let hn := Z.to_nat (INPUT / 2) in
  exists (tmp' output' : list (option C)) (z : nat -> C) (c : Z -> C), fdzp (Fn rnd) tr OUTPUT INPUT tmp output input = Ok (tmp', output') /\
    zeroed OUTPUT INPUT tmp' /\ zlen output' = zlen output /\ (forall m, (OUTPUT <= m)%Z -> znth output' m = znth output m) /\
    (forall m, (m < Z.to_nat OUTPUT)%nat -> znth output' (Z.of_nat m) = Some (Some (z m))) /\
    c (INPUT / 2)%Z = c (- (INPUT / 2))%Z /\ (forall n, (0 <= n < INPUT)%Z -> znth input n = Some (trigpoly hn c (IZR n / IZR INPUT))) /\
    l2 (Z.to_nat OUTPUT) (fun m => z m - trigpoly hn c (INR m / IZR OUTPUT))%C <=
      ((1 + h) ^ (depth INPUT mi + depth OUTPUT mo + 3) - 1) * (sqrt (IZR OUTPUT) / sqrt (IZR INPUT) * l2 (Z.to_nat INPUT) (fun n => nth n input (RtoC 0)) + 4 * IZR OUTPUT * X).
Proof.
  intros Hu He Hr R1 R2 R3 R4 HX HT Ht H1 H2 H3 HI Hev H32 SI SO Zt Lo Li Hmi Hmo hn.
  assert (EI : (INPUT = 2 * (INPUT / 2))%Z) by (apply Z_div_exact_full_2; lia). assert (Eh : Z.of_nat hn = (INPUT / 2)%Z) by (unfold hn; lia).
  assert (E2h : Z.to_nat INPUT = (2 * hn)%nat) by lia. assert (H2e : 0 <= 2 * e / X) by (apply Rmult_le_pos; [lra|apply Rlt_le, Rinv_0_lt_compat; auto]). assert (Hh : 0 <= h) by lra.
  assert (HTi : tables t tr INPUT). { destruct HT as [T1 T2]. split; [|auto]. intros n M Hn HM. apply T1; auto. lia. }
  set (x := fun n => nth n input (RtoC 0)).
  destruct (C87_rounding_error u e t h X rnd tr INPUT (-1) tmp input mi) as (v & (t1 & E1 & L1 & U1 & V1) & B1); auto. { destruct Zt. lia. }
  set (O := Z.to_nat OUTPUT) in *. set (y := cscale_eq (Fn rnd) (v hn) (nlit (Fn rnd) (1/2))). set (T' := Tv hn v y O).
  assert (LT : zlen (map T' (seq 0 O)) = OUTPUT) by (unfold zlen; rewrite map_length, seq_length; unfold O; lia).
  destruct (C87_rounding_error u e t h X rnd tr OUTPUT 1 output (map T' (seq 0 O)) mo) as (w & (o1 & E5 & L5 & U5 & V5) & B2); auto; try lia.
  destruct (fdzp_run rnd tr OUTPUT INPUT tmp output t1 input v w HI Hev H32 Zt Lo E1 L1 U1 V1) as (tmp' & output' & E & Z' & L' & U' & V').
  { exists o1. auto. }
  set (sc := ndiv (Fn rnd) (nofZ (Fn rnd) 1) (nofZ (Fn rnd) INPUT)) in *.
  exists tmp', output', (fun m => cscale_eq (Fn rnd) (w m) sc), (ck hn x). splits; auto.
  - rewrite <- Eh. apply ck_sym. lia.
  - intros n Hn. pose proof (ck_interp hn ltac:(lia) x (Z.to_nat n) ltac:(lia)) as Q. rewrite !INR_IZR_INZ in Q.
    replace (Z.of_nat (2 * hn)) with INPUT in Q by lia. rewrite Z2Nat.id in Q by lia. rewrite Q. unfold x. rewrite znth_nonneg by lia. apply nth_error_nth'. unfold zlen in Li. lia.
  - assert (EO : INR O = IZR OUTPUT) by (unfold O; rewrite INR_IZR_INZ, Z2Nat.id by lia; auto). assert (Ei : INR (2 * hn) = IZR INPUT) by (rewrite <- E2h, INR_IZR_INZ, Z2Nat.id by lia; auto).
    assert (I0 : 0 < IZR INPUT) by (apply IZR_lt; auto).
    assert (RC : forall (a : R) (b : C), Cmod (cscale_eq (Fn rnd) b a - RtoC a * b)%C <= h * (Cmod (RtoC a * b)%C + X)).
    { intros a b. replace (cscale_eq (Fn rnd) b a) with (rndc rnd (RtoC a * b)%C). { apply (rndc_err u e X h rnd Hu He Hr HX H1); [lra|]. pose proof (Cmod_ge_0 (RtoC a * b)%C). lra. }
      destruct b as [b1 b2]. unfold rndc, cscale_eq, Complex.cscale. cbn. f_equal; f_equal; ring. }
    pose proof (fdzp_err hn O (depth INPUT mi) (depth OUTPUT mo) h X sc x v w (fun m => cscale_eq (Fn rnd) (w m) sc) y ltac:(lia) ltac:(lia) Hh HX) as F.
    rewrite EO, Ei, <- E2h in F. unfold spectrum in B1, B2. fold x in B1.
    assert (G : forall A B : R, A = B -> A <= B) by (intros; lra).
    eapply Rle_trans; [|apply F].
    + apply G. apply nr_ext. intros k Hk. f_equal. f_equal. f_equal. rewrite <- EO. rewrite <- (padded_poly hn ltac:(lia) x O k ltac:(lia)). rewrite Ei. f_equal. apply DFT_ext. intros j Hj. rewrite Tj_Tv by lia. rewrite E2h. reflexivity.
    + pose proof (cn_parseval (-1) (Z.to_nat INPUT) x ltac:(auto) ltac:(lia)) as PV. rewrite INR_IZR_INZ, Z2Nat.id in PV by lia. unfold l2 in B1. unfold cn in PV. unfold nr. rewrite <- PV. exact B1.
    + unfold y. cbn [nlit Fn]. rewrite R3. apply RC.
    + assert (Ny : forall k, (k < O)%nat -> nth k (map T' (seq 0 O)) (RtoC 0) = T' k).
      { intros k Hk. rewrite (nth_indep _ _ (T' 0%nat)) by (rewrite map_length, seq_length; lia). rewrite map_nth, seq_nth by lia. auto. }
      assert (DE : forall k, DFT 1 O (fun n => nth n (map T' (seq 0 O)) (RtoC 0)) k = DFT 1 O T' k) by (intros; apply DFT_ext; exact Ny).
      pose proof (cn_parseval 1 O T' ltac:(auto) ltac:(lia)) as PV. rewrite EO in PV. change (l2 O (DFT 1 O T') = sqrt (IZR OUTPUT) * nr O (fun k => Cmod (T' k))) in PV.
      fold T'. rewrite <- PV. fold O in B2. replace (nr O (fun k => Cmod (w k - DFT 1 O T' k)%C)) with (l2 O (fun k => w k - DFT 1 O (fun n => nth n (map T' (seq 0 O)) (RtoC 0)) k)%C).
      2:{ apply nr_ext. intros k Hk. rewrite DE. reflexivity. }
      replace (l2 O (DFT 1 O T')) with (l2 O (fun k => DFT 1 O (fun n => nth n (map T' (seq 0 O)) (RtoC 0)) k)); [exact B2|]. apply nr_ext. intros k Hk. rewrite DE. reflexivity.
    + intros m Hm. apply RC.
    + unfold sc. cbn [ndiv nofZ Fn]. rewrite R1, R4. unfold Rdiv. rewrite Rmult_1_l. pose proof (Hr (/ IZR INPUT)) as Q. assert (i0 : 0 < / IZR INPUT) by (apply Rinv_0_lt_compat; auto). rewrite (Rabs_pos_eq (/ IZR INPUT)) in Q by lra. eapply Rle_trans; [exact Q|].
      assert ((u + IZR INPUT * e) * / IZR INPUT <= h * / IZR INPUT) by (apply Rmult_le_compat_r; lra). replace ((u + IZR INPUT * e) * / IZR INPUT) with (u * / IZR INPUT + e) in H by (field; lra). auto.
Qed.
Print Assumptions C109_error.

(** the output r of a call: nothing written beyond OUTPUT cells, and these are the samples of a trigonometric
    polynomial through the input, up to eps (sqrt(OUTPUT/INPUT) ||input|| + tiny) in the Euclidean norm *)
Definition pads (eps tiny : R) (OUTPUT INPUT : Z) (call : list (option C) * list C) (r : list (option C)) : Prop :=
  zlen r = zlen (fst call) /\ (forall m, (OUTPUT <= m)%Z -> znth r m = znth (fst call) m) /\
  exists (z : nat -> C) (c : Z -> C), (forall m, (m < Z.to_nat OUTPUT)%nat -> znth r (Z.of_nat m) = Some (Some (z m))) /\
    c (INPUT / 2)%Z = c (- (INPUT / 2))%Z /\ (forall n, (0 <= n < INPUT)%Z -> znth (snd call) n = Some (trigpoly (Z.to_nat (INPUT / 2)) c (IZR n / IZR INPUT))) /\
    l2 (Z.to_nat OUTPUT) (fun m => z m - trigpoly (Z.to_nat (INPUT / 2)) c (INR m / IZR OUTPUT))%C <=
      eps * (sqrt (IZR OUTPUT) / sqrt (IZR INPUT) * l2 (Z.to_nat INPUT) (fun n => nth n (snd call) (RtoC 0)) + tiny).

(** any sequence of calls on one object, with the tables UnitCircle computes in the same arithmetic *)
Lemma calls_uc p q Xmin (rnd : R -> R) (OUTPUT INPUT : Z) (mi mo : nat) :
  (-1080 <= q)%Z -> (q <= p - 30)%Z -> (-53 <= p <= -24)%Z -> Xmin = (q - p - 2)%Z -> rounding (bpow radix2 p) (bpow radix2 q) rnd -> rnd 1 = 1 -> rnd (-1) = -1 -> rnd (1/2) = 1/2 -> rnd (IZR INPUT) = IZR INPUT ->
  (0 < INPUT)%Z -> (INPUT mod 2 = 0)%Z -> (3 * INPUT <= 2 * OUTPUT)%Z -> smooth31 INPUT -> smooth31 OUTPUT -> (8 * OUTPUT <= INT_MAX)%Z ->
  (INPUT <= 2 ^ Z.of_nat mi)%Z -> (OUTPUT <= 2 ^ Z.of_nat mo)%Z -> (mi <= 28)%nat -> (mo <= 28)%nat ->
  forall calls tmp, zeroed OUTPUT INPUT tmp -> Forall (fun c : list (option C) * list C => (OUTPUT <= zlen (fst c))%Z /\ (INPUT <= zlen (snd c))%Z) calls ->
  exists res, fdzp_calls (Fn rnd) (uc_trig (Fn rnd)) OUTPUT INPUT tmp calls = Ok res /\
    Forall2 (pads (10 * INR (depth INPUT mi + depth OUTPUT mo + 3) * bpow radix2 p) (4 * IZR OUTPUT * bpow radix2 Xmin) OUTPUT INPUT) calls res.
Proof.
  intros H1 H2 H3 H4 Hr R1 R2 R3 R4 HI Hev H32 SI SO HM Hmi Hmo M1 M2.
  destruct (fmt_range p q) as [Hu He]; try lia. pose proof (uc_tables p q rnd OUTPUT H1 H2 H3 Hr HM) as HT. set (u := bpow radix2 p) in *. set (e := bpow radix2 q) in *.
  pose proof (bpow_gt_0 radix2 Xmin) as X0. assert (e0 : 0 < e) by apply bpow_gt_0.
  assert (EX : 2 * e / bpow radix2 Xmin <= 8 * u).
  { unfold Rdiv. rewrite <- bpow_opp. change 2 with (bpow radix2 1). change 8 with (bpow radix2 3). unfold e, u. rewrite <- !bpow_plus. apply bpow_le. lia. }
  assert (IE : IZR INPUT * e <= u).
  { apply Rle_trans with (bpow radix2 30 * e). { apply Rmult_le_compat_r; [lra|]. change (bpow radix2 30) with (IZR 1073741824). apply IZR_le. unfold INT_MAX in HM. lia. } unfold e, u. rewrite <- bpow_plus. apply bpow_le. lia. }
  set (D := (depth INPUT mi + depth OUTPUT mo + 3)%nat).
  assert (D1 : INR D <= 13443). { rewrite INR_IZR_INZ. apply IZR_le. unfold D, depth. destruct (_ =? _)%Z, (_ =? _)%Z; lia. }
  assert (u24 : u <= / 16777216) by (replace (/ 16777216) with (bpow radix2 (-24)) by reflexivity; apply bpow_le; lia).
  assert (u0 : 0 < u) by apply bpow_gt_0. pose proof (pos_INR D) as D0.
  assert (EP : (1 + 9 * u) ^ D - 1 <= 10 * INR D * u).
  { assert (w0 : 0 <= INR D * u) by (apply Rmult_le_pos; lra). assert (w1 : INR D * u <= 13443 * / 16777216) by (apply Rmult_le_compat; lra).
    pose proof (pow1h (9 * u) D ltac:(lra)) as Q. replace (INR D * (9 * u)) with (9 * (INR D * u)) in Q by ring. specialize (Q ltac:(lra)).
    replace (10 * INR D * u) with (10 * (INR D * u)) by ring. set (w := INR D * u) in *. clearbody w. assert (9 * w * (9 * w) <= 9 * w * (1 / 100)) by (apply Rmult_le_compat_l; lra). lra. }
  assert (HU : u * (1 + 8.5 * u) + e <= 9 * u). { assert (u * u <= u * (1 / 10000000)) by (apply Rmult_le_compat_l; lra). lra. }
  induction calls as [|[o inp] calls IH]; intros tmp Ht HF; [exists []; split; auto|].
  inversion HF as [|? ? [F1 F2] HF']; subst. cbn [fst snd] in *. cbn [fdzp_calls].
  destruct (C109_error u e (8.5 * u) (9 * u) (bpow radix2 (q - p - 2)) rnd (uc_trig (Fn rnd)) OUTPUT INPUT tmp o inp mi mo) as (t' & o' & z & c & E & Z' & L' & U' & V' & C1 & C2 & B); auto; try lra.
  change (cplx R) with C. rewrite E. cbn [bind]. destruct (IH t' Z' HF') as (res & E' & F). change (cplx R) with C in *. rewrite E'. cbn [bind]. exists (o' :: res). split; auto. constructor; auto.
  unfold pads. cbn [fst snd]. splits; auto. exists z, c. splits; auto. eapply Rle_trans; [exact B|]. apply Rmult_le_compat_r; [|exact EP].
  assert (0 <= IZR OUTPUT) by (apply IZR_le; lia). apply Rplus_le_le_0_compat; [apply Rmult_le_pos; [apply Rmult_le_pos; [apply sqrt_pos|]|apply sqrt_pos]|apply Rmult_le_pos; [lra|lra]].
  apply Rlt_le, Rinv_0_lt_compat, sqrt_lt_R0, IZR_lt. lia.
Qed.
Lemma new_zeroed rnd OUTPUT INPUT : (0 <= INPUT)%Z -> (0 <= OUTPUT)%Z -> zeroed OUTPUT INPUT (fdzp_new (Fn rnd) OUTPUT).
Proof. exact (fdzp_new_zeroed OUTPUT INPUT). Qed.

(** FrequencyDomainZeroPadding<OUTPUT, INPUT, Complex<double>> and <Complex<float>>; a float INPUT has to be one of
    the integers a float can hold *)
Theorem C109_binary64 (OUTPUT INPUT : Z) (mi mo : nat) (calls : list (list (option C) * list C)) :
  (0 < INPUT)%Z -> (INPUT mod 2 = 0)%Z -> (3 * INPUT <= 2 * OUTPUT)%Z -> smooth31 INPUT -> smooth31 OUTPUT -> (8 * OUTPUT <= INT_MAX)%Z ->
  (INPUT <= 2 ^ Z.of_nat mi)%Z -> (OUTPUT <= 2 ^ Z.of_nat mo)%Z -> (mi <= 28)%nat -> (mo <= 28)%nat ->
  Forall (fun c => (OUTPUT <= zlen (fst c))%Z /\ (INPUT <= zlen (snd c))%Z) calls ->
  exists res, fdzp_calls (Fn rnd64) (uc_trig (Fn rnd64)) OUTPUT INPUT (fdzp_new (Fn rnd64) OUTPUT) calls = Ok res /\
    Forall2 (pads (10 * INR (depth INPUT mi + depth OUTPUT mo + 3) * bpow radix2 (-53)) (4 * IZR OUTPUT * bpow radix2 (-1024)) OUTPUT INPUT) calls res.
Proof.
  intros. apply (calls_uc (-53) (-1075) (-1024)); auto; try lia.
  - exact fmt64.
  - change 1 with (bpow radix2 0). apply round_generic; [typeclasses eauto|]. apply generic_format_bpow. unfold FLT_exp. lia.
  - replace (-1) with (- bpow radix2 0) by (cbn; lra). apply round_generic; [typeclasses eauto|]. apply generic_format_opp, generic_format_bpow. unfold FLT_exp. lia.
  - replace (1/2) with (bpow radix2 (-1)) by (cbn; lra). apply round_generic; [typeclasses eauto|]. apply generic_format_bpow. unfold FLT_exp. lia.
  - apply round_generic; [typeclasses eauto|]. apply generic_format_FLT. exists (Float radix2 INPUT 0); cbn -[Z.pow]; [unfold F2R; cbn; ring|unfold INT_MAX in *; lia|lia].
  - apply new_zeroed; lia.
Qed.
Print Assumptions C109_binary64.
Theorem C109_binary32 (OUTPUT INPUT : Z) (mi mo : nat) (calls : list (list (option C) * list C)) :
  (0 < INPUT)%Z -> (INPUT mod 2 = 0)%Z -> (3 * INPUT <= 2 * OUTPUT)%Z -> smooth31 INPUT -> smooth31 OUTPUT -> (8 * OUTPUT <= INT_MAX)%Z -> (INPUT < 2 ^ 24)%Z ->
  (INPUT <= 2 ^ Z.of_nat mi)%Z -> (OUTPUT <= 2 ^ Z.of_nat mo)%Z -> (mi <= 28)%nat -> (mo <= 28)%nat ->
  Forall (fun c => (OUTPUT <= zlen (fst c))%Z /\ (INPUT <= zlen (snd c))%Z) calls ->
  exists res, fdzp_calls (Fn rnd32) (uc_trig (Fn rnd32)) OUTPUT INPUT (fdzp_new (Fn rnd32) OUTPUT) calls = Ok res /\
    Forall2 (pads (10 * INR (depth INPUT mi + depth OUTPUT mo + 3) * bpow radix2 (-24)) (4 * IZR OUTPUT * bpow radix2 (-128)) OUTPUT INPUT) calls res.
Proof.
  intros. apply (calls_uc (-24) (-150) (-128)); auto; try lia.
  - exact fmt32.
  - change 1 with (bpow radix2 0). apply round_generic; [typeclasses eauto|]. apply generic_format_bpow. unfold FLT_exp. lia.
  - replace (-1) with (- bpow radix2 0) by (cbn; lra). apply round_generic; [typeclasses eauto|]. apply generic_format_opp, generic_format_bpow. unfold FLT_exp. lia.
  - replace (1/2) with (bpow radix2 (-1)) by (cbn; lra). apply round_generic; [typeclasses eauto|]. apply generic_format_bpow. unfold FLT_exp. lia.
  - apply round_generic; [typeclasses eauto|]. apply generic_format_FLT. exists (Float radix2 INPUT 0); cbn -[Z.pow]; [unfold F2R; cbn; ring|lia|lia].
  - apply new_zeroed; lia.
Qed.
Print Assumptions C109_binary32.

(** 1024 complex floats doubled to 2048 *)
Example C109_case (input : list C) : zlen input = 1024%Z ->
  exists res, fdzp_calls (Fn rnd32) (uc_trig (Fn rnd32)) 2048 1024 (fdzp_new (Fn rnd32) 2048) [(repeat None 2048, input)] = Ok res /\
    Forall2 (pads (10 * 717 * bpow radix2 (-24)) (4 * 2048 * bpow radix2 (-128)) 2048 1024) [(repeat None 2048, input)] res.
Proof.
  intros L. assert (Sm : smooth31 1024). { change 1024%Z with (8 * (8 * (8 * 2)))%Z. repeat apply smooth_mul; apply smooth_radix; cbn; auto 20. }
  assert (So : smooth31 2048). { change 2048%Z with (2 * 1024)%Z. apply smooth_mul; [apply smooth_radix; cbn; auto 20|auto]. }
  destruct (C109_binary32 2048 1024 10 11 [(repeat None 2048, input)]) as (res & E & F); auto; try lia; try (unfold INT_MAX; lia); try reflexivity.
  - constructor; [|constructor]. cbn [fst snd]. split; [vm_compute; discriminate|lia].
  - exists res. split; auto. replace (INR (depth 1024 10 + depth 2048 11 + 3)) with 717 in F by (rewrite INR_IZR_INZ; reflexivity). exact F.
Qed.
