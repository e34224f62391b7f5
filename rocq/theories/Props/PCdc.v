(* Theorems about the Fs/4 down-converter (cdc.hh) and the Hilbert transformer (hilbert.hh) *)
From Coq Require Import Reals ZArith Lia Lra List.
From Coquelicot Require Import Coquelicot.
From Verif Require Import Model.Cdc Spec.Dft Spec.Fir Spec.ExactConst Proofs.BaseLemmas Proofs.ShiftProofs Proofs.ConstProofs Proofs.WinProofs Proofs.FirProofs Proofs.CdcProofs Props.PWinFun.
Import ListNotations.
Open Scope R_scope.

(** C50  For any coefficients: with the half-band filter h built from reco (middle) and imco (odd distances, symmetric),
    output t of CDC is i times h applied to x_n exp(-i pi n/2) at sample 2t+1, x = in0(0), in1(0), in0(1), in1(1), ... *)
Theorem C50_any (K : nat) (imco : list R) (reco : R) (in0 in1 : nat -> R) (t : nat) : (1 <= K)%nat -> length imco = K ->
  let TAPS := (4 * Z.of_nat K + 1)%Z in
  let h := fun n => let d := Z.abs (n - 2 * Z.of_nat K) in if (d =? 0)%Z then reco else if Z.even d then 0 else nth (Z.to_nat (d / 2)) imco 0 in
  oout (cdc_step Rc TAPS) (Ok (mkCdc (repeat 0 K) (repeat 0 (2 * K)) imco reco false)) (fun u => (in0 u, in1 u)) t =
  Ok (Ci * cfir TAPS h (fun n => RtoC (causal (interleave in0 in1) n) * cis (- (PI / 2) * IZR n)) (2 * Z.of_nat t + 1))%C.
Proof.
  intros HK HL TAPS h. destruct (cdc_state Rc K HK imco reco HL (fun u => (in0 u, in1 u)) t) as [_ E]. cbv zeta in E. cbn [fst snd] in E. etransitivity; [exact E|]. f_equal.
  rewrite acc_sum by reflexivity. replace (S (K - 1)) with K by lia. symmetry. cbn [nmul nadd Rc].
  refine (cdc_fold K t h (ico Rc imco) reco in0 in1 HK _ _ _).
  - unfold h. rewrite Z.sub_diag. reflexivity.
  - intros i Hi. unfold h, ico. replace (2 * Z.of_nat K + (2 * i + 1) - 2 * Z.of_nat K)%Z with (2 * i + 1)%Z by lia. replace (2 * Z.of_nat K - (2 * i + 1) - 2 * Z.of_nat K)%Z with (- (2 * i + 1))%Z by lia.
    rewrite Z.abs_opp, Z.abs_eq by lia. rewrite (proj2 (Z.eqb_neq (2 * i + 1) 0)) by lia. rewrite Z.even_add, Z.even_mul. cbn [Z.even xorb orb Bool.eqb]. replace ((2 * i + 1) / 2)%Z with i by (apply (Z.div_unique_pos _ _ _ 1); lia). split; reflexivity.
  - intros d Hd Ev Ne. unfold h. rewrite (proj2 (Z.eqb_neq _ 0)) by lia. assert (A : Z.even (Z.abs (d - 2 * Z.of_nat K)) = true).
    { apply Z.even_spec in Ev. destruct Ev as [k ->]. apply Z.even_spec. exists (Z.abs (k - Z.of_nat K)). lia. }
    rewrite A. reflexivity.
Qed.
Print Assumptions C50_any.
(** C50  The object made by the constructor: h is the Kaiser window times the half-band low-pass LowPass2(1, 4). *)
Theorem C50_cdc (K : nat) (a : R) : let TAPS := (4 * Z.of_nat K + 1)%Z in (1 <= K)%nat -> (16 * TAPS <= INT_MAX)%Z ->
  exists h, (forall n, (0 <= n < TAPS)%Z -> exists w b, win_kaiser Rc a n TAPS = Ok w /\ lowpass2 Rc exact_ptrig 1 4 n TAPS = Ok b /\ h n = w * b) /\
  forall in0 in1 t, oout (cdc_step Rc TAPS) (cdc_new Rc exact_ptrig TAPS a) (fun u => (in0 u, in1 u)) t =
  Ok (Ci * cfir TAPS h (fun n => RtoC (causal (interleave in0 in1) n) * cis (- (PI / 2) * IZR n)) (2 * Z.of_nat t + 1))%C.
Proof.
  intros TAPS HK HT. set (w := fun n => sum_f_R0 (Bessel.bessel_term (PI * a * sqrt (1 - kq n TAPS * kq n TAPS))) 34 / sum_f_R0 (Bessel.bessel_term (PI * a)) 34).
  set (b := fun n => 2 * (1 / 4) * rsinc (2 * (1 / 4) * fx n TAPS)). set (h := fun n => w n * b n).
  assert (W : forall n, (0 <= n < TAPS)%Z -> win_kaiser Rc a n TAPS = Ok (w n)) by (intros n Hn; apply kaiser_eq; repeat split; unfold TAPS in *; lia).
  assert (B : forall n, (0 <= n < TAPS)%Z -> lowpass2 Rc exact_ptrig 1 4 n TAPS = Ok (b n)).
  { intros n Hn. unfold INT_MAX, TAPS in *. apply lowpass2_eq; [split; unfold INT_MAX; lia|repeat split; unfold INT_MAX; lia]. }
  assert (C : forall n, (0 <= n < TAPS)%Z -> cdc_co Rc exact_ptrig TAPS a n = Ok (h n)) by (intros n Hn; unfold cdc_co; rewrite W, B by auto; reflexivity).
  assert (Sy : forall d, (0 <= d <= 2 * Z.of_nat K)%Z -> h (2 * Z.of_nat K - d)%Z = h (2 * Z.of_nat K + d)%Z).
  { intros d Hd. unfold h. f_equal.
    - unfold w. rewrite (kq_sym (2 * Z.of_nat K + d) (2 * Z.of_nat K - d) TAPS) by (unfold TAPS in *; repeat split; lia). do 6 f_equal. ring.
    - unfold b. replace (2 * Z.of_nat K - d)%Z with (TAPS - 1 - (2 * Z.of_nat K + d))%Z by (unfold TAPS; lia). rewrite fx_sym, Ropp_mult_distr_r_reverse, rsinc_opp. reflexivity. }
  exists h. split; [intros n Hn; exists (w n), (b n); auto|]. intros in0 in1 t.
  unfold cdc_new. pose proof (quarter_eq K HK : quarter TAPS = _) as Qe. pose proof (half_eq K HK : half TAPS = _) as He. rewrite Qe, He. rewrite C by (unfold TAPS; lia). cbn [bind].
  rewrite (ofill_spec _ (fun i => h (2 * i + 2 * Z.of_nat K + 1)%Z)) by (intros j Hj; apply C; unfold TAPS; lia). cbn [bind]. rewrite !Nat2Z.id.
  replace (Z.to_nat (2 * Z.of_nat K)) with (2 * K)%nat by lia. set (imco := wind _ 0 K).
  assert (HL : length imco = K) by apply wind_length.
  assert (Ic : forall i, (0 <= i < Z.of_nat K)%Z -> ico Rc imco i = h (2 * i + 2 * Z.of_nat K + 1)%Z).
  { intros i Hi. pose proof (ico_get Rc K HK imco HL i Hi) as Q. unfold imco in Q at 1. rewrite wind_get in Q by auto. injection Q as Q. rewrite <- Q. f_equal. }
  destruct (cdc_state Rc K HK imco (h (2 * Z.of_nat K)%Z) HL (fun u => (in0 u, in1 u)) t) as [_ E]. cbv zeta in E. cbn [fst snd] in E. etransitivity; [exact E|]. f_equal.
  rewrite acc_sum by reflexivity. replace (S (K - 1)) with K by lia. symmetry. cbn [nmul nadd Rc].
  refine (cdc_fold K t h (ico Rc imco) (h (2 * Z.of_nat K)%Z) in0 in1 HK _ _ _); [reflexivity| |].
  - intros i Hi. rewrite Ic by auto. rewrite Sy by lia. split; f_equal; lia.
  - intros d Hd Ev Ne. unfold h, b. apply Z.even_spec in Ev. destruct Ev as [k ->]. unfold fx, TAPS. replace (2 * (1 / 4) * (IZR (2 * k) - IZR (4 * Z.of_nat K + 1 - 1) / 2)) with (IZR (k - Z.of_nat K)).
    + rewrite rsinc_int by lia. ring.
    + replace (4 * Z.of_nat K + 1 - 1)%Z with (4 * Z.of_nat K)%Z by lia. rewrite minus_IZR, !mult_IZR. field.
Qed.
Print Assumptions C50_cdc.
(** C50  No array is overrun in any arithmetic: every call on an object with (TAPS-1)/4 coefficients succeeds. *)
Theorem C50_safe {T : Type} (M : num T) (K : nat) (imco : list T) (reco : T) (x : nat -> T * T) (t : nat) : (1 <= K)%nat -> length imco = K ->
  exists y, oout (cdc_step M (4 * Z.of_nat K + 1)) (Ok (mkCdc (repeat (n0 M) K) (repeat (n0 M) (2 * K)) imco reco false)) x t = Ok y.
Proof. intros HK HL. destruct (cdc_state M K HK imco reco HL x t) as [_ E]. eexists. exact E. Qed.
Print Assumptions C50_safe.
(** an impulse on in1 at call 0 shows up K calls later, in the real part *)
Example C50_example : oout (cdc_step Rc 5) (Ok (mkCdc [0] [0; 0] [7] 3 false)) (fun u => (0, if (u =? 0)%nat then 1 else 0)) 1 = Ok (3 * 1, 7 * (0 + - 0)).
Proof. reflexivity. Qed.

(** C51  For every TAPS = 4K+1 the real part is the input TAPS/2 + 1 samples ago, the imaginary part the convolution of
    the previous inputs with the Kaiser-windowed Hilbert kernel HilbertTransform(n, TAPS). *)
Theorem C51_hilbert (K : nat) (a : R) : let TAPS := (4 * Z.of_nat K + 1)%Z in (1 <= K)%nat -> (16 * TAPS <= INT_MAX)%Z ->
  exists h, (forall n, (0 <= n < TAPS)%Z -> exists w b, win_kaiser Rc a n TAPS = Ok w /\ hilbert_transform Rc n TAPS = Ok b /\ h n = w * b) /\
  forall x t, oout (hilbert_step Rc TAPS) (hilbert_new Rc TAPS a) x t =
  Ok (causal x (Z.of_nat t - 1 - (TAPS - 1) / 2), rfir TAPS h (causal x) (Z.of_nat t - 1)).
Proof.
  intros TAPS HK HT. set (w := fun n => sum_f_R0 (Bessel.bessel_term (PI * a * sqrt (1 - kq n TAPS * kq n TAPS))) 34 / sum_f_R0 (Bessel.bessel_term (PI * a)) 34).
  set (b := fun n => let x := (n - 2 * Z.of_nat K)%Z in if Z.odd x then 2 / (PI * IZR x) else 0). set (h := fun n => w n * b n). pose proof PI_RGT_0 as PP.
  assert (W : forall n, (0 <= n < TAPS)%Z -> win_kaiser Rc a n TAPS = Ok (w n)) by (intros n Hn; apply kaiser_eq; repeat split; unfold TAPS in *; lia).
  assert (B : forall n, (0 <= n < TAPS)%Z -> hilbert_transform Rc n TAPS = Ok (b n)).
  { intros n Hn. unfold INT_MAX, TAPS in *. unfold hilbert_transform. rewrite Z.odd_add, Z.odd_mul. cbn [Z.odd andb xorb]. rewrite ichk_ok by (unfold INT_MIN, INT_MAX; lia). cbn [bind].
    replace (Z.quot (4 * Z.of_nat K + 1 - 1) 2) with (2 * Z.of_nat K)%Z by (rewrite Z.quot_div_nonneg by lia; replace (4 * Z.of_nat K + 1 - 1)%Z with (2 * Z.of_nat K * 2)%Z by ring; rewrite Z.div_mul; lia).
    rewrite ichk_ok by (unfold INT_MIN, INT_MAX; lia). cbn [bind]. rewrite pi_rc. reflexivity. }
  assert (Sy : forall d, (0 <= d <= 2 * Z.of_nat K)%Z -> w (2 * Z.of_nat K - d)%Z = w (2 * Z.of_nat K + d)%Z).
  { intros d Hd. unfold w. rewrite (kq_sym (2 * Z.of_nat K + d) (2 * Z.of_nat K - d) TAPS) by (unfold TAPS in *; repeat split; lia). do 6 f_equal. ring. }
  assert (W0 : w (2 * Z.of_nat K)%Z = 1).
  { unfold w. rewrite kq_mid by (unfold TAPS in *; repeat split; lia). rewrite Rmult_0_l, Rminus_0_r, sqrt_1, Rmult_1_r. field. pose proof (bsum_ge1 (PI * a) 34). lra. }
  exists h. split; [intros n Hn; exists (w n), (b n); auto|]. intros x t.
  unfold hilbert_new. pose proof (quarter_eq K HK : quarter TAPS = _) as Qe. pose proof (half_eq K HK : half TAPS = _) as He. rewrite Qe, He. rewrite W by (unfold TAPS; lia). cbn [bind].
  set (g := fun i => w (2 * i + 1 + 2 * Z.of_nat K)%Z * 2 / (IZR (2 * i + 1) * PI)).
  rewrite (ofill_spec _ g) by (intros j Hj; unfold hilbert_co; rewrite He; rewrite W by (unfold TAPS; lia); cbn [bind]; rewrite pi_rc; reflexivity). cbn [bind]. rewrite !Nat2Z.id.
  replace (Z.to_nat TAPS) with (4 * K + 1)%nat by (unfold TAPS; lia). set (imco := wind _ 0 K).
  assert (HL : length imco = K) by apply wind_length.
  assert (Ic : forall i, (0 <= i < Z.of_nat K)%Z -> ico Rc imco i = g i).
  { intros i Hi. pose proof (ico_get Rc K HK imco HL i Hi) as Q. unfold imco in Q at 1. rewrite wind_get in Q by auto. injection Q as Q. rewrite <- Q. f_equal. }
  destruct (hilbert_state Rc K HK imco (w (2 * Z.of_nat K)%Z) HL x t) as [_ E]. cbv zeta in E. etransitivity; [exact E|]. f_equal.
  rewrite acc_sum by reflexivity. replace (S (K - 1)) with K by lia. cbn [nmul nadd nsub Rc]. rewrite W0, Rmult_1_l.
  replace ((TAPS - 1) / 2)%Z with (2 * Z.of_nat K)%Z by (symmetry; apply half_eq; auto). f_equal. change (zext Rc x) with (causal x).
  rewrite <- (hilbert_fold K h (ico Rc imco) (causal x) (Z.of_nat t - 1 - 2 * Z.of_nat K) HK); [f_equal; lia| |].
  - intros i Hi. rewrite Ic by auto. assert (O : forall z, Z.odd (2 * z + 1) = true) by (intros z; rewrite Z.odd_add, Z.odd_mul; reflexivity). assert (Nz : IZR (2 * i + 1) <> 0) by (apply not_0_IZR; lia).
    unfold h, g, b. rewrite Sy by lia. replace (2 * Z.of_nat K + (2 * i + 1) - 2 * Z.of_nat K)%Z with (2 * i + 1)%Z by lia. replace (2 * Z.of_nat K - (2 * i + 1) - 2 * Z.of_nat K)%Z with (- (2 * i + 1))%Z by lia.
    rewrite Z.odd_opp, O, opp_IZR. replace (2 * Z.of_nat K + (2 * i + 1))%Z with (2 * i + 1 + 2 * Z.of_nat K)%Z by lia. split; field; split; auto; lra.
  - intros d Hd Ev. unfold h, b. assert (A : Z.odd (d - 2 * Z.of_nat K) = false) by (rewrite <- Z.negb_even, Z.even_sub, Ev, Z.even_mul; reflexivity). rewrite A. ring.
Qed.
Print Assumptions C51_hilbert.
Theorem C51_safe {T : Type} (M : num T) (K : nat) (imco : list T) (reco : T) (x : nat -> T) (t : nat) : (1 <= K)%nat -> length imco = K ->
  exists y, oout (hilbert_step M (4 * Z.of_nat K + 1)) (Ok (mkHilbert (repeat (n0 M) (4 * K + 1)) imco reco)) x t = Ok y.
Proof. intros HK HL. destruct (hilbert_state M K HK imco reco HL x t) as [_ E]. eexists. exact E. Qed.
Print Assumptions C51_safe.
Example C51_example : oout (hilbert_step Rc 5) (Ok (mkHilbert [0; 0; 0; 0; 0] [7] 3)) (fun u => if (u =? 0)%nat then 1 else 0) 3 = Ok (3 * 1, 7 * (0 - 0)) /\
  oout (hilbert_step Rc 5) (Ok (mkHilbert [0; 0; 0; 0; 0] [7] 3)) (fun u => if (u =? 0)%nat then 1 else 0) 4 = Ok (3 * 0, 7 * (1 - 0)).
Proof. split; reflexivity. Qed.
