(* C112 The down-converter made by its constructor, in floating point *)
From Coq Require Import Reals ZArith Lra Lia List.
From Coquelicot Require Import Coquelicot.
From Flocq Require Import Core.
From Interval Require Import Tactic.
From Verif Require Import Model.Cdc Spec.Dft Spec.Bessel Spec.Fir Spec.ExactConst Spec.Rounding Proofs.KahanFloat Proofs.WinProofs Proofs.FirProofs Proofs.KaiserRound Proofs.CdcProofs Proofs.HilbertRound Proofs.CdcRound Proofs.CdcCoef Props.PCdcRound.
Import ListNotations.
Open Scope R_scope.

(** C112  Arithmetic of [prec] bits with gradual underflow below 2^emin, every operation rounded to nearest even, u = 2^-prec;
    overflow is not modelled.  The object made by the constructor from a Kaiser parameter |a| <= 3, TAPS = 4K+1 taps, samples bounded
    by B: with the Kaiser-windowed half-band filter h (1/2 in the middle, I0(Pi a sqrt(1 - (d/2K)^2)) / I0(Pi a) sin(Pi d/2) / (Pi d) at
    odd distances d, zero at even ones) output t is i times h applied to x_n exp(-i pi n/2) at sample 2t+1, x the interleaved inputs,
    up to an error of u B/2 + e in the real part and (1090 + 4K) u B sum_(i<K) 1/(Pi (2i+1)) + 4 K e in the imaginary part. *)
Theorem C112_constructed (emin prec : Z) (a : R) (K : nat) : let TAPS := (4 * Z.of_nat K + 1)%Z in (20 <= prec <= 64)%Z -> (emin <= - prec - 110)%Z -> Rabs a <= 3 ->
  (1 <= K)%nat -> (TAPS <= 2 ^ prec)%Z -> (16 * TAPS <= INT_MAX)%Z -> let rnd := FLTrnd emin prec in let u := ulp_u prec in let e := bpow radix2 (emin - 1) in
  exists h, (forall n, (0 <= n < TAPS)%Z -> let d := (n - 2 * Z.of_nat K)%Z in let q := IZR d / (2 * INR K) in
      if (d =? 0)%Z then h n = / 2 else if Z.even d then h n = 0 else
      exists x m, is_I0 (PI * a * sqrt (1 - q * q)) x /\ is_I0 (PI * a) m /\ h n = x / m * (sin (PI * IZR d / 2) / (PI * IZR d))) /\
  forall in0 in1 B t, (forall k, Rabs (in0 k) <= B /\ Rabs (in1 k) <= B) ->
  exists re im, oout (cdc_step (Fn rnd) TAPS) (cdc_new (Fn rnd) (uc_ptrig (Fn rnd)) TAPS a) (fun k => (in0 k, in1 k)) t = Ok (re, im) /\
    let y := (Ci * cfir TAPS h (fun n => RtoC (causal (interleave in0 in1) n) * cis (- (PI / 2) * IZR n)) (2 * Z.of_nat t + 1))%C in
    Rabs (re - Re y) <= u * B / 2 + e /\
    Rabs (im - Im y) <= (1090 + 4 * INR K) * u * B * Rsumn K (fun i => 1 / (PI * IZR (2 * Z.of_nat i + 1))) + 4 * INR K * e.
Proof.
  intros TAPS (Hp & H64) He Ha HK H1 H2 rnd u e. exists (hbk a K). assert (KP : 1 <= INR K) by (change 1 with (INR 1); apply le_INR; lia). split.
  { intros n Hn d q. unfold hbk. fold d. fold TAPS. destruct (d =? 0)%Z; [reflexivity|]. destruct (Z.even d); [reflexivity|].
    destruct (kaiser_at_spec emin prec Hp He a n TAPS Ha ltac:(unfold TAPS in *; repeat split; lia)) as (x & m & X & M & E & _). exists x, m. rewrite E. replace q with (kq n TAPS); auto.
    unfold kq, q, d, TAPS. replace (4 * Z.of_nat K + 1 - 1)%Z with (4 * Z.of_nat K)%Z by lia. rewrite minus_IZR, !mult_IZR, <- INR_IZR_INZ. field. lra. }
  intros in0 in1 B t Hx. pose proof (u_range prec Hp) as U. pose proof (e_range emin prec He) as E0. fold u in U, E0. fold e in E0.
  destruct (cdc_new_round emin prec Hp He H64 a K Ha HK H1 H2) as (imco & En & HL & Ic). fold TAPS rnd in En. fold u in Ic. rewrite En. clear En.
  set (c := fun i : Z => hbk a K (2 * Z.of_nat K + (2 * i + 1))). set (imco' := map (fun i => c (Z.of_nat i)) (seq 0 K)).
  assert (HL' : length imco' = K) by (unfold imco'; rewrite map_length, seq_length; reflexivity).
  assert (Ic' : forall i, (i < K)%nat -> nth i imco' 0 = c (Z.of_nat i)).
  { intros i Hi. unfold imco'. rewrite (nth_indep _ 0 (c (Z.of_nat 0))) by (rewrite map_length, seq_length; exact Hi). rewrite (map_nth (fun i => c (Z.of_nat i))), seq_nth by exact Hi. reflexivity. }
  set (x := fun k => (in0 k, in1 k)). assert (Hx' : forall k, Rabs (fst (x k)) <= B /\ Rabs (snd (x k)) <= B) by exact Hx.
  assert (B0 : 0 <= B) by (pose proof (Rabs_pos (in0 O)); pose proof (proj1 (Hx O)); lra).
  assert (HR : rounding u e rnd) by (intros z; apply (rnd_err emin prec Hp z)).
  destruct (C112_cdc rnd u e K imco (/ 2) B x t HR ltac:(lra) ltac:(lra) HK HL (Ku prec Hp K H1) Hx') as (re & im & re1 & im1 & F1 & F2 & F3 & F4).
  destruct (C112_coefficients K imco imco' (/ 2) (/ 2) B x t HK HL HL' Hx') as (re2 & im2 & re3 & im3 & G1 & G2 & G3 & G4).
  fold TAPS in F1, F2, G1, G2. rewrite F2 in G1. injection G1 as -> ->. exists re, im. split; [exact F1|].
  (* the exact filter is the convolution *)
  intros y. assert (Ey : y = (re3, im3)).
  { destruct (cdc_state Rn K HK imco' (/ 2) HL' x t) as [_ E]. cbv zeta in E. cbn [fst snd x] in E. fold TAPS in E. assert (E2 := eq_trans (eq_sym E) G2). injection E2 as <- <-. rewrite acc_Rn. replace (S (K - 1)) with K by lia. cbn [nmul nadd Rn].
    unfold y. refine (cdc_fold K t (hbk a K) (ico Rn imco') (/ 2) in0 in1 HK _ _ _).
    - unfold hbk. rewrite Z.sub_diag. reflexivity.
    - intros i Hi. assert (Ei : ico Rn imco' i = c i) by (unfold ico; rewrite Ic' by lia; f_equal; lia). rewrite Ei. split; [reflexivity|]. unfold c, hbk.
      replace (2 * Z.of_nat K + (2 * i + 1) - 2 * Z.of_nat K)%Z with (2 * i + 1)%Z by lia. replace (2 * Z.of_nat K - (2 * i + 1) - 2 * Z.of_nat K)%Z with (- (2 * i + 1))%Z by lia.
      replace (2 * i + 1 =? 0)%Z with false by (symmetry; apply Z.eqb_neq; lia). replace (- (2 * i + 1) =? 0)%Z with false by (symmetry; apply Z.eqb_neq; lia). rewrite Z.even_opp, Z.even_add, Z.even_mul. cbn [Z.even orb Bool.eqb].
      unfold kaiser_at. rewrite (kq_sym (2 * Z.of_nat K + (2 * i + 1)) (2 * Z.of_nat K - (2 * i + 1)) (4 * Z.of_nat K + 1)) by (unfold TAPS in *; repeat split; lia).
      set (k := kq _ _). replace (- k * - k) with (k * k) by ring. set (W := _ / _). rewrite opp_IZR. replace (PI * - IZR (2 * i + 1) / 2) with (- (PI * IZR (2 * i + 1) / 2)) by field. rewrite sin_neg.
      assert (Nz : IZR (2 * i + 1) <> 0) by (apply not_0_IZR; lia). pose proof PI_RGT_0. field. split; lra.
    - intros d Hd Ev Ne. unfold hbk. rewrite (proj2 (Z.eqb_neq _ 0)) by lia. rewrite Z.even_sub, Ev, Z.even_mul. reflexivity. }
  rewrite Ey. cbn [Re Im fst snd]. clear y Ey F1 F2 G2.
  set (C := fun i : nat => 1 / (PI * IZR (2 * Z.of_nat i + 1))). change (fun i : nat => 1 / (PI * IZR (2 * Z.of_nat i + 1))) with C. set (H := Rsumn K C).
  assert (LIN : forall k, Rsumn K (fun i => k * C i) = k * H). { intros k. unfold H. clear. induction K as [|n IH]; cbn [Rsumn]; [ring|]. rewrite IH. ring. }
  assert (S1 : Rsumn K (fun i => Rabs (nth i imco 0 - nth i imco' 0)) <= 540 * u * H).
  { rewrite <- LIN. apply Rsumn_le'. intros i Hi. rewrite Ic' by exact Hi. apply (Ic i Hi). }
  assert (S2 : Rsumn K (fun i => Rabs (nth i imco 0)) <= 1.001 * H).
  { rewrite <- LIN. apply Rsumn_le'. intros i Hi. destruct (Ic i Hi) as (D1 & D2 & D3). fold (C i) in D1, D2, D3. set (c0 := hbk a K _) in *. replace (nth i imco 0) with (c0 + (nth i imco 0 - c0)) by ring. eapply Rle_trans; [apply Rabs_triang|].
    assert (u * C i <= 1e-6 * C i) by (apply Rmult_le_compat_r; lra). lra. }
  assert (HB : 0 <= H <= INR K * (1 / 3)).
  { split. - replace 0 with (Rsumn K (fun _ => 0)) by (clear; induction K as [|k IH]; cbn [Rsumn]; lra). apply Rsumn_le'. intros i Hi. destruct (Ic i Hi) as (_ & _ & D3). fold (C i) in D3. lra.
    - replace (INR K * (1 / 3)) with (Rsumn K (fun _ => 1 / 3)) by (clear; induction K as [|k IH]; [cbn; lra|]; cbn [Rsumn]; rewrite IH, S_INR; ring). apply Rsumn_le'. intros i Hi. destruct (Ic i Hi) as (_ & _ & D3). exact (proj2 D3). }
  set (A := Rsumn K (fun i => Rabs (nth i imco 0))) in *. set (D := Rsumn K (fun i => Rabs (nth i imco 0 - nth i imco' 0))) in *. clearbody A D H. set (k := INR K) in *. clearbody k. clear LIN Ic Ic'.
  split.
  - replace (/ 2 - / 2) with 0 in G3 by ring. rewrite Rabs_R0 in G3. rewrite (Rabs_pos_eq (/ 2)) in F3 by lra. replace (re - re3) with ((re - re2) + (re2 - re3)) by ring. eapply Rle_trans; [apply Rabs_triang|]. lra.
  - replace (im - im3) with ((im - im2) + (im2 - im3)) by ring. eapply Rle_trans; [apply Rabs_triang|].
    assert (uB : 0 <= u * B) by (apply Rmult_le_pos; lra). assert (kuB : 0 <= k * (u * B)) by (apply Rmult_le_pos; lra).
    assert (T1 : (3 * k + 5) * u * B * A <= (3 * k + 5) * u * B * (1.001 * H)) by (apply Rmult_le_compat_l; lra).
    assert (T2 : 2 * B * D <= 2 * B * (540 * u * H)) by (apply Rmult_le_compat_l; lra).
    assert (T3 : (2 * A + 3 * k) * e <= 4 * k * e) by (apply Rmult_le_compat_r; lra).
    assert (T4 : 0 <= u * B * H) by (apply Rmult_le_pos; lra). assert (T5 : 0 <= k * (u * B * H)) by (apply Rmult_le_pos; lra). lra.
Qed.
Print Assumptions C112_constructed.

(** a case: binary32, 33 taps, a = 2, samples of at most 1: within 1e-4 of the filter *)
Example C112_constructed_case : let rnd := FLTrnd (-149) 24 in exists h, h 16%Z = / 2 /\ (forall in0 in1 t, (forall k, Rabs (in0 k) <= 1 /\ Rabs (in1 k) <= 1) ->
  exists re im, oout (cdc_step (Fn rnd) 33) (cdc_new (Fn rnd) (uc_ptrig (Fn rnd)) 33 2) (fun k => (in0 k, in1 k)) t = Ok (re, im) /\
    let y := (Ci * cfir 33 h (fun n => RtoC (causal (interleave in0 in1) n) * cis (- (PI / 2) * IZR n)) (2 * Z.of_nat t + 1))%C in Rabs (re - Re y) <= 1e-4 /\ Rabs (im - Im y) <= 1e-4).
Proof.
  intros rnd. destruct (C112_constructed (-149) 24 2 8 ltac:(lia) ltac:(lia) ltac:(rewrite Rabs_pos_eq; lra) ltac:(lia) ltac:(lia) ltac:(unfold INT_MAX; lia)) as (h & H1 & H2).
  exists h. split; [exact (H1 16%Z ltac:(lia))|]. intros in0 in1 t Hx. destruct (H2 in0 in1 1 t Hx) as (re & im & E & A & B). exists re, im. split; [exact E|]. intros y.
  assert (U : ulp_u 24 = / 16777216) by reflexivity. rewrite U in A, B.
  assert (E1 : bpow radix2 (-149 - 1) <= 1e-30) by (apply Rle_trans with (bpow radix2 (-100)); [apply bpow_le; lia|]; replace (bpow radix2 (-100)) with (/ IZR 1267650600228229401496703205376) by reflexivity; interval).
  assert (S8 : Rsumn 8 (fun i => 1 / (PI * IZR (2 * Z.of_nat i + 1))) <= 0.7) by (cbn [Rsumn]; cbn; interval).
  replace (INR 8) with 8 in B by (cbn; lra). set (s := Rsumn 8 _) in *. set (e := bpow radix2 (-149 - 1)) in *. clearbody s e. split; [eapply Rle_trans; [exact A|]; lra|eapply Rle_trans; [exact B|]; lra].
Qed.

(** C112  The real part, for samples that are numbers of the format: K calls later, with alternating sign, exactly half the sample of
    the second input; only where halving underflows is there an error, of at most half the smallest positive number. *)
Theorem C112_real_part (emin prec : Z) (a : R) (K : nat) (in0 in1 : nat -> R) (t : nat) : let TAPS := (4 * Z.of_nat K + 1)%Z in (20 <= prec <= 64)%Z -> (emin <= - prec - 110)%Z -> Rabs a <= 3 ->
  (1 <= K)%nat -> (TAPS <= 2 ^ prec)%Z -> (16 * TAPS <= INT_MAX)%Z -> (forall k, FLTfmt emin prec (in1 k)) -> let rnd := FLTrnd emin prec in
  exists re im, oout (cdc_step (Fn rnd) TAPS) (cdc_new (Fn rnd) (uc_ptrig (Fn rnd)) TAPS a) (fun k => (in0 k, in1 k)) t = Ok (re, im) /\
    if (t <? K)%nat then re = 0 else let x := (if Nat.even (t - K) then in1 (t - K)%nat else - in1 (t - K)%nat) in
    Rabs (re - x / 2) <= bpow radix2 (emin - 1) /\ (bpow radix2 (emin + prec) <= Rabs x -> re = x / 2).
Proof.
  intros TAPS (Hp & H64) He Ha HK H1 H2 Fx rnd. destruct (cdc_new_round emin prec Hp He H64 a K Ha HK H1 H2) as (imco & En & HL & _). fold TAPS rnd in En. rewrite En.
  destruct (cdc_state (Fn rnd) K HK imco (/ 2) HL (fun k => (in0 k, in1 k)) t) as [_ E]. cbv zeta in E. cbn [fst snd] in E. eexists _, _. split; [exact E|]. clear E. cbn [nmul Fn]. unfold alt at 1 2 3.
  destruct (Nat.ltb_spec t K) as [L|L].
  - replace (Z.of_nat t - Z.of_nat K <? 0)%Z with true by (symmetry; apply Z.ltb_lt; lia). cbn [n0 Fn]. rewrite Rmult_0_r. apply KaiserRound.rnd_0.
  - replace (Z.of_nat t - Z.of_nat K)%Z with (Z.of_nat (t - K)) by lia. replace (Z.of_nat (t - K) <? 0)%Z with false by (symmetry; apply Z.ltb_ge; lia). rewrite Nat2Z.id.
    replace (Z.even (Z.of_nat (t - K))) with (Nat.even (t - K)) by (rewrite <- Z.negb_odd, <- Nat.negb_odd; f_equal; apply eq_true_iff_eq; rewrite Nat.odd_spec, Z.odd_spec; split; intros [j Hj]; [exists (Z.of_nat j)|exists (Z.to_nat j)]; lia).
    cbn [nopp Fn]. set (x := if Nat.even (t - K) then _ else _). assert (F : FLTfmt emin prec x) by (unfold x; destruct (Nat.even _); [apply Fx|apply generic_format_opp, Fx]).
    destruct (halve_err emin prec x ltac:(lia) F) as (A & B). replace (x / 2) with (/ 2 * x) by lra. split; [exact A|exact B].
Qed.
Print Assumptions C112_real_part.
(** a case: binary32, 9 taps, the second input 1, 2, 3, ...: the third call gives 1/2 in the real part, the fourth -1 *)
Example C112_real_part_case (in0 : nat -> R) : let rnd := FLTrnd (-149) 24 in let s := oout (cdc_step (Fn rnd) 9) (cdc_new (Fn rnd) (uc_ptrig (Fn rnd)) 9 2) (fun k => (in0 k, IZR (Z.min (Z.of_nat k + 1) 100))) in
  (exists im, s 2%nat = Ok (/ 2, im)) /\ exists im, s 3%nat = Ok (-1, im).
Proof.
  intros rnd s. assert (F : forall k, FLTfmt (-149) 24 (IZR (Z.min (Z.of_nat k + 1) 100))) by (intros k; apply (fmt_Z (-149) 24); lia).
  assert (B1 : bpow radix2 (-149 + 24) <= 1) by (change 1 with (bpow radix2 0); apply bpow_le; lia).
  pose proof (fun t => C112_real_part (-149) 24 2 2 in0 (fun k => IZR (Z.min (Z.of_nat k + 1) 100)) t ltac:(lia) ltac:(lia) ltac:(rewrite Rabs_pos_eq; lra) ltac:(lia) ltac:(lia) ltac:(unfold INT_MAX; lia) F) as H. split.
  - destruct (H 2%nat) as (re & im & E & Q). cbn [Nat.ltb Nat.leb Nat.sub Nat.even] in Q. destruct Q as (_ & Q). exists im. unfold s. refine (eq_trans E _). do 2 f_equal. rewrite Q; [cbn; lra|]. change (Z.min (Z.of_nat 0 + 1) 100) with 1%Z. rewrite Rabs_R1. exact B1.
  - destruct (H 3%nat) as (re & im & E & Q). cbn [Nat.ltb Nat.leb Nat.sub Nat.even] in Q. destruct Q as (_ & Q). exists im. unfold s. refine (eq_trans E _). do 2 f_equal. change (Z.min (Z.of_nat 1 + 1) 100) with 2%Z in Q. rewrite Q; [lra|]. rewrite Rabs_Ropp, Rabs_pos_eq by lra. lra.
Qed.
