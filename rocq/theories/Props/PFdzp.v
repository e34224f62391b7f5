(* C31-C32: frequency domain zero padding *)
From Coq Require Import Reals ZArith Znumtheory Lia Lra List.
From Coquelicot Require Import Complex.
From Verif Require Import Proofs.BaseLemmas Spec.Dft Model.Fft Model.Fdzp
  Proofs.FftAlg Proofs.FftSplit Proofs.FftKernels Proofs.FftProofs Proofs.FftInverse Proofs.FdzpProofs.
Import ListNotations.
Open Scope Z_scope.

(** ** C31 *)
(** Every call in every sequence of calls on one object stores the samples of a trigonometric polynomial of
    degree INPUT/2 with equal end coefficients that passes through the input of that call. *)
Theorem C31_interpolates :
  forall (OUTPUT INPUT : Z) (calls : list (list (option C) * list C)),
  0 < INPUT -> INPUT mod 2 = 0 -> 3 * INPUT <= 2 * OUTPUT -> smooth31 INPUT -> smooth31 OUTPUT ->
  Forall (fun c => OUTPUT <= zlen (fst c) /\ INPUT <= zlen (snd c)) calls ->
  let h := Z.to_nat (INPUT / 2) in
  exists res : list (list (option C)), fdzp_calls Rn exact_trig OUTPUT INPUT (fdzp_new Rn OUTPUT) calls = Ok res /\
    Forall2 (fun (call : list (option C) * list C) (r : list (option C)) =>
      zlen r = zlen (fst call) /\ (forall m, OUTPUT <= m -> znth r m = znth (fst call) m) /\
      exists c : Z -> C, c (INPUT / 2) = c (- (INPUT / 2)) /\
        (forall n, 0 <= n < INPUT -> znth (snd call) n = Some (trigpoly h c (IZR n / IZR INPUT)%R)) /\
        (forall m, 0 <= m < OUTPUT -> znth r m = Some (Some (trigpoly h c (IZR m / IZR OUTPUT)%R)))) calls res.
Proof.
  intros OUTPUT INPUT calls HI He HR SI SO HF h.
  destruct (fdzp_calls_even OUTPUT INPUT HI He HR SI SO calls (fdzp_new Rn OUTPUT)) as (res & E & F); auto.
  { apply fdzp_new_zeroed; lia. }
  exists res. split; auto.
  assert (EI : INPUT = 2 * (INPUT / 2)) by (apply Z_div_exact_full_2; lia).
  assert (Eh : Z.of_nat h = INPUT / 2) by (unfold h; lia).
  revert HF. clear E. induction F as [|[o i] r calls res (L & U & V) F IH]; intros HF; constructor; [|apply IH; now inversion HF].
  inversion HF as [|? ? [H1 H2] _]; subst. cbn [fst snd] in *. splits; auto. fold h in V.
  exists (ck h (fun n => nth n i (RtoC 0))). splits; auto.
  - rewrite <- Eh. apply ck_sym. lia.
  - intros n Hn. pose proof (ck_interp h ltac:(lia) (fun n => nth n i (RtoC 0)) (Z.to_nat n) ltac:(lia)) as I. rewrite !INR_IZR_INZ in I.
    replace (Z.of_nat (2 * h)) with INPUT in I by lia. rewrite Z2Nat.id in I by lia. rewrite I.
    rewrite znth_nonneg by lia. apply nth_error_nth'. unfold zlen in H2. lia.
Qed.
Print Assumptions C31_interpolates.

(** There is only one such polynomial, so the outputs are determined by the input. *)
Theorem C31_polynomial_unique :
  forall (h : nat) (c c' : Z -> C), (0 < h)%nat -> c (Z.of_nat h) = c (- Z.of_nat h) -> c' (Z.of_nat h) = c' (- Z.of_nat h) ->
  (forall n, (n < 2 * h)%nat -> trigpoly h c (INR n / INR (2 * h))%R = trigpoly h c' (INR n / INR (2 * h))%R) ->
  forall t, trigpoly h c t = trigpoly h c' t.
Proof.
  intros h c c' Hh Hs Hs' HE t. apply trigpoly_ext. intros k Hk.
  pose (x := fun n : nat => trigpoly h c' (INR n / INR (2 * h))%R).
  rewrite (ck_unique h Hh x c Hs) by (auto; intros n Hn; apply HE; lia).
  symmetry. apply (ck_unique h Hh x c' Hs'); auto.
Qed.
Print Assumptions C31_polynomial_unique.

(** Real input gives real output; when INPUT divides OUTPUT the input samples appear in the output. *)
Theorem C31_real_and_samples :
  forall (OUTPUT INPUT : Z) (output : list (option C)) (input : list C),
  0 < INPUT -> INPUT mod 2 = 0 -> 3 * INPUT <= 2 * OUTPUT -> smooth31 INPUT -> smooth31 OUTPUT ->
  OUTPUT <= zlen output -> INPUT <= zlen input ->
  exists tmp' r : list (option C), fdzp Rn exact_trig OUTPUT INPUT (fdzp_new Rn OUTPUT) output input = Ok (tmp', r) /\
    ((forall n v, 0 <= n < INPUT -> znth input n = Some v -> snd v = 0%R) ->
     forall m, 0 <= m < OUTPUT -> exists y : R, znth r m = Some (Some (RtoC y))) /\
    (forall q, OUTPUT = q * INPUT -> forall n, 0 <= n < INPUT -> znth r (q * n) = option_map Some (znth input n)).
Proof.
  intros OUTPUT INPUT output input HI He HR SI SO Lo Li.
  assert (EI : INPUT = 2 * (INPUT / 2)) by (apply Z_div_exact_full_2; lia).
  destruct (fdzp_even OUTPUT INPUT (fdzp_new Rn OUTPUT) output input) as (t' & r & E & _ & _ & _ & V); auto.
  { apply fdzp_new_zeroed; lia. }
  exists t', r. split; auto. set (h := Z.to_nat (INPUT / 2)) in *. set (x := fun n => nth n input (RtoC 0)) in *. split.
  - intros HX m Hm. assert (RE : snd (trigpoly h (ck h x) (IZR m / IZR OUTPUT)%R) = 0%R).
    { apply ck_real; [lia|]. intros n Hn. apply (HX (Z.of_nat n)); [lia|]. rewrite znth_nth_error. apply nth_error_nth'. unfold zlen in Li. lia. }
    rewrite V by auto. destruct (trigpoly h (ck h x) (IZR m / IZR OUTPUT)%R) as [a b]. cbn in RE. subst b. exists a. reflexivity.
  - intros q Hq n Hn. rewrite V by nia. 
    replace (IZR (q * n) / IZR OUTPUT)%R with (INR (Z.to_nat n) / INR (2 * h))%R.
    + rewrite ck_interp by lia. rewrite znth_nonneg by lia. rewrite (nth_error_nth' input (RtoC 0)) by (unfold zlen in Li; lia). reflexivity.
    + rewrite !INR_IZR_INZ. replace (Z.of_nat (2 * h)) with INPUT by lia. rewrite Z2Nat.id by lia. rewrite Hq, !mult_IZR. field. split; apply not_0_IZR; nia.
Qed.
Print Assumptions C31_real_and_samples.
(** sizes meeting the hypotheses; 2*OUTPUT = 3*INPUT is included *)
Example C31_example : smooth31 12 /\ smooth31 18 /\ 3 * 12 <= 2 * 18.
Proof.
  splits; try lia.
  - change 12 with (3 * 4). apply smooth_mul; apply smooth_radix; cbn; auto 20.
  - change 18 with (2 * (3 * 3)). repeat apply smooth_mul; apply smooth_radix; cbn; auto 20.
Qed.

(** ** C32 *)
(** Odd INPUT: the real impulse (1, 0, 0) padded to 4 points gets the imaginary value i/3 in its second cell.
    (The bin of the most negative frequency stays where it is and is taken for a positive frequency.) *)
Theorem C32_odd_refuted :
  exists tmp' r : list (option C), fdzp Rn exact_trig 4 3 (fdzp_new Rn 4) (repeat None 4) [RtoC 1; RtoC 0; RtoC 0] = Ok (tmp', r) /\
    znth r 1 = Some (Some (0%R, (1/3)%R)).
Proof.
  assert (S3 : smooth31 3) by (apply smooth_radix; cbn; auto 20). assert (S4 : smooth31 4) by (apply smooth_radix; cbn; auto 20).
  destruct (fft_exact 3 (-1) (fdzp_new Rn 4) [RtoC 1; RtoC 0; RtoC 0]) as (t1 & E1 & L1 & U1 & V1); auto; try lia; try (unfold zlen, fdzp_new; rewrite ?repeat_length; cbn [length]; lia).
  assert (D : forall k, DFT (-1) 3 (fun n => nth n [RtoC 1; RtoC 0; RtoC 0] (RtoC 0)) k = RtoC 1).
  { intros k. unfold DFT. cbn [Csum nth]. replace (IZR (-1) * 2 * PI * (INR 0 * INR k) / INR 3)%R with 0%R by (cbn; field). rewrite cis_0. ring. }
  assert (ET : t1 = [Some (RtoC 1); Some (RtoC 1); Some (RtoC 1); Some (RtoC 0)]).
  { pose proof (U1 3 ltac:(lia)) as C3. pose proof (V1 0 ltac:(lia)) as C0. pose proof (V1 1 ltac:(lia)) as C1. pose proof (V1 2 ltac:(lia)) as C2.
    rewrite D in C0, C1, C2. assert (L : length t1 = 4%nat) by (unfold zlen, fdzp_new in L1; rewrite repeat_length in L1; lia).
    destruct t1 as [|a [|b [|c [|d [|e t1]]]]]; try discriminate L. cbn in C0, C1, C2, C3. injection C0 as ->. injection C1 as ->. injection C2 as ->. injection C3 as ->. reflexivity. }
  subst t1.
  destruct (fft_exact 4 1 (repeat None 4) [RtoC 1; RtoC 1; RtoC 1; RtoC 0]) as (o1 & E2 & L2 & U2 & V2); auto; try lia; try (unfold zlen, fdzp_new; rewrite ?repeat_length; cbn [length]; lia).
  assert (W : DFT 1 (Z.to_nat 4) (fun n => nth n [RtoC 1; RtoC 1; RtoC 1; RtoC 0] (RtoC 0)) 1 = (0, 1)%R).
  { change (Z.to_nat 4) with 4%nat. unfold DFT. cbn [Csum nth]. unfold cis.
    replace (1 * 2 * PI * (INR 0 * INR 1) / INR 4)%R with 0%R by (cbn; field).
    replace (1 * 2 * PI * (INR 1 * INR 1) / INR 4)%R with (PI / 2)%R by (cbn; field).
    replace (1 * 2 * PI * (INR 2 * INR 1) / INR 4)%R with PI by (cbn; field).
    rewrite cos_0, sin_0, cos_PI2, sin_PI2, cos_PI, sin_PI. apply C_eq; cbn; ring. }
  assert (L : length o1 = 4%nat) by (unfold zlen in L2; rewrite repeat_length in L2; lia).
  destruct o1 as [|a [|b [|c [|d [|e o1]]]]]; try discriminate L.
  set (D4 := DFT 1 (Z.to_nat 4) _) in *. clearbody D4.
  pose proof (V2 0 ltac:(lia)) as C0. pose proof (V2 1 ltac:(lia)) as C1. pose proof (V2 2 ltac:(lia)) as C2. pose proof (V2 3 ltac:(lia)) as C3.
  cbn in C0, C1, C2, C3. injection C0 as ->. injection C1 as ->. injection C2 as ->. injection C3 as ->.
  unfold fdzp. rewrite E1. cbn [bind]. change (3 mod 2 =? 0) with false. cbn [bind]. change (Z.to_nat (3 - ((3 + 1) / 2 + 1))) with 0%nat. cbn [for_loop bind inited].
  cplxC. rewrite E2. cbn [bind]. do 2 eexists. split; [reflexivity|].
  change (Some (Some (cscale_eq Rn (D4 1%nat) (ndiv Rn (nofZ Rn 1) (nofZ Rn 3)))) = Some (Some (0%R, (1/3)%R))).
  rewrite W. do 2 f_equal. apply C_eq; cbn; field.
Qed.
Print Assumptions C32_odd_refuted.

(** Even INPUT with 2*OUTPUT < 3*INPUT: the impulse (1, 0, 0, 0) padded to 5 points starts with 3/4 instead
    of 1.  (The target cells of the upper half overlap its source cells.) *)
Theorem C32_small_ratio_refuted :
  exists tmp' r : list (option C), fdzp Rn exact_trig 5 4 (fdzp_new Rn 5) (repeat None 5) [RtoC 1; RtoC 0; RtoC 0; RtoC 0] = Ok (tmp', r) /\
    znth r 0 = Some (Some (RtoC (3/4)%R)).
Proof.
  assert (S5 : smooth31 5) by (apply smooth_radix; cbn; auto 20). assert (S4 : smooth31 4) by (apply smooth_radix; cbn; auto 20).
  destruct (fft_exact 4 (-1) (fdzp_new Rn 5) [RtoC 1; RtoC 0; RtoC 0; RtoC 0]) as (t1 & E1 & L1 & U1 & V1); auto; try lia; try (unfold zlen, fdzp_new; rewrite ?repeat_length; cbn [length]; lia).
  assert (D : forall k, DFT (-1) 4 (fun n => nth n [RtoC 1; RtoC 0; RtoC 0; RtoC 0] (RtoC 0)) k = RtoC 1).
  { intros k. unfold DFT. cbn [Csum nth]. replace (IZR (-1) * 2 * PI * (INR 0 * INR k) / INR 4)%R with 0%R by (cbn; field). rewrite cis_0. ring. }
  assert (ET : t1 = [Some (RtoC 1); Some (RtoC 1); Some (RtoC 1); Some (RtoC 1); Some (RtoC 0)]).
  { pose proof (U1 4 ltac:(lia)) as C4. pose proof (V1 0 ltac:(lia)) as C0. pose proof (V1 1 ltac:(lia)) as C1. pose proof (V1 2 ltac:(lia)) as C2. pose proof (V1 3 ltac:(lia)) as C3.
    rewrite D in C0, C1, C2, C3. assert (L : length t1 = 5%nat) by (unfold zlen, fdzp_new in L1; rewrite repeat_length in L1; lia).
    destruct t1 as [|a [|b [|c [|d [|e [|f t1]]]]]]; try discriminate L. cbn in C0, C1, C2, C3, C4. injection C0 as ->. injection C1 as ->. injection C2 as ->. injection C3 as ->. injection C4 as ->. reflexivity. }
  subst t1.
  set (y := cscale_eq Rn (RtoC 1) (nlit Rn (1 / 2)%R)).
  assert (Ey : y = RtoC (1/2)) by (apply C_eq; cbn; field).
  destruct (fft_exact 5 1 (repeat None 5) [RtoC 1; RtoC 1; y; RtoC 0; y]) as (o1 & E2 & L2 & U2 & V2); auto; try lia; try (unfold zlen, fdzp_new; rewrite ?repeat_length; cbn [length]; lia).
  assert (W : DFT 1 (Z.to_nat 5) (fun n => nth n [RtoC 1; RtoC 1; y; RtoC 0; y] (RtoC 0)) 0 = RtoC 3).
  { change (Z.to_nat 5) with 5%nat. unfold DFT. cbn [Csum nth]. rewrite Ey.
    replace (1 * 2 * PI * (INR 0 * INR 0) / INR 5)%R with 0%R by (cbn; field).
    replace (1 * 2 * PI * (INR 1 * INR 0) / INR 5)%R with 0%R by (cbn; field).
    replace (1 * 2 * PI * (INR 2 * INR 0) / INR 5)%R with 0%R by (cbn; field).
    replace (1 * 2 * PI * (INR 3 * INR 0) / INR 5)%R with 0%R by (cbn; field).
    replace (1 * 2 * PI * (INR 4 * INR 0) / INR 5)%R with 0%R by (cbn; field).
    rewrite cis_0. apply C_eq; cbn; field. }
  assert (L : length o1 = 5%nat) by (unfold zlen in L2; rewrite repeat_length in L2; lia).
  destruct o1 as [|a [|b [|c [|d [|e [|f o1]]]]]]; try discriminate L.
  set (D5 := DFT 1 (Z.to_nat 5) _) in *. clearbody D5.
  pose proof (V2 0 ltac:(lia)) as C0. pose proof (V2 1 ltac:(lia)) as C1. pose proof (V2 2 ltac:(lia)) as C2. pose proof (V2 3 ltac:(lia)) as C3. pose proof (V2 4 ltac:(lia)) as C4.
  cbn in C0, C1, C2, C3, C4. injection C0 as ->. injection C1 as ->. injection C2 as ->. injection C3 as ->. injection C4 as ->.
  unfold fdzp. rewrite E1. cbn [bind]. change (4 mod 2 =? 0) with true. cbv iota. change (4 / 2) with 2. change ((4 + 1) / 2 + 1) with 3. change (Z.to_nat (4 - 3)) with 1%nat.
  change (geti [Some (RtoC 1); Some (RtoC 1); Some (RtoC 1); Some (RtoC 1); Some (RtoC 0)] 2) with (Ok (RtoC 1)). cbn [bind]. fold y.
  change (set [Some (RtoC 1); Some (RtoC 1); Some (RtoC 1); Some (RtoC 1); Some (RtoC 0)] 2 (Some y)) with (Ok [Some (RtoC 1); Some (RtoC 1); Some y; Some (RtoC 1); Some (RtoC 0)]). cbn [bind].
  change (geti [Some (RtoC 1); Some (RtoC 1); Some y; Some (RtoC 1); Some (RtoC 0)] 2) with (Ok y). cbn [bind].
  change (set [Some (RtoC 1); Some (RtoC 1); Some y; Some (RtoC 1); Some (RtoC 0)] (5 - 2) (Some y)) with (Ok [Some (RtoC 1); Some (RtoC 1); Some y; Some y; Some (RtoC 0)]). cbn [bind for_loop].
  change (geti [Some (RtoC 1); Some (RtoC 1); Some y; Some y; Some (RtoC 0)] 3) with (Ok y). cbn [bind].
  change (set [Some (RtoC 1); Some (RtoC 1); Some y; Some y; Some (RtoC 0)] (5 - 4 + 3) (Some y)) with (Ok [Some (RtoC 1); Some (RtoC 1); Some y; Some y; Some y]). cbn [bind].
  change (set [Some (RtoC 1); Some (RtoC 1); Some y; Some y; Some y] 3 (Some (cofr Rn (n0 Rn)))) with (Ok [Some (RtoC 1); Some (RtoC 1); Some y; Some (RtoC 0); Some y]). cbn [bind].
  change (inited [Some (RtoC 1); Some (RtoC 1); Some y; Some (RtoC 0); Some y]) with (Ok [RtoC 1; RtoC 1; y; RtoC 0; y]). cbn [bind].
  cplxC. rewrite E2. cbn [bind]. do 2 eexists. split; [reflexivity|].
  change (Some (Some (cscale_eq Rn (D5 0%nat) (ndiv Rn (nofZ Rn 1) (nofZ Rn 4)))) = Some (Some (RtoC (3/4)%R))).
  rewrite W. do 2 f_equal. apply C_eq; cbn; field.
Qed.
Print Assumptions C32_small_ratio_refuted.
