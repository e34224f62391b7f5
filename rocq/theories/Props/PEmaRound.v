(* C107: EMA::cutoff in floating point (ema.hh, unit_circle.hh) *)
From Coq Require Import Reals ZArith Lia Lra List Psatz.
From Flocq Require Import Core.
From Interval Require Import Tactic.
From Verif Require Import Model.UnitCircle Proofs.FftKernels Model.Ema Spec.Rounding Spec.Dft Proofs.BaseLemmas Proofs.SignalLemmas Proofs.KahanFloat Proofs.KaiserRound Proofs.UnitCircleProofs Proofs.UcRound Proofs.UcUnit Proofs.EmaRound Proofs.EmaSens Proofs.BqBad Props.PFftRound Props.PIirRound Props.PEmaCascade.
Import ListNotations.
Open Scope R_scope.

Lemma flt_rounding emin prec : (24 <= prec)%Z -> (emin <= - prec - 110)%Z -> 0 <= ulp_u prec <= 1 / 10000000 /\ 0 <= bpow radix2 (emin - 1) <= ulp_u prec / 1000000 /\ rounding (ulp_u prec) (bpow radix2 (emin - 1)) (FLTrnd emin prec).
Proof.
  intros Hp He. pose proof (u_range prec ltac:(lia)) as U. pose proof (e_range emin prec ltac:(lia)) as E.
  assert (U' : ulp_u prec <= 1 / 10000000). { unfold ulp_u. apply Rle_trans with (bpow radix2 (-24)); [apply bpow_le; lia|]. replace (bpow radix2 (-24)) with (/ IZR 16777216) by reflexivity. lra. }
  split; [lra|]. split; [lra|]. intros x. apply rnd_err. lia.
Qed.
Lemma alpha_alp emin prec n N c : (24 <= prec)%Z -> (emin <= - prec - 110)%Z -> uc_cos (Fn (FLTrnd emin prec)) n N = Ok c -> cutoff_alpha (Fn (FLTrnd emin prec)) (uc_trig (Fn (FLTrnd emin prec))) n N = alp emin prec c.
Proof.
  intros Hp He E. unfold cutoff_alpha, alp, rad. cbn [uc_trig tcos]. rewrite E. cbn [nadd nsub nmul nsqrt nofZ n1 Fn].
  assert (S : forall k, (0 <= k <= 100)%Z -> FLTrnd emin prec (IZR k) = IZR k) by (intros; apply small_int; lia). rewrite (S 4%Z), (S 3%Z) by lia. reflexivity.
Qed.
Lemma mono emin prec : (24 <= prec)%Z -> forall x y, x <= y -> FLTrnd emin prec x <= FLTrnd emin prec y.
Proof. intros Hp. apply rnd_mono. lia. Qed.
Lemma cos_fmt emin prec n N c : (24 <= prec)%Z -> (emin <= - prec - 110)%Z -> (1 <= N)%Z -> (Z.abs n <= N)%Z -> (8 * N <= INT_MAX)%Z -> uc_cos (Fn (FLTrnd emin prec)) n N = Ok c -> FLTfmt emin prec c.
Proof.
  intros Hp He HN Hn HI. rewrite uc_cos_red by auto. intros E. injection E as <-. 
  assert (F1 : forall x, FLTfmt emin prec (cosine_approx (Fn (FLTrnd emin prec)) x)) by (intros; apply rnd_fmt; lia).
  assert (F2 : forall x, FLTfmt emin prec (sine_approx (Fn (FLTrnd emin prec)) x)) by (intros; apply rnd_fmt; lia).
  assert (F3 : forall x, FLTfmt emin prec x -> FLTfmt emin prec (- x)) by (intros; apply generic_format_opp; auto).
  cbn [nopp Fn]. destruct (quarter_cases n N) as [Q|[Q|[Q|[Q|[Q|[Q|[Q|[Q|Q]]]]]]]]; rewrite Q; cbv iota; first [apply F1|apply F2|apply F3; first [apply F1|apply F2]].
Qed.

(** C107  In every floating-point format of 24 bits or more the computed cosine and sine lie in [-1, 1]. *)
Theorem C107_unit (emin prec n N : Z) : (24 <= prec)%Z -> (emin <= - prec - 110)%Z -> (1 <= N)%Z -> (Z.abs n <= N)%Z -> (8 * N <= INT_MAX)%Z ->
  exists c s, uc_cos (Fn (FLTrnd emin prec)) n N = Ok c /\ uc_sin (Fn (FLTrnd emin prec)) n N = Ok s /\ Rabs c <= 1 /\ Rabs s <= 1.
Proof.
  intros Hp He HN Hn HI. destruct (flt_rounding emin prec Hp He) as (U & E & R). exact (uc_unit _ _ _ U E R (mono emin prec Hp) (KaiserRound.rnd_0 emin prec) (KaiserRound.rnd_1 emin prec ltac:(lia) ltac:(lia)) n N HN Hn HI).
Qed.
Print Assumptions C107_unit.

(** C107  So the square root of cutoff_alpha is never taken of a negative number, and the factor lies in [0, 9/10]. *)
Theorem C107_alpha (emin prec n N : Z) : (24 <= prec)%Z -> (emin <= - prec - 110)%Z -> (1 <= N)%Z -> (Z.abs n <= N)%Z -> (8 * N <= INT_MAX)%Z ->
  let M := Fn (FLTrnd emin prec) in let x := tcos (uc_trig M) n N in let a := cutoff_alpha M (uc_trig M) n N in
  0 <= nadd M (nmul M x (nsub M x (nofZ M 4))) (nofZ M 3) /\ 0 <= a <= 9/10 /\ (a = 0 <-> x = 1).
Proof.
  intros Hp He HN Hn HI M x a. destruct (C107_unit emin prec n N Hp He HN Hn HI) as (c & s & E & _ & Hc & _). pose proof (cos_fmt _ _ _ _ _ Hp He HN Hn HI E) as Fc. apply Rabs_le_inv in Hc.
  assert (X : x = c) by (unfold x; cbn [uc_trig tcos]; unfold M; rewrite E; reflexivity). assert (A : a = alp emin prec c) by (apply alpha_alp; auto).
  assert (S : forall k, (0 <= k <= 100)%Z -> FLTrnd emin prec (IZR k) = IZR k) by (intros; apply small_int; lia).
  assert (Q : nadd M (nmul M x (nsub M x (nofZ M 4))) (nofZ M 3) = EmaRound.rad emin prec c) by (rewrite X; unfold EmaRound.rad, M; cbn [nadd nsub nmul nofZ Fn]; rewrite (S 4%Z), (S 3%Z) by lia; reflexivity).
  rewrite Q, A, X. split; [apply rad_nonneg; auto; lia|]. destruct (Req_dec c 1) as [->|D].
  - rewrite alp_1 by lia. split; [lra|tauto].
  - pose proof (alp_pos emin prec ltac:(lia) ltac:(lia) c Fc ltac:(lra)). split; [lra|]. split; intros; lra.
Qed.
Print Assumptions C107_alpha.

(** C107  Its distance from the factor of C84 is at most 50 u / sin(pi n / N), u = 2^-prec. *)
Theorem C107_error (emin prec n N : Z) : (24 <= prec <= 53)%Z -> (emin <= - prec - 110)%Z -> (0 < n < N)%Z -> (8 * N <= INT_MAX)%Z ->
  let M := Fn (FLTrnd emin prec) in
  Rabs (cutoff_alpha M (uc_trig M) n N - cutoff_alpha Rn exact_trig n N) <= 50 * bpow radix2 (- prec) / sin (PI * IZR n / IZR N).
Proof.
  intros Hp He Hn HI M. destruct (flt_rounding emin prec ltac:(lia) He) as (U & E & R).
  destruct (uc_round _ _ _ U E R n N ltac:(lia) ltac:(lia) HI) as (c & s & Ec & _ & Hc & _). destruct (C107_unit emin prec n N ltac:(lia) He ltac:(lia) ltac:(lia) HI) as (c' & s' & Ec' & _ & Hc' & _).
  rewrite Ec in Ec'. injection Ec' as <-. apply Rabs_le_inv in Hc'. pose proof (cos_fmt emin prec n N c ltac:(lia) He ltac:(lia) ltac:(lia) HI Ec) as Fc.
  unfold M. rewrite (alpha_alp emin prec n N c ltac:(lia) He Ec). set (t := 2 * PI * IZR n / IZR N) in *.
  assert (T : PI * IZR n / IZR N = t / 2) by (unfold t; field; apply not_0_IZR; lia). pose proof (sin_frac n N Hn) as S. rewrite T in *.
  unfold cutoff_alpha. cbn [tcos exact_trig nadd nsub nmul nsqrt nofZ n1 Rn]. fold t. replace (cos t * (cos t - 4) + 3) with ((1 - cos t) * (3 - cos t)) by ring.
  apply (alp_err emin prec ltac:(lia) ltac:(lia) c t S Fc Hc'). eapply Rle_trans; [exact Hc|].
  assert (L : 1e-16 <= ulp_u prec). { unfold ulp_u. apply Rle_trans with (bpow radix2 (-53)); [replace (bpow radix2 (-53)) with (/ IZR 9007199254740992) by reflexivity; lra|apply bpow_le; lia]. } lra.
Qed.
Print Assumptions C107_error.

(** C107  The factor is positive as soon as 2 sin(pi n / N)^2 exceeds 9 u. *)
Theorem C107_positive (emin prec n N : Z) : (24 <= prec <= 53)%Z -> (emin <= - prec - 110)%Z -> (0 < n < N)%Z -> (8 * N <= INT_MAX)%Z ->
  9 * bpow radix2 (- prec) < 2 * sin (PI * IZR n / IZR N) ^ 2 -> 0 < cutoff_alpha (Fn (FLTrnd emin prec)) (uc_trig (Fn (FLTrnd emin prec))) n N.
Proof.
  intros Hp He Hn HI S. destruct (C107_alpha emin prec n N ltac:(lia) He ltac:(lia) ltac:(lia) HI) as (_ & A & Z). destruct (flt_rounding emin prec ltac:(lia) He) as (U & E & R).
  destruct (uc_round _ _ _ U E R n N ltac:(lia) ltac:(lia) HI) as (c & s & Ec & _ & Hc & _).
  destruct (Req_dec (cutoff_alpha (Fn (FLTrnd emin prec)) (uc_trig (Fn (FLTrnd emin prec))) n N) 0) as [D|D]; [|lra]. apply Z in D. cbn [uc_trig tcos] in D. rewrite Ec in D. subst c.
  exfalso. replace (PI * IZR n / IZR N) with (2 * PI * IZR n / IZR N / 2) in S by (field; apply not_0_IZR; lia). rewrite <- half_sin in S. apply Rabs_le_inv in Hc. unfold ulp_u in *.
  assert (L : 1e-16 <= bpow radix2 (- prec)). { apply Rle_trans with (bpow radix2 (-53)); [replace (bpow radix2 (-53)) with (/ IZR 9007199254740992) by reflexivity; lra|apply bpow_le; lia]. } lra.
Qed.
Print Assumptions C107_positive.
(** the hypotheses at 20 Hz of 48 kHz in float, 1 Hz of 48 kHz in double *)
Example C107_case : (9 * bpow radix2 (- (24)) < 2 * sin (PI * 20 / 48000) ^ 2) /\ (9 * bpow radix2 (- (53)) < 2 * sin (PI * 1 / 48000) ^ 2).
Proof. replace (bpow radix2 (- (24))) with (/ IZR 16777216) by reflexivity. replace (bpow radix2 (- (53))) with (/ IZR 9007199254740992) by reflexivity. split; interval. Qed.

(** C107  Not below: EMA<float, float>::cutoff(1, 48000) gives the factor 0, and the average never moves, whatever comes in.
    In exact arithmetic the factor is positive (C47_alpha). *)
Theorem C107_float_frozen (e : ema R R) (x : nat -> R) (t : nat) : FLTfmt (-149) 24 (em_prev e) ->
  let M := Fn rnd32 in out (ema_step M (vreal M)) (ema_cutoff M (uc_trig M) e 1 48000) x t = em_prev e.
Proof.
  intros Fe M. assert (A : cutoff_alpha M (uc_trig M) 1 48000 = 0).
  { unfold M. change rnd32 with (FLTrnd (-149) 24). rewrite (alpha_alp (-149) 24 1 48000 1); [apply alp_1; lia|lia|lia|apply uc_1_48000]. }
  assert (G : forall t, em_prev (state_at (ema_step M (vreal M)) (ema_cutoff M (uc_trig M) e 1 48000) x t) = em_prev e /\ em_alpha (state_at (ema_step M (vreal M)) (ema_cutoff M (uc_trig M) e 1 48000) x t) = 0).
  { induction t0 as [|k [IH1 IH2]]; [split; [reflexivity|exact A]|]. cbn [state_at]. set (st := state_at _ _ _ _) in *. unfold ema_step. cbn [fst em_prev em_alpha]. rewrite IH1, IH2. split; [|reflexivity].
    unfold lerp. cbn [vadd vscale vreal nadd nsub nmul n1 M Fn]. rewrite Rminus_0_r, Rmult_0_l, rnd32_1. rewrite Rmult_1_l. change rnd32 with (FLTrnd (-149) 24).
    rewrite (KaiserRound.fmt_id (-149) 24 (em_prev e) Fe), KaiserRound.rnd_0, Rplus_0_r. apply KaiserRound.fmt_id. exact Fe. }
  destruct (G t) as [G1 G2]. unfold out. set (st := state_at _ _ _ _) in *. unfold ema_step. cbn [snd]. rewrite G1, G2.
  unfold lerp. cbn [vadd vscale vreal nadd nsub nmul n1 M Fn]. rewrite Rminus_0_r, Rmult_0_l, rnd32_1. rewrite Rmult_1_l. change rnd32 with (FLTrnd (-149) 24).
  rewrite (KaiserRound.fmt_id (-149) 24 (em_prev e) Fe), KaiserRound.rnd_0, Rplus_0_r. apply KaiserRound.fmt_id. exact Fe.
Qed.
Print Assumptions C107_float_frozen.
(** C107  so it is not so that a cutoff above zero gives an average that follows its input *)
Theorem C107_float_cutoff_refuted : ~ (forall n N, (0 < 2 * n <= N)%Z -> (8 * N <= INT_MAX)%Z -> 0 < cutoff_alpha (Fn rnd32) (uc_trig (Fn rnd32)) n N).
Proof.
  intros H. specialize (H 1%Z 48000%Z ltac:(lia) ltac:(unfold INT_MAX; lia)). change rnd32 with (FLTrnd (-149) 24) in H. rewrite (alpha_alp (-149) 24 1 48000 1) in H; [rewrite alp_1 in H by lia; lra|lia|lia|apply uc_1_48000].
Qed.
Print Assumptions C107_float_cutoff_refuted.

(** C107  The whole filter, cutoff and recursion in floating point, against the exact one: for ever within
    150 u X / s^2 + 11 e / s, s = sin(pi n / N), provided s^2 >= 1000 u. *)
Theorem C107_filter (emin prec n N : Z) (p0 a0 X : R) (x : nat -> R) (t : nat) : (24 <= prec <= 53)%Z -> (emin <= - prec - 110)%Z -> (0 < n < N)%Z -> (8 * N <= INT_MAX)%Z ->
  let M := Fn (FLTrnd emin prec) in let u := bpow radix2 (- prec) in let e := bpow radix2 (emin - 1) in let s := sin (PI * IZR n / IZR N) in
  1000 * u <= s ^ 2 -> Rabs p0 <= X -> (forall t, Rabs (x t) <= X) ->
  Rabs (out (ema_step M (vreal M)) (ema_cutoff M (uc_trig M) (mkEma p0 a0) n N) x t - out (ema_step Rn (vreal Rn)) (ema_cutoff Rn exact_trig (mkEma p0 a0) n N) x t) <= 150 * u * X / s ^ 2 + 11 * e / s.
Proof.
  intros Hp He Hn HI M u e s Hs HP HX. destruct (flt_rounding emin prec ltac:(lia) He) as (U & E & RR). pose proof (C107_error emin prec n N Hp He Hn HI) as D. cbv zeta in D. fold M u s in D.
  destruct (C107_alpha emin prec n N ltac:(lia) He ltac:(lia) ltac:(lia) HI) as (_ & A9 & _). fold M in A9. destruct (alpha_low n N Hn) as (S & A & A1). fold s in S, A.
  unfold ema_cutoff. cbn [em_prev]. set (b := cutoff_alpha M (uc_trig M) n N) in *. set (a := cutoff_alpha Rn exact_trig n N) in *.
  change (ulp_u prec) with u in RR, U, E. change (bpow radix2 (emin - 1)) with e in RR, E. assert (u0 : 0 < u) by apply bpow_gt_0. assert (e0 : 0 < e) by apply bpow_gt_0. clearbody a b u e.
  assert (X0 : 0 <= X) by (pose proof (Rabs_pos p0); lra). assert (is : 0 < / s) by (apply Rinv_0_lt_compat; lra). assert (is1 : s * / s = 1) by (apply Rinv_r; lra).
  assert (D2 : 50 * u / s <= s / 20). { unfold Rdiv. assert (50 * u * / s <= s ^ 2 / 20 * / s) by (apply Rmult_le_compat_r; lra). replace (s ^ 2 / 20 * / s) with (s * / 20) in H by (field; lra). lra. }
  assert (Bl : 3 / 4 * s <= b) by (apply Rabs_le_inv in D; lra). assert (ss : s ^ 2 <= s) by nra.
  pose proof (C81_ema u e b p0 X (FLTrnd emin prec) x t RR ltac:(lra) ltac:(lra) ltac:(lra) HP HX) as Q1. fold M in Q1.
  pose proof (ema_sens a b p0 X x ltac:(lra) ltac:(lra) HP HX (Datatypes.S t)) as (_ & _ & _ & _ & Q2).
  change (em_prev (state_at (ema_step Rn (vreal Rn)) (mkEma p0 b) x (Datatypes.S t))) with (out (ema_step Rn (vreal Rn)) (mkEma p0 b) x t) in Q2. change (em_prev (state_at (ema_step Rn (vreal Rn)) (mkEma p0 a) x (Datatypes.S t))) with (out (ema_step Rn (vreal Rn)) (mkEma p0 a) x t) in Q2.
  set (F := out (ema_step M (vreal M)) _ x t) in *. set (B := out (ema_step Rn (vreal Rn)) (mkEma p0 b) x t) in *. set (A0 := out (ema_step Rn (vreal Rn)) (mkEma p0 a) x t) in *. clearbody F B A0.
  assert (Ib : / b <= 4 / 3 * / s). { replace (4 / 3 * / s) with (/ (3 / 4 * s)) by (field; lra). apply Rinv_le; lra. }
  assert (Ia : / a <= 5 / 4 * / s). { replace (5 / 4 * / s) with (/ (4 / 5 * s)) by (field; lra). apply Rinv_le; lra. }
  assert (uX : 0 <= u * X) by (apply Rmult_le_pos; lra).
  assert (T1 : (10 * u * X + 8 * e) / b <= (10 * u * X + 8 * e) * (4 / 3 * / s)) by (apply Rmult_le_compat_l; lra).
  assert (T2 : 2 * X * Rabs (b - a) / a <= 2 * X * (50 * u / s) * (5 / 4 * / s)).
  { unfold Rdiv at 1. apply Rmult_le_compat; [apply Rmult_le_pos; [lra|apply Rabs_pos]|apply Rlt_le, Rinv_0_lt_compat; lra| |auto]. apply Rmult_le_compat_l; lra. }
  assert (T3 : u * X * / s <= u * X / s ^ 2). { apply Rmult_le_compat_l; auto. apply Rinv_le; [apply pow_lt; lra|auto]. }
  assert (T4 : 2 * X * (50 * u / s) * (5 / 4 * / s) = 125 * (u * X / s ^ 2)) by (field; lra).
  assert (T5 : (10 * u * X + 8 * e) * (4 / 3 * / s) = 40 / 3 * (u * X * / s) + 32 / 3 * (e * / s)) by (field; lra).
  assert (T6 : 0 <= e * / s) by (apply Rmult_le_pos; lra). assert (T7 : 0 <= u * X / s ^ 2) by (apply Rmult_le_pos; [auto|apply Rlt_le, Rinv_0_lt_compat, pow_lt; lra]).
  replace (150 * u * X / s ^ 2 + 11 * e / s) with (150 * (u * X / s ^ 2) + 11 * (e * / s)) by (field; lra).
  replace (F - A0) with ((F - B) + (B - A0)) by ring. eapply Rle_trans; [apply Rabs_triang|]. lra.
Qed.
Print Assumptions C107_filter.

(** a case: single precision, 1 kHz at 48 kHz, input of magnitude at most 1: for ever within 0.0022 of the exact filter *)
Example C107_filter_case (x : nat -> R) (t : nat) : (forall t, Rabs (x t) <= 1) -> let M := Fn rnd32 in
  Rabs (out (ema_step M (vreal M)) (ema_cutoff M (uc_trig M) (mkEma 0 1) 1000 48000) x t - out (ema_step Rn (vreal Rn)) (ema_cutoff Rn exact_trig (mkEma 0 1) 1000 48000) x t) <= 22 / 10000.
Proof.
  intros HX M. assert (Sb : 65 / 1000 <= sin (PI * 1000 / 48000)) by interval. set (s := sin (PI * 1000 / 48000)) in *.
  assert (U : bpow radix2 (- (24)) = / IZR (2 ^ 24)) by reflexivity. assert (E : bpow radix2 (-149 - 1) <= bpow radix2 (- (100))) by (apply bpow_le; lia). assert (E2 : bpow radix2 (- (100)) <= / IZR (2 ^ 40)). { change (/ IZR (2 ^ 40)) with (bpow radix2 (- (40))). apply bpow_le. lia. } assert (E0 := bpow_gt_0 radix2 (-149 - 1)).
  assert (s2 : (65 / 1000) ^ 2 <= s ^ 2) by (apply pow_incr; lra).
  pose proof (C107_filter (-149) 24 1000 48000 0 1 1 x t ltac:(lia) ltac:(lia) ltac:(lia) ltac:(unfold INT_MAX; lia)) as Q. cbv zeta in Q. fold s in Q. rewrite U in Q.
  eapply Rle_trans; [apply Q; [lra|rewrite Rabs_R0; lra|auto]|]. set (e := bpow radix2 (-149 - 1)) in *. clearbody e.
  assert (I2 : / s ^ 2 <= / (65 / 1000) ^ 2) by (apply Rinv_le; lra). assert (I1 : / s <= / (65 / 1000)) by (apply Rinv_le; lra). assert (0 < / s) by (apply Rinv_0_lt_compat; lra).
  assert (11 * e / s <= 11 * / IZR (2 ^ 40) * / (65 / 1000)) by (apply Rmult_le_compat; lra). assert (150 * / IZR (2 ^ 24) * 1 / s ^ 2 <= 150 * / IZR (2 ^ 24) * 1 * / (65 / 1000) ^ 2) by (apply Rmult_le_compat_l; lra). lra.
Qed.
