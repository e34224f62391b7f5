(* Theorems about Biquad and BiquadCascade (biquad.hh) *)
From Coq Require Import Reals ZArith Lia Lra List.
From Coquelicot Require Import Coquelicot.
From Interval Require Import Tactic.
From Flocq Require Import Core.
From Verif Require Import Proofs.BaseLemmas Model.Biquad Model.UnitCircle Spec.Iir Spec.Dft Proofs.SignalLemmas Proofs.SecondOrder
  Proofs.FftKernels Proofs.UnitCircleProofs Proofs.ExpProofs Proofs.BiquadProofs Proofs.Butterworth.
Import ListNotations.
Open Scope R_scope.

Notation rfilter := (biquad_step (vreal Rn)).
Notation cfilter := (biquad_step (vcplx Rn)).
Notation rcascade := (bqc_step (vreal Rn)).
Notation ccascade := (bqc_step (vcplx Rn)).

(** C42  In any arithmetic and for any state, call t returns b0 x[t] + b1 x[t-1] + b2 x[t-2] - a1 y[t-1] - a2 y[t-2],
    the state standing in for the samples before the first call. *)
Theorem C42_equation {T V : Type} (M : vsp T V) (s : biquad T V) (x : nat -> V) (t : nat) :
  let y := out (biquad_step M) s x in let c := bq_c s in
  let x1 := dly (bq_x1 s) x in let x2 := dly (bq_x2 s) x1 in let y1 := dly (bq_y1 s) y in let y2 := dly (bq_y2 s) y1 in
  y t = vsub M (vsub M (vadd M (vadd M (vscale M (b0a0 c) (x t)) (vscale M (b1a0 c) (x1 t))) (vscale M (b2a0 c) (x2 t)))
                       (vscale M (a1a0 c) (y1 t))) (vscale M (a2a0 c) (y2 t)).
Proof. apply bq_equation. Qed.
Print Assumptions C42_equation.

(** C42  A fresh filter with the coefficients of a design b0..a2 solves a0 y[t] + a1 y[t-1] + a2 y[t-2] =
    b0 x[t] + b1 x[t-1] + b2 x[t-2] with zeros before the first call, and nothing else does. *)
Theorem C42_difference_equation (b0 b1 b2 a0 a1 a2 : R) (x y : nat -> R) : a0 <> 0 ->
  (forall t, a0 * y t + a1 * dly 0 y t + a2 * dly 0 (dly 0 y) t = b0 * x t + b1 * dly 0 x t + b2 * dly 0 (dly 0 x) t) <->
  (forall t, y t = out rfilter (biquad_set (biquad_new Rn (vreal Rn)) (bq_div Rn b0 b1 b2 a0 a1 a2)) x t).
Proof.
  intros A. set (s := biquad_set (biquad_new Rn (vreal Rn)) (bq_div Rn b0 b1 b2 a0 a1 a2)).
  assert (E : forall t, out rfilter s x t = (b0 / a0 * x t + b1 / a0 * dly 0 x t + b2 / a0 * dly 0 (dly 0 x) t
     - a1 / a0 * dly 0 (out rfilter s x) t - a2 / a0 * dly 0 (dly 0 (out rfilter s x)) t)) by (intros t; apply (bq_equation (vreal Rn) s x t)).
  split; intros H t.
  - induction t as [t IH] using (well_founded_induction lt_wf).
    assert (D1 : dly 0 (out rfilter s x) t = dly 0 y t) by (destruct t; cbn; auto; symmetry; apply IH; lia).
    assert (D2 : dly 0 (dly 0 (out rfilter s x)) t = dly 0 (dly 0 y) t) by (destruct t as [|[|t]]; cbn; auto; symmetry; apply IH; lia).
    rewrite E, D1, D2. specialize (H t). apply (Rmult_eq_reg_l a0); auto. field_simplify; auto. lra.
  - assert (D1 : dly 0 y t = dly 0 (out rfilter s x) t) by (destruct t; cbn [dly]; auto).
    assert (D2 : dly 0 (dly 0 y) t = dly 0 (dly 0 (out rfilter s x)) t) by (destruct t as [|[|t]]; cbn [dly]; auto).
    rewrite H, D1, D2, E. field. auto.
Qed.
Print Assumptions C42_difference_equation.
(** 1 y[t] - 1 y[t-1] + 0 y[t-2] = 2 x[t] + 1 x[t-1]: on 1, 0, 0, ... the values 2, 3, 3 *)
Example C42_difference_equation_example : let s := biquad_set (biquad_new Rn (vreal Rn)) (bq_div Rn 2 1 0 1 (-1) 0) in
  let x t := match t with O => 1 | _ => 0 end in (out rfilter s x 0 = 2 /\ out rfilter s x 1 = 3 /\ out rfilter s x 2 = 3).
Proof. cbn. repeat split; field. Qed.

(** C42  linearity and time invariance *)
Theorem C42_linear (c : coefs R) (x x' : nat -> R) (a b : R) (t : nat) :
  let s := biquad_set (biquad_new Rn (vreal Rn)) c in
  out rfilter s (fun k => a * x k + b * x' k) t = a * out rfilter s x t + b * out rfilter s x' t.
Proof. apply (bq_linear c). Qed.
Print Assumptions C42_linear.
Theorem C42_time_invariant (c : coefs R) (x : nat -> R) (k t : nat) :
  let s := biquad_set (biquad_new Rn (vreal Rn)) c in
  out rfilter s (fun j => if (j <? k)%nat then 0 else x (j - k)%nat) t = if (t <? k)%nat then 0 else out rfilter s x (t - k)%nat.
Proof. apply (bq_shift c). Qed.
Print Assumptions C42_time_invariant.

(** C42  The cascade feeds each section with the output of the one before it. *)
Theorem C42_cascade {T V : Type} (M : vsp T V) (b : biquad T V) (ss : list (biquad T V)) (x : nat -> V) (t : nat) :
  out (bqc_step M) [] x t = x t /\ out (bqc_step M) (b :: ss) x t = out (bqc_step M) ss (out (biquad_step M) b x) t.
Proof. rewrite !bqc_outs. split; reflexivity. Qed.
Print Assumptions C42_cascade.
(** C42  Real and imaginary parts are filtered separately, in any arithmetic. *)
Theorem C42_components {T : Type} (N : num T) (c : coefs T) (x : nat -> cplx T) (t : nat) :
  out (biquad_step (vcplx N)) (biquad_set (biquad_new N (vcplx N)) c) x t =
  (out (biquad_step (vreal N)) (biquad_set (biquad_new N (vreal N)) c) (fun k => fst (x k)) t,
   out (biquad_step (vreal N)) (biquad_set (biquad_new N (vreal N)) c) (fun k => snd (x k)) t).
Proof. apply bq_components; reflexivity. Qed.
Print Assumptions C42_components.
(** C42  A fresh filter passes everything. *)
Theorem C42_initial (x : nat -> R) (t : nat) : out rfilter (biquad_new Rn (vreal Rn)) x t = x t.
Proof. rewrite bq_equation. cbn. ring. Qed.
Print Assumptions C42_initial.

(** C43  Gains of the low-pass and the high-pass, from every state, with exact trigonometry: 1 and 0 at zero
    frequency and at half the sampling rate, and modulus Q at the cutoff. *)
Theorem C43_lowpass (n N : Z) (Q : R) (s : biquad R C) : (0 < 2 * n < N)%Z -> 0 < Q ->
  let H := out cfilter (biquad_set s (bq_lowpass Rn exact_trig n N Q)) in
  gain_at H 1 1 /\ gain_at H (RtoC (-1)) 0 /\ gain_at H (cis (2 * PI * IZR n / IZR N)) (0, - Q).
Proof.
  intros Hn HQ H. destruct (exact_ok n N Hn) as (S & K & U). pose proof (stable_lowpass exact_trig n N Q HQ S K) as St.
  pose proof (fun w Hw => gain_tf _ (biquad_set s (bq_lowpass Rn exact_trig n N Q)) w St Hw eq_refl) as G. splits.
  - pose proof (G _ (proj1 Cmod_pm1)) as E. rewrite (lowpass_dc exact_trig n N Q HQ S K) in E. exact E.
  - pose proof (G _ (proj2 Cmod_pm1)) as E. rewrite (lowpass_ny exact_trig n N Q HQ S K) in E. exact E.
  - pose proof (G _ (Cmod_w exact_trig n N U)) as E. rewrite (lowpass_cut exact_trig n N Q HQ S K U) in E. exact E.
Qed.
Print Assumptions C43_lowpass.
Theorem C43_highpass (n N : Z) (Q : R) (s : biquad R C) : (0 < 2 * n < N)%Z -> 0 < Q ->
  let H := out cfilter (biquad_set s (bq_highpass Rn exact_trig n N Q)) in
  gain_at H 1 0 /\ gain_at H (RtoC (-1)) 1 /\ gain_at H (cis (2 * PI * IZR n / IZR N)) (0, Q).
Proof.
  intros Hn HQ H. destruct (exact_ok n N Hn) as (S & K & U). pose proof (stable_highpass exact_trig n N Q HQ S K) as St.
  pose proof (fun w Hw => gain_tf _ (biquad_set s (bq_highpass Rn exact_trig n N Q)) w St Hw eq_refl) as G. splits.
  - pose proof (G _ (proj1 Cmod_pm1)) as E. rewrite (highpass_dc exact_trig n N Q HQ S K) in E. exact E.
  - pose proof (G _ (proj2 Cmod_pm1)) as E. rewrite (highpass_ny exact_trig n N Q HQ S K) in E. exact E.
  - pose proof (G _ (Cmod_w exact_trig n N U)) as E. rewrite (highpass_cut exact_trig n N Q HQ S K U) in E. exact E.
Qed.
Print Assumptions C43_highpass.
(** C43  With the default Q = 1 / sqrt 2 the power gain at the cutoff is one half. *)
Theorem C43_half_power (n N : Z) (s : biquad R C) : (0 < 2 * n < N)%Z -> exists g h : C, Cmod g ^ 2 = 1/2 /\ Cmod h ^ 2 = 1/2 /\
  gain_at (out cfilter (biquad_set s (bq_lowpass Rn exact_trig n N (/ sqrt 2)))) (cis (2 * PI * IZR n / IZR N)) g /\
  gain_at (out cfilter (biquad_set s (bq_highpass Rn exact_trig n N (/ sqrt 2)))) (cis (2 * PI * IZR n / IZR N)) h.
Proof.
  intros Hn. assert (HQ : 0 < / sqrt 2) by (apply Rinv_0_lt_compat, sqrt_lt_R0; lra).
  assert (E : / sqrt 2 * / sqrt 2 = 1/2) by (rewrite <- Rinv_mult, sqrt_sqrt by lra; lra).
  exists (0, - / sqrt 2), (0, / sqrt 2). splits.
  - rewrite Cmod2. cbn [fst snd]. lra.
  - rewrite Cmod2. cbn [fst snd]. lra.
  - apply C43_lowpass; auto.
  - apply C43_highpass; auto.
Qed.
Print Assumptions C43_half_power.
Example C43_half_power_applies : (0 < 2 * 1 < 3)%Z. Proof. lia. Qed.

(** C43  notch, band-pass, all-pass *)
Theorem C43_notch (n N : Z) (Q : R) (s : biquad R C) : (0 < 2 * n < N)%Z -> 0 < Q ->
  let H := out cfilter (biquad_set s (bq_notch_Q Rn exact_trig n N Q)) in
  gain_at H 1 1 /\ gain_at H (RtoC (-1)) 1 /\ gain_at H (cis (2 * PI * IZR n / IZR N)) 0.
Proof.
  intros Hn HQ H. destruct (exact_ok n N Hn) as (S & K & U). pose proof (stable_notch exact_trig n N Q HQ S K) as St.
  pose proof (fun w Hw => gain_tf _ (biquad_set s (bq_notch_Q Rn exact_trig n N Q)) w St Hw eq_refl) as G. splits.
  - pose proof (G _ (proj1 Cmod_pm1)) as E. rewrite (notch_dc exact_trig n N Q HQ S K) in E. exact E.
  - pose proof (G _ (proj2 Cmod_pm1)) as E. rewrite (notch_ny exact_trig n N Q HQ S K) in E. exact E.
  - pose proof (G _ (Cmod_w exact_trig n N U)) as E. rewrite (notch_cut exact_trig n N Q HQ S K U) in E. exact E.
Qed.
Print Assumptions C43_notch.
Theorem C43_bandpass (n N : Z) (Q : R) (s : biquad R C) : (0 < 2 * n < N)%Z -> 0 < Q ->
  let H := out cfilter (biquad_set s (bq_bandpass_Q Rn exact_trig n N Q)) in
  gain_at H 1 0 /\ gain_at H (RtoC (-1)) 0 /\ gain_at H (cis (2 * PI * IZR n / IZR N)) 1.
Proof.
  intros Hn HQ H. destruct (exact_ok n N Hn) as (S & K & U). pose proof (stable_bandpass exact_trig n N Q HQ S K) as St.
  pose proof (fun w Hw => gain_tf _ (biquad_set s (bq_bandpass_Q Rn exact_trig n N Q)) w St Hw eq_refl) as G. splits.
  - pose proof (G _ (proj1 Cmod_pm1)) as E. rewrite (bandpass_dc exact_trig n N Q HQ S K) in E. exact E.
  - pose proof (G _ (proj2 Cmod_pm1)) as E. rewrite (bandpass_ny exact_trig n N Q HQ S K) in E. exact E.
  - pose proof (G _ (Cmod_w exact_trig n N U)) as E. rewrite (bandpass_cut exact_trig n N Q HQ S K U) in E. exact E.
Qed.
Print Assumptions C43_bandpass.
Theorem C43_allpass (n N : Z) (Q t : R) (s : biquad R C) : (0 < 2 * n < N)%Z -> 0 < Q ->
  exists g : C, Cmod g = 1 /\ gain_at (out cfilter (biquad_set s (bq_allpass_Q Rn exact_trig n N Q))) (cis t) g.
Proof.
  intros Hn HQ. destruct (exact_ok n N Hn) as (S & K & U). pose proof (stable_allpass exact_trig n N Q HQ S K) as St.
  exists (tfc (bq_allpass_Q Rn exact_trig n N Q) (cis t)). split.
  - apply allpass_mod; auto. apply Cmod_cis.
  - apply gain_tf; auto. apply Cmod_cis.
Qed.
Print Assumptions C43_allpass.
(** C43  The last three take Q in dB: for |QdB| <= 769 the quality is positive and 10^(QdB/10) up to 2e-16. *)
Theorem C43_quality (rint : R -> Z) (n N : Z) (QdB : R) : (forall z, Rabs (IZR (rint z) - z) <= 1/2) -> Rabs QdB <= 769 ->
  exists Q, 0 < Q /\ Rabs (Q - Rpower 10 (QdB / 10)) <= 2e-16 * Rpower 10 (QdB / 10) /\
  bq_notch Rn exact_trig rint n N QdB = Ok (bq_notch_Q Rn exact_trig n N Q) /\
  bq_bandpass Rn exact_trig rint n N QdB = Ok (bq_bandpass_Q Rn exact_trig n N Q) /\
  bq_allpass Rn exact_trig rint n N QdB = Ok (bq_allpass_Q Rn exact_trig n N Q).
Proof.
  intros Hr H. destruct (exp10_acc rint (QdB / 10) Hr) as (v & V & A); [apply Rabs_le_inv in H; apply Rabs_le; lra|].
  exists v. unfold bq_notch, bq_bandpass, bq_allpass, idecibel. cbn [ndiv nofZ Rn]. rewrite V. splits; auto.
  assert (P : 0 < Rpower 10 (QdB / 10)) by apply exp_pos. apply Rabs_le_inv in A. lra.
Qed.
Print Assumptions C43_quality.
Example C43_quality_applies : (forall z, Rabs (IZR (ZnearestE z) - z) <= 1/2) /\ Rabs 3 <= 769.
Proof.
  split; [|apply Rabs_le; lra]. intros z. rewrite Rabs_minus_sym. pose proof (Znearest_half (fun x => negb (Z.even x)) z). lra.
Qed.

(** C44  Every design has its poles inside the unit circle; the trigonometric values need only satisfy sin > 0 and
    -1 < cos < 1. *)
Theorem C44_poles (tr : trig R) (n N : Z) (Q : R) (z : C) (c : coefs R) : 0 < Q -> 0 < tsin tr n N -> -1 < tcos tr n N < 1 ->
  In c [bq_lowpass Rn tr n N Q; bq_highpass Rn tr n N Q; bq_notch_Q Rn tr n N Q; bq_bandpass_Q Rn tr n N Q; bq_allpass_Q Rn tr n N Q] ->
  (z * z + RtoC (a1a0 c) * z + RtoC (a2a0 c) = 0)%C -> Cmod z < 1.
Proof.
  intros HQ Hs Hc I. assert (S : stable c).
  { destruct I as [<-|[<-|[<-|[<-|[<-|[]]]]]]; [apply stable_lowpass|apply stable_highpass|apply stable_notch|apply stable_bandpass|apply stable_allpass]; auto. }
  apply (poles_inside _ _ S).
Qed.
Print Assumptions C44_poles.

(** C44  The values of UnitCircle (unit_circle.hh) in exact arithmetic satisfy these conditions for all n, N it
    accepts. *)
Lemma sin_ge_ends y0 y : 0 <= y0 -> y0 <= y <= PI - y0 -> sin y0 <= sin y.
Proof.
  intros H0 H. pose proof PI_RGT_0. destruct (Rle_dec y (PI / 2)).
  - apply sin_incr_1; lra.
  - replace (sin y) with (sin (PI - y)) by apply Rtrigo_facts.sin_pi_minus. apply sin_incr_1; lra.
Qed.
Theorem C44_unit_circle (tr : trig R) (n N : Z) : (0 < 2 * n < N)%Z -> (8 * N <= INT_MAX)%Z ->
  uc_cos Rn n N = Ok (tcos tr n N) -> uc_sin Rn n N = Ok (tsin tr n N) -> 0 < tsin tr n N /\ -1 < tcos tr n N < 1.
Proof.
  intros Hn HI Ec Es. destruct (uc_acc n N) as (c & s & C & S & Ac & As); try lia. rewrite Ec in C. rewrite Es in S. injection C as <-. injection S as <-.
  set (a := 2 * PI * IZR n / IZR N) in *. apply Rabs_le_inv in Ac, As.
  assert (Np : 0 < IZR N) by (apply IZR_lt; lia). pose proof PI_RGT_0 as Pp.
  assert (NI : IZR N <= 268435456) by (apply IZR_le; unfold INT_MAX in HI; lia).
  set (y0 := PI / 536870912).
  assert (I2 : / 268435456 <= / IZR N) by (apply Rinv_le_contravar; lra).
  assert (B : 2 * y0 <= a <= PI - 2 * y0).
  { assert (n1 : 1 <= IZR n) by (apply IZR_le; lia). assert (n2 : 2 * IZR n + 1 <= IZR N) by (rewrite <- mult_IZR, <- plus_IZR; apply IZR_le; lia).
    unfold a, y0. unfold Rdiv. split.
    - apply Rle_trans with (2 * PI * 1 * / IZR N); [nra|]. apply Rmult_le_compat_r; [apply Rlt_le, Rinv_0_lt_compat; auto|]. nra.
    - apply Rle_trans with (PI * (IZR N - 1) * / IZR N); [apply Rmult_le_compat_r; [apply Rlt_le, Rinv_0_lt_compat; auto|]; nra|].
      replace (PI * (IZR N - 1) * / IZR N) with (PI - PI * / IZR N) by (field; lra). nra. }
  assert (Y : 0 <= y0) by (unfold y0; lra).
  assert (S1 := sin_ge_ends y0 a Y ltac:(lra)). assert (S2 := sin_ge_ends y0 (a / 2) Y ltac:(lra)).
  assert (S3 : cos (a / 2) >= sin y0). { rewrite <- sin_shift. apply Rle_ge, sin_ge_ends; lra. }
  assert (V : 5.8e-9 <= sin y0) by (unfold y0; interval with (i_prec 100)).
  assert (C1 : cos a = 1 - 2 * sin (a / 2) * sin (a / 2)) by (rewrite <- cos_2a_sin; f_equal; field).
  assert (C2 : cos a = 2 * cos (a / 2) * cos (a / 2) - 1) by (rewrite <- cos_2a_cos; f_equal; field).
  split; [lra|]. split; nra.
Qed.
Print Assumptions C44_unit_circle.
Example C44_unit_circle_applies : exists tr : trig R, uc_cos Rn 1 3 = Ok (tcos tr 1%Z 3%Z) /\ uc_sin Rn 1 3 = Ok (tsin tr 1%Z 3%Z).
Proof.
  destruct (uc_acc 1 3) as (c & s & C & S & _); try (unfold INT_MAX; lia). exists {| tcos := fun _ _ => c; tsin := fun _ _ => s; trsqrt2 := 1 |}. auto.
Qed.

(** C44  Bounded inputs give bounded outputs, for one section and for a cascade of sections with poles inside the
    unit circle. *)
Theorem C44_bounded (tr : trig R) (n N : Z) (Q : R) (c : coefs R) : 0 < Q -> 0 < tsin tr n N -> -1 < tcos tr n N < 1 ->
  In c [bq_lowpass Rn tr n N Q; bq_highpass Rn tr n N Q; bq_notch_Q Rn tr n N Q; bq_bandpass_Q Rn tr n N Q; bq_allpass_Q Rn tr n N Q] ->
  exists B, forall (x : nat -> R) X, (forall t, Rabs (x t) <= X) ->
  forall t, Rabs (out rfilter (biquad_set (biquad_new Rn (vreal Rn)) c) x t) <= B * X.
Proof.
  intros HQ Hs Hc I. assert (S : stable c).
  { destruct I as [<-|[<-|[<-|[<-|[<-|[]]]]]]; [apply stable_lowpass|apply stable_highpass|apply stable_notch|apply stable_bandpass|apply stable_allpass]; auto. }
  destruct (bibo c S) as (B & _ & H). exists B. exact H.
Qed.
Print Assumptions C44_bounded.
Theorem C44_cascade_bounded (n N : Z) (NUM : nat) : (0 < 2 * n < N)%Z -> exists B, forall (x : nat -> R) X, (forall t, Rabs (x t) <= X) ->
  forall t, Rabs (out rcascade (bqc_lowpass Rn exact_trig (bqc_new Rn (vreal Rn) NUM) n N) x t) <= B * X /\
            Rabs (out rcascade (bqc_highpass Rn exact_trig (bqc_new Rn (vreal Rn) NUM) n N) x t) <= B * X.
Proof.
  intros Hn. destruct (exact_ok n N Hn) as (S & K & U).
  assert (E : forall f : nat -> coefs R, map (fun p => biquad_set (snd p) (f (fst p))) (combine (seq 0 NUM) (bqc_new Rn (vreal Rn) NUM)) = map (bq (vreal Rn)) (map f (seq 0 NUM))).
  { intros f. rewrite map_map. unfold bqc_new. generalize 0%nat. induction NUM as [|m IH]; intros a; cbn; auto. rewrite IH. reflexivity. }
  set (lf := fun i => bq_lowpass Rn exact_trig n N (bqc_Q Rn exact_trig (Z.of_nat NUM) (Z.of_nat i))).
  set (hf := fun i => bq_highpass Rn exact_trig n N (bqc_Q Rn exact_trig (Z.of_nat NUM) (Z.of_nat i))).
  destruct (bibo_cascade (map lf (seq 0 NUM))) as (B & B0 & HB).
  { apply Forall_map, Forall_forall. intros i Hi. apply in_seq in Hi. apply stable_lowpass; auto. apply sec_Q. lia. }
  destruct (bibo_cascade (map hf (seq 0 NUM))) as (B' & B0' & HB').
  { apply Forall_map, Forall_forall. intros i Hi. apply in_seq in Hi. apply stable_highpass; auto. apply sec_Q. lia. }
  exists (B + B'). intros x X HX t. assert (X0 : 0 <= X) by (pose proof (Rabs_pos (x O)); specialize (HX O); lra).
  specialize (HB x X HX t). specialize (HB' x X HX t). rewrite <- (E lf) in HB. rewrite <- (E hf) in HB'.
  unfold bqc_lowpass, bqc_highpass. replace (length (bqc_new Rn (vreal Rn) NUM)) with NUM by (unfold bqc_new; rewrite repeat_length; reflexivity).
  unfold lf in HB. unfold hf in HB'. cbv beta in HB, HB'. split; nra.
Qed.
Print Assumptions C44_cascade_bounded.

(** C44  The answer to a constant converges to the gain at zero frequency times the constant, from every state. *)
Theorem C44_constant (n N : Z) (Q : R) (s : biquad R C) (k : C) : (0 < 2 * n < N)%Z -> 0 < Q ->
  approaches (out cfilter (biquad_set s (bq_lowpass Rn exact_trig n N Q)) (fun _ => k)) (fun _ => k) /\
  approaches (out cfilter (biquad_set s (bq_highpass Rn exact_trig n N Q)) (fun _ => k)) (fun _ => 0%C).
Proof.
  intros Hn HQ. assert (P : forall t, Cpown (RtoC 1) t = RtoC 1) by (induction t as [|t IH]; cbn; auto; rewrite IH; ring).
  destruct (C43_lowpass n N Q s Hn HQ) as (L & _). destruct (C43_highpass n N Q s Hn HQ) as (H & _).
  specialize (L k). specialize (H k). unfold approaches in *.
  assert (W : forall c g v, (g * k)%C = v -> is_lim_seq (fun t => Cmod (out cfilter (biquad_set s c) (fun t0 => k * Cpown 1 t0)%C t - g * (k * Cpown 1 t))%C) 0 ->
     is_lim_seq (fun t => Cmod (out cfilter (biquad_set s c) (fun _ => k) t - v)%C) 0).
  { intros c g v Ev. apply is_lim_seq_ext. intros t. rewrite P, <- Ev. rewrite (out_ext _ _ (fun t0 => k * Cpown 1 t0)%C (fun _ => k)).
    - f_equal. f_equal. f_equal. ring.
    - intros j _. rewrite P. ring. }
  split; [apply (W _ 1%C); [ring|exact L]|apply (W _ 0%C); [ring|exact H]].
Qed.
Print Assumptions C44_constant.
Example C44_applies : (0 < 2 * 1 < 3)%Z /\ 0 < 0.7. Proof. split; [lia|lra]. Qed.

(** C73  BiquadCascade is a Butterworth filter of order 2*NUM: at the frequency t its power gain is
    1 / (1 + (tan(t/2) / tan(pi n / N))^(4 NUM)), the high-pass taking the complementary power. Written without
    the poles of the tangent, u : v being the ratio of the squared tangents. *)
Theorem C73_butterworth (n N : Z) (ss : list (biquad R C)) (t : R) : (0 < 2 * n < N)%Z -> ss <> [] ->
  let k := cos (2 * PI * IZR n / IZR N) in let u := (1 - cos t) * (1 + k) in let v := (1 - k) * (1 + cos t) in
  let m := (2 * length ss)%nat in
  exists g h : C, gain_at (out ccascade (bqc_lowpass Rn exact_trig ss n N)) (cis t) g /\ Cmod g ^ 2 = v ^ m / (u ^ m + v ^ m) /\
                  gain_at (out ccascade (bqc_highpass Rn exact_trig ss n N)) (cis t) h /\ Cmod h ^ 2 = u ^ m / (u ^ m + v ^ m) /\
                  0 < u ^ m + v ^ m.
Proof.
  intros Hn Hs k u v m. destruct (butter n N ss t Hn Hs) as (L & H & SL & SH & P).
  exists (total (map bq_c (bqc_lowpass Rn exact_trig ss n N)) (cis t)), (total (map bq_c (bqc_highpass Rn exact_trig ss n N)) (cis t)).
  splits; auto; intros amp; apply cascade_gain; auto; apply Cmod_cis.
Qed.
Print Assumptions C73_butterworth.
(** C73  the usual form *)
Theorem C73_tangent_form (n N : Z) (ss : list (biquad R C)) (t : R) : (0 < 2 * n < N)%Z -> ss <> [] -> - PI < t < PI ->
  exists g : C, gain_at (out ccascade (bqc_lowpass Rn exact_trig ss n N)) (cis t) g /\
  Cmod g ^ 2 = 1 / (1 + (tan (t / 2) / tan (PI * IZR n / IZR N)) ^ (4 * length ss)).
Proof.
  intros Hn Hs Ht. destruct (C73_butterworth n N ss t Hn Hs) as (g & h & G & P & _ & _ & D). exists g. split; auto. rewrite P.
  destruct (exact_ok n N Hn) as (S & K & U). cbn in K, S. set (a := 2 * PI * IZR n / IZR N) in *.
  assert (Np : IZR N <> 0) by (apply not_0_IZR; lia).
  assert (Ea : PI * IZR n / IZR N = a / 2) by (unfold a; field; auto). rewrite Ea.
  assert (C1 : forall y, cos y = 1 - 2 * (sin (y / 2) * sin (y / 2))) by (intros y; rewrite <- Rmult_assoc, <- cos_2a_sin; f_equal; field).
  assert (C2 : forall y, cos y = 2 * (cos (y / 2) * cos (y / 2)) - 1) by (intros y; rewrite <- Rmult_assoc, <- cos_2a_cos; f_equal; field).
  assert (ct : cos (t / 2) <> 0) by (apply Rgt_not_eq, cos_gt_0; lra).
  assert (ca : cos (a / 2) <> 0). { intros Z. pose proof (C2 a) as E. rewrite Z in E. lra. }
  assert (sa : sin (a / 2) <> 0). { intros Z. pose proof (C1 a) as E. rewrite Z in E. lra. }
  set (u := (1 - cos t) * (1 + cos a)) in *. set (v := (1 - cos a) * (1 + cos t)) in *.
  assert (v0 : v <> 0).
  { unfold v. rewrite (C1 a), (C2 t). replace ((1 - (1 - 2 * (sin (a / 2) * sin (a / 2)))) * (1 + (2 * (cos (t / 2) * cos (t / 2)) - 1))) with (4 * (sin (a / 2) * sin (a / 2)) * (cos (t / 2) * cos (t / 2))) by ring.
    repeat apply Rmult_integral_contrapositive_currified; auto; lra. }
  assert (R2 : (tan (t / 2) / tan (a / 2)) ^ 2 = u / v).
  { unfold tan, u, v. rewrite (C1 a), (C1 t) at 1. replace (1 + (1 - 2 * (sin (a / 2) * sin (a / 2)))) with (2 * (cos (a / 2) * cos (a / 2))) by (pose proof (C1 a); pose proof (C2 a); lra).
    replace (1 + cos t) with (2 * (cos (t / 2) * cos (t / 2))) by (pose proof (C2 t); lra).
    replace (1 - (1 - 2 * (sin (a / 2) * sin (a / 2)))) with (2 * (sin (a / 2) * sin (a / 2))) by ring. 
    replace (1 - cos a) with (2 * (sin (a / 2) * sin (a / 2))) by (pose proof (C1 a); lra). field. auto. }
  replace (4 * length ss)%nat with (2 * (2 * length ss))%nat by lia. rewrite (pow_mult _ 2 (2 * length ss)), R2.
  change (u / v) with (u * / v). rewrite (Rpow_mult_distr u (/ v)), pow_inv.
  assert (vm : v ^ (2 * length ss) <> 0) by (apply pow_nonzero; auto).
  change (v ^ (2 * length ss) / (u ^ (2 * length ss) + v ^ (2 * length ss)) = 1 / (1 + u ^ (2 * length ss) * / v ^ (2 * length ss))).
  change (0 < u ^ (2 * length ss) + v ^ (2 * length ss)) in D. field. split; auto. lra.
Qed.
Print Assumptions C73_tangent_form.
(** C73  At the cutoff both cascades pass half the power, whatever NUM is. *)
Theorem C73_half_power (n N : Z) (ss : list (biquad R C)) : (0 < 2 * n < N)%Z -> ss <> [] ->
  exists g h : C, Cmod g ^ 2 = 1/2 /\ Cmod h ^ 2 = 1/2 /\
  gain_at (out ccascade (bqc_lowpass Rn exact_trig ss n N)) (cis (2 * PI * IZR n / IZR N)) g /\
  gain_at (out ccascade (bqc_highpass Rn exact_trig ss n N)) (cis (2 * PI * IZR n / IZR N)) h.
Proof.
  intros Hn Hs. destruct (C73_butterworth n N ss (2 * PI * IZR n / IZR N) Hn Hs) as (g & h & G & P & H & P' & D). exists g, h.
  set (k := cos (2 * PI * IZR n / IZR N)) in *. rewrite (Rmult_comm (1 - k) (1 + k)), (Rmult_comm (1 + k) (1 - k)) in *.
  splits; auto; rewrite ?P, ?P'; field; lra.
Qed.
Print Assumptions C73_half_power.
Example C73_applies : (0 < 2 * 5 < 48)%Z /\ bqc_new Rn (vcplx Rn) 3 <> []. Proof. split; [lia|discriminate]. Qed.
