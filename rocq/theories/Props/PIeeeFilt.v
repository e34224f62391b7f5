(* C100: the filters in IEEE 754 arithmetic: overflow is never passed over silently, bounded input does not overflow the
   recursive filters *)
From Coq Require Import ZArith Reals Lia Lra List Bool.
From Flocq Require Import Core BinarySingleNaN.
From Verif Require Import Model.Base Model.Num Model.Complex Model.NumIeee Model.Signal Model.OSignal Model.Ema Model.Biquad Model.Kahan Model.Delay Model.Swa Model.Sma Model.Cdc
  Spec.Rounding Spec.Overflow Proofs.IeeeProofs Proofs.IeeeFun Proofs.IeeeFilt Proofs.IeeeStay Proofs.SecondOrder Proofs.BiquadProofs Proofs.IirRound.
Import ListNotations.
Open Scope R_scope.

(** ** Faithful: whenever an output is finite, it is the output of the same filter computed with rounding to nearest in
    the same precision but exponents without an upper limit, whatever happened before.  Any coefficients, any state. *)
Section Faithful.
Context (prec emax : Z) {Hp : Prec_gt_0 prec} {Hpe : Prec_lt_emax prec emax}.
Notation B := (Bn prec emax).
Notation F := (Fn (round radix2 (FLT_exp (3 - emax - prec) prec) ZnearestE)).
Theorem C100_ema p al pc : faithful (out (ema_step B (vreal B)) (mkEma p al)) (out (ema_step F (vreal F)) (mkEma (B2R p) (B2R al))) /\
  cfaithful (out (ema_step B (vcplx B)) (mkEma pc al)) (out (ema_step F (vcplx F)) (mkEma (cR2 pc) (B2R al))).
Proof. split; [apply ema_f|apply ema_cf]. Qed.
Theorem C100_ema_cascade p al pc : faithful (out (emac_step B (vreal B)) (mkEmac p al)) (out (emac_step F (vreal F)) (mkEmac (map B2R p) (B2R al))) /\
  cfaithful (out (emac_step B (vcplx B)) (mkEmac pc al)) (out (emac_step F (vcplx F)) (mkEmac (map cR2 pc) (B2R al))).
Proof. split; [apply emac_f|apply emac_cf]. Qed.
Theorem C100_blockdc x1 y1 a b xc yc : faithful (out (blockdc_step (vreal B)) (mkBdc x1 y1 a b)) (out (blockdc_step (vreal F)) (mkBdc (B2R x1) (B2R y1) (B2R a) (B2R b))) /\
  cfaithful (out (blockdc_step (vcplx B)) (mkBdc xc yc a b)) (out (blockdc_step (vcplx F)) (mkBdc (cR2 xc) (cR2 yc) (B2R a) (B2R b))).
Proof. split; [apply bd_f|apply bd_cf]. Qed.
Theorem C100_biquad b bc : faithful (out (biquad_step (vreal B)) b) (out (biquad_step (vreal F)) (bq_R B2R b)) /\
  cfaithful (out (biquad_step (vcplx B)) bc) (out (biquad_step (vcplx F)) (bq_R cR2 bc)).
Proof. split; [apply bq_f|apply bq_cf]. Qed.
Theorem C100_biquad_cascade b bc : faithful (out (bqc_step (vreal B)) b) (out (bqc_step (vreal F)) (map (bq_R B2R) b)) /\
  cfaithful (out (bqc_step (vcplx B)) bc) (out (bqc_step (vcplx F)) (map (bq_R cR2) bc)).
Proof. split; [apply bqc_f|apply bqc_cf]. Qed.
Theorem C100_calculus s : faithful (out (integrator_step (nadd B)) s) (out (integrator_step (nadd F)) (B2R s)) /\
  faithful (out (differentiator_step (nsub B)) s) (out (differentiator_step (nsub F)) (B2R s)).
Proof. split; [apply integ_f|apply diff_f]. Qed.
Theorem C100_kahan h l : faithful (out (kahan_call (nadd B) (nsub B)) (mkKahan h l)) (out (kahan_call (nadd F) (nsub F)) (mkKahan (B2R h) (B2R l))).
Proof. apply kahan_f. Qed.
Theorem C100_hilbert_cdc TAPS h c r re im sg :
  ocfaithful (oout (hilbert_step B TAPS) (Ok (mkHilbert h c r))) (fun x => oout (hilbert_step F TAPS) (Ok (mkHilbert (map B2R h) (map B2R c) (B2R r))) (fun k => B2R (x k))) /\
  ocfaithful (oout (cdc_step B TAPS) (Ok (mkCdc re im c r sg))) (fun x => oout (cdc_step F TAPS) (Ok (mkCdc (map B2R re) (map B2R im) (map B2R c) (B2R r) sg)) (fun k => cR2 (x k))).
Proof. split; [apply hilbert_f|apply cdc_f]. Qed.
Theorem C100_sma NUM norm : (24 <= prec)%Z -> (128 <= emax)%Z -> (0 < NUM <= INT_MAX)%Z ->
  let dB := fun v => ndiv B v (nofZ B NUM) in let dF := fun v => ndiv F v (nofZ F NUM) in
  ofaithful (oout (sma1_call (nadd B) dB NUM) (Ok (sma1_new (n0 B) NUM))) (oout (sma1_call (nadd F) dF NUM) (Ok (sma1_new (n0 F) NUM))) /\
  ofaithful (oout (sma2_call (nadd B) (nsub B) dB NUM norm) (Ok (sma2_new (n0 B) NUM))) (oout (sma2_call (nadd F) (nsub F) dF NUM norm) (Ok (sma2_new (n0 F) NUM))) /\
  ofaithful (oout (sma3_call (nadd B) (nsub B) (nopp B) dB NUM norm) (Ok (sma3_new (n0 B) NUM))) (oout (sma3_call (nadd F) (nsub F) (nopp F) dF NUM norm) (Ok (sma3_new (n0 F) NUM))) /\
  ofaithful (oout (sma4_call (nadd B) dB NUM norm) (Ok (sma4_new (n0 B) NUM))) (oout (sma4_call (nadd F) dF NUM norm) (Ok (sma4_new (n0 F) NUM))).
Proof. intros H1 H2 H3. exact (conj (sma1_f prec emax H1 H2 NUM H3) (conj (sma2_f prec emax H1 H2 NUM H3 norm) (conj (sma3_f prec emax H1 H2 NUM H3 norm) (sma4_f prec emax H1 H2 NUM H3 norm)))). Qed.

(** ** No overflow.  EMA: samples up to a fifth of the largest number. *)
Theorem C100_ema_stays p al (x : nat -> binary_float prec emax) X : (24 <= prec)%Z -> (128 <= emax)%Z -> is_finite p = true -> is_finite al = true -> 0 < B2R al <= 1 ->
  bpow radix2 (- prec) <= B2R al / 100 -> Rabs (B2R p) <= X -> (forall t, is_finite (x t) = true /\ Rabs (B2R (x t)) <= X) -> 5 * (X + 1) <= bpow radix2 emax ->
  forall t, is_finite (out (ema_step B (vreal B)) (mkEma p al) x t) = true /\
  Rabs (B2R (out (ema_step B (vreal B)) (mkEma p al) x t) - out (ema_step Rn (vreal Rn)) (mkEma (B2R p) (B2R al)) (fun k => B2R (x k)) t)
    <= (10 * bpow radix2 (- prec) * X + 8 * bpow radix2 (2 - emax - prec)) / B2R al.
Proof. intros. apply ema_fin; auto. Qed.
Theorem C100_blockdc_stays a b (x : nat -> binary_float prec emax) X : (24 <= prec)%Z -> (128 <= emax)%Z -> is_finite a = true -> is_finite b = true -> 0 <= B2R a < 1 -> 0 <= B2R b <= 1 ->
  bpow radix2 (- prec) <= (1 - B2R a) / 100 -> (forall t, is_finite (x t) = true /\ Rabs (B2R (x t)) <= X) -> 8 * (X + 1) <= (1 - B2R a) * bpow radix2 emax ->
  forall t, is_finite (out (blockdc_step (vreal B)) (mkBdc (n0 B) (n0 B) a b) x t) = true /\
  Rabs (B2R (out (blockdc_step (vreal B)) (mkBdc (n0 B) (n0 B) a b) x t) - out (blockdc_step (vreal Rn)) (mkBdc 0 0 (B2R a) (B2R b)) (fun k => B2R (x k)) t)
    <= (24 * bpow radix2 (- prec) * X + 10 * bpow radix2 (2 - emax - prec)) / (1 - B2R a).
Proof. intros. apply bd_fin; auto. Qed.
End Faithful.
Print Assumptions C100_ema.
Print Assumptions C100_ema_cascade.
Print Assumptions C100_blockdc.
Print Assumptions C100_biquad.
Print Assumptions C100_biquad_cascade.
Print Assumptions C100_calculus.
Print Assumptions C100_kahan.
Print Assumptions C100_hilbert_cdc.
Print Assumptions C100_sma.
Print Assumptions C100_ema_stays.
Print Assumptions C100_blockdc_stays.

(** Biquad and BiquadCascade with their poles inside the unit circle: there is a factor K, depending on the coefficients
    only, such that in every format with enough precision samples up to 2^emax / K - 1 never make the filter overflow, and
    every output is within K (u X + e) of the exact one. *)
Theorem C100_cascade_stays (cs : list (coefs R)) : Forall (fun c => Rabs (a2a0 c) < 1 /\ Rabs (a1a0 c) < 1 + a2a0 c) cs ->
  exists u0 K, 0 < u0 /\ forall (prec emax : Z) (Hp : Prec_gt_0 prec) (Hpe : Prec_lt_emax prec emax), (24 <= prec)%Z -> (128 <= emax)%Z -> bpow radix2 (- prec) <= u0 ->
  forall cb, Forall2 crep cb cs -> forall (x : nat -> binary_float prec emax) X, (forall t, fm (x t) X) -> K * (X + 1) < bpow radix2 emax -> forall t,
  let B := Bn prec emax in let y := out (bqc_step (vreal B)) (map (biquad_set (biquad_new B (vreal B))) cb) x t in
  is_finite y = true /\ Rabs (B2R y - out (bqc_step (vreal Rn)) (map (biquad_set (biquad_new Rn (vreal Rn))) cs) (fun k => B2R (x k)) t) <= K * (bpow radix2 (- prec) * X + bpow radix2 (2 - emax - prec)).
Proof.
  intros H. destruct (bqc_stays cs H) as (u1 & K1 & Hu1 & HK1 & H1). destruct (cascade_tracks cs H) as (u2 & K2 & B2 & Hu2 & HK2 & HB2 & _ & T).
  exists (Rmin u1 u2), (Rmax K1 K2). split; [apply Rmin_pos; lra|]. intros prec emax Hp Hpe P24 E128 U cb Hc x X Hx HT t B y. pose proof (Rmin_l u1 u2). pose proof (Rmin_r u1 u2). pose proof (Rmax_l K1 K2). pose proof (Rmax_r K1 K2).
  assert (X0 : 0 <= X) by (destruct (Hx O) as [_ Q]; pose proof (Rabs_pos (B2R (x O))); lra).
  destruct (H1 prec emax Hp Hpe P24 E128 ltac:(lra) cb Hc x X Hx ltac:(nra) t) as [F1 _]. fold B in F1. fold y in F1. split; [exact F1|].
  pose proof (bqc_f prec emax _ x t F1) as Q. fold B in Q. fold y in Q. rewrite Q.
  assert (E : map (bq_R B2R) (map (biquad_set (biquad_new B (vreal B))) cb) = map (biquad_set (biquad_new (Fn (brnd prec emax)) (vreal (Fn (brnd prec emax))))) cs).
  { clear - Hc. induction Hc as [|b c bs cs C F IH]; cbn [map]; [reflexivity|]. rewrite IH. f_equal. destruct C as [<- _]. reflexivity. }
  rewrite E. pose proof (uu_range prec P24) as Ur. pose proof (ee_range6 prec emax P24 E128) as Er.
  pose proof (T (uu prec) (ee prec emax) (brnd prec emax) (rnd_ok prec emax P24 E128) ltac:(unfold uu in *; lra) ltac:(lra) (fun k => B2R (x k)) (fun k => B2R (x k)) X 0 (fun k => proj2 (Hx k)) ltac:(intros; rewrite Rminus_eq_0, Rabs_R0; lra) t) as G.
  rewrite Rplus_0_r, Rmult_0_r, Rplus_0_r in G. eapply Rle_trans; [exact G|]. unfold uu, ee. apply Rmult_le_compat_r; [|lra]. pose proof (bpow_ge_0 radix2 (2 - emax - prec)). pose proof (bpow_ge_0 radix2 (- prec)). nra.
Qed.
Print Assumptions C100_cascade_stays.
(** a Biquad is a cascade of one *)
Lemma bqc1 {T V A} (M : vsp T V) (f : A -> biquad T V) c x t : out (bqc_step M) (map f [c]) x t = out (biquad_step M) (f c) x t.
Proof. exact (bqc_outs M [f c] x t). Qed.
Theorem C100_biquad_stays (c : coefs R) : Rabs (a2a0 c) < 1 -> Rabs (a1a0 c) < 1 + a2a0 c ->
  exists u0 K, 0 < u0 /\ forall (prec emax : Z) (Hp : Prec_gt_0 prec) (Hpe : Prec_lt_emax prec emax), (24 <= prec)%Z -> (128 <= emax)%Z -> bpow radix2 (- prec) <= u0 ->
  forall cb, crep cb c -> forall (x : nat -> binary_float prec emax) X, (forall t, fm (x t) X) -> K * (X + 1) < bpow radix2 emax -> forall t,
  let B := Bn prec emax in let y := out (biquad_step (vreal B)) (biquad_set (biquad_new B (vreal B)) cb) x t in
  is_finite y = true /\ Rabs (B2R y - out (biquad_step (vreal Rn)) (biquad_set (biquad_new Rn (vreal Rn)) c) (fun k => B2R (x k)) t) <= K * (bpow radix2 (- prec) * X + bpow radix2 (2 - emax - prec)).
Proof.
  intros H1 H2. destruct (C100_cascade_stays [c]) as (u0 & K & Hu & H); [constructor; auto|]. exists u0, K. split; [exact Hu|]. intros prec emax Hp Hpe P24 E128 U cb Hc x X Hx HT t.
  specialize (H prec emax Hp Hpe P24 E128 U [cb] ltac:(constructor; auto) x X Hx HT t). cbv zeta in H |- *. rewrite !bqc1 in H. exact H.
Qed.
Print Assumptions C100_biquad_stays.

(** ** The others do overflow on bounded input: Integrator of course, and all four moving averages when the sum does although
    the average would not *)
Definition big : binary_float 24 128 := nofZ b32 (2 ^ 127).
Theorem C100_overflow_refuted : let d := fun v => ndiv b32 v (nofZ b32 2) in let bad r := match r with Ok v => is_finite v = false | _ => False end in
  is_finite big = true /\ is_finite (out (integrator_step (nadd b32)) (n0 b32) (fun _ => big) 1) = false /\
  bad (oout (sma1_call (nadd b32) d 2) (Ok (sma1_new (n0 b32) 2)) (fun _ => big) 1) /\ bad (oout (sma2_call (nadd b32) (nsub b32) d 2 true) (Ok (sma2_new (n0 b32) 2)) (fun _ => big) 1) /\
  bad (oout (sma3_call (nadd b32) (nsub b32) (nopp b32) d 2 true) (Ok (sma3_new (n0 b32) 2)) (fun _ => big) 1) /\ bad (oout (sma4_call (nadd b32) d 2 true) (Ok (sma4_new (n0 b32) 2)) (fun _ => big) 1).
Proof. repeat split; vm_compute; reflexivity. Qed.
Print Assumptions C100_overflow_refuted.

(** ** EMA<float> averaging 8 samples of magnitude up to 10^37 *)
Example C100_example (x : nat -> binary_float 24 128) : (forall t, is_finite (x t) = true /\ Rabs (B2R (x t)) <= 10 ^ 37) ->
  forall t, is_finite (out (ema_step b32 (vreal b32)) (mkEma (n0 b32) (ndiv b32 (n1 b32) (nofZ b32 8))) x t) = true.
Proof.
  intros H t. assert (E : B2R (ndiv b32 (n1 b32) (nofZ b32 8)) = / 8).
  { replace (ndiv b32 (n1 b32) (nofZ b32 8)) with (B754_finite (prec := 24) (emax := 128) false 8388608 (-26) eq_refl) by (apply B2SF_inj; vm_compute; reflexivity). unfold B2R, F2R. cbn. lra. }
  refine (proj1 (C100_ema_stays 24 128 (n0 b32) (ndiv b32 (n1 b32) (nofZ b32 8)) x (10 ^ 37) ltac:(lia) ltac:(lia) eq_refl ltac:(vm_compute; reflexivity) _ _ _ H _ t)).
  - rewrite E. lra.
  - rewrite E. change (bpow radix2 (- (24))) with (/ 16777216). lra.
  - cbn [b32 Bn n0 B2R]. rewrite Rabs_R0. apply pow_le. lra.
  - rewrite pow_IZR. rewrite <- (IZR_Zpower radix2 128) by lia. rewrite <- plus_IZR, <- mult_IZR. apply IZR_le. vm_compute. discriminate.
Qed.
(** a resonator whose coefficients are floats: a1 = -1.5, a2 = 0.75 *)
Example C100_example2 : Rabs 0.75 < 1 /\ Rabs (-1.5) < 1 + 0.75 /\
  crep (mkCoefs (n1 b32) (n0 b32) (n0 b32) (nopp b32 (ndiv b32 (nofZ b32 3) (nofZ b32 2))) (ndiv b32 (nofZ b32 3) (nofZ b32 4))) (mkCoefs 1 0 0 (-1.5) 0.75).
Proof.
  rewrite (Rabs_left (-1.5)), Rabs_pos_eq by lra. split; [lra|]. split; [lra|]. split; [|repeat split; reflexivity]. unfold coefs_R. cbn [b0a0 b1a0 b2a0 a1a0 a2a0].
  replace (ndiv b32 (nofZ b32 3) (nofZ b32 2)) with (B754_finite (prec := 24) (emax := 128) false 12582912 (-23) eq_refl) by (apply B2SF_inj; vm_compute; reflexivity).
  replace (ndiv b32 (nofZ b32 3) (nofZ b32 4)) with (B754_finite (prec := 24) (emax := 128) false 12582912 (-24) eq_refl) by (apply B2SF_inj; vm_compute; reflexivity).
  f_equal; try reflexivity; [apply Bone_correct| |]; unfold B2R, F2R; cbn; lra.
Qed.
