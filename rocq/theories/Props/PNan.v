(* C99: samples that are NaN or infinite *)
From Coq Require Import Reals ZArith Lia List.
From Flocq Require Import Core IEEE754.BinarySingleNaN.
From Verif Require Import Proofs.BaseLemmas Proofs.MovExtProofs Proofs.MovNan Proofs.MovIeeeProofs Proofs.NanProofs Model.MovIeee Model.NumIeee Model.Ema Model.Biquad Model.Normalize Model.Sma Model.Lms Model.Demod Model.Trigger Model.Cdc Model.OSignal Spec.Reduce Spec.NonFinite.
Import ListNotations.
Open Scope Z_scope.

(** ** movext.hh *)
(** MovMin<float|double, NUM> on samples without NaN: the minimum of the last NUM, if +infinity does not occur or
    numeric_limits<TYPE>::max() does not. *)
Theorem C99_movmin_without_nan : forall prec emax {Hp : Prec_gt_0 prec} {Hpe : Prec_lt_emax prec emax} NUM (xs : list (binary_float prec emax)), 0 < NUM ->
  (forall x, In x xs -> ~ nan x) -> ~ In (B754_infinity false) xs \/ (forall x, In x xs -> Beqb (limits_max prec emax) x = false) ->
  exists m vs, movmin_ieee prec emax NUM xs = Ok (m, vs) /\ length vs = length xs /\
    forall t v, nth_error vs t = Some v ->
      In v (lastn (Z.to_nat NUM) (firstn (S t) xs)) /\ forall y, In y (lastn (Z.to_nat NUM) (firstn (S t) xs)) -> Bltb y v = false.
Proof. intros. apply movmin_ok; auto. Qed.
Print Assumptions C99_movmin_without_nan.
(** MovMax: numeric_limits<TYPE>::min() is the smallest positive normal number; it must not occur, unless nothing is less. *)
Theorem C99_movmax_without_nan : forall prec emax {Hp : Prec_gt_0 prec} {Hpe : Prec_lt_emax prec emax} NUM (xs : list (binary_float prec emax)), 0 < NUM ->
  (forall x, In x xs -> ~ nan x) -> (forall x, In x xs -> Bltb x (limits_min prec emax) = false) \/ (forall x, In x xs -> Beqb (limits_min prec emax) x = false) ->
  exists m vs, movmax_ieee prec emax NUM xs = Ok (m, vs) /\ length vs = length xs /\
    forall t v, nth_error vs t = Some v ->
      In v (lastn (Z.to_nat NUM) (firstn (S t) xs)) /\ forall y, In y (lastn (Z.to_nat NUM) (firstn (S t) xs)) -> Bltb v y = false.
Proof. intros. apply movmax_ok; auto. Qed.
Print Assumptions C99_movmax_without_nan.
(** the two constants *)
Theorem C99_limits : forall prec emax {Hp : Prec_gt_0 prec} {Hpe : Prec_lt_emax prec emax},
  (forall x : binary_float prec emax, is_finite x = true -> (B2R x <= B2R (limits_max prec emax))%R) /\ is_finite (limits_max prec emax) = true /\
  B2R (limits_min prec emax) = bpow radix2 (2 - emax) /\ is_finite (limits_min prec emax) = true.
Proof.
  intros. refine (conj _ (conj _ (conj _ _))); try apply min_val.
  - intros x Fx. rewrite max_val. pose proof (abs_B2R_le_emax_minus_prec prec emax _ x) as L. apply Rabs_le_inv in L. apply L.
  - unfold limits_max, Bmax_float. rewrite is_finite_SF2B. reflexivity.
Qed.
Print Assumptions C99_limits.
(** A single NaN breaks the object for good: whatever came before, at the latest after 2*NUM further samples that do
    not fall (do not rise, for MovMax) the refill stack is full and stack.hh's assertion fails; without assertions that
    push writes behind the array. *)
Theorem C99_movmin_after_nan_refuted : forall prec emax {Hp : Prec_gt_0 prec} {Hpe : Prec_lt_emax prec emax} NUM nu (xs ys : list (binary_float prec emax)), 0 < NUM -> nan nu ->
  (forall i a b, nth_error ys i = Some a -> nth_error ys (S i) = Some b -> Bltb b a = false) -> 2 * NUM <= zlen ys ->
  movmin_ieee prec emax NUM (xs ++ nu :: ys) = AssertFail.
Proof. intros. apply movmin_nan; auto. Qed.
Print Assumptions C99_movmin_after_nan_refuted.
Theorem C99_movmax_after_nan_refuted : forall prec emax {Hp : Prec_gt_0 prec} {Hpe : Prec_lt_emax prec emax} NUM nu (xs ys : list (binary_float prec emax)), 0 < NUM -> nan nu ->
  (forall i a b, nth_error ys i = Some a -> nth_error ys (S i) = Some b -> Bltb a b = false) -> 2 * NUM <= zlen ys ->
  movmax_ieee prec emax NUM (xs ++ nu :: ys) = AssertFail.
Proof. intros. apply movmax_nan; auto. Qed.
Print Assumptions C99_movmax_after_nan_refuted.
(** That is the worst that happens: for any type, equality and comparison whatsoever, a history of calls either succeeds
    or stops at that assertion; no array is overrun and no loop runs on. *)
Theorem C99_movext_any_comparison : forall (A : Type) (eqb comp : A -> A -> bool) NUM (init : A) xs, 0 < NUM ->
  movext_run eqb comp NUM init xs = AssertFail \/ exists m vs, movext_run eqb comp NUM init xs = Ok (m, vs) /\ length vs = length xs.
Proof.
  intros A eqb comp NUM init xs Hn. unfold movext_run. destruct (new_holds NUM Hn init) as (m & -> & H). cbn [bind].
  destruct (run_any eqb comp NUM Hn init xs _ _ _ _ H) as [E|(m' & os & _ & _ & E & _)]; auto. right. exists m', os. split; auto.
  clear H. revert m m' os E. induction xs as [|x xs IH]; intros m m' os E; cbn [run] in E; [injection E as _ <-; auto|].
  destruct (movext_call eqb comp NUM m x) as [[m1 o]| | |]; try discriminate. cbn [bind] in E. destruct (run (movext_call eqb comp NUM) m1 xs) as [[m2 os2]| | |] eqn:E2; try discriminate. cbn [bind] in E. injection E as _ <-. cbn. f_equal. eauto.
Qed.
Print Assumptions C99_movext_any_comparison.

Definition fl (z : Z) : binary_float 24 128 := nofZ b32 z.
(** the outputs as integers, None for NaN *)
Definition shown (r : outcome (movext (binary_float 24 128) * list (binary_float 24 128))) : outcome (list (option Z)) :=
  '(_, l) <- r ;; Ok (map (fun v => if is_nan v then None else Some (Btrunc v)) l).
Example C99_movmin_example : shown (movmin_ieee 24 128 3 [fl 5; fl (-2); fl 4; fl 4; fl 7; fl 9]) = Ok [Some 5; Some (-2); Some (-2); Some (-2); Some 4; Some 4].
Proof. reflexivity. Qed.
(** a NaN: first a minimum that has left the window (1 stays the answer although the last three are 8 7 6), then the failure *)
Example C99_nan_example1 : shown (movmin_ieee 24 128 3 [fl 5; B754_nan; fl 4; fl 6; fl 1; fl 9; fl 8; fl 7; fl 6]) = Ok [Some 5; None; None; None; Some 1; Some 1; Some 1; Some 1; Some 1].
Proof. reflexivity. Qed.
Example C99_nan_example2 : shown (movmin_ieee 24 128 3 [fl 5; B754_nan; fl 1; fl 2; fl 3; fl 4; fl 5; fl 6]) = AssertFail.
Proof. reflexivity. Qed.
(** MovMax<float> with FLT_MIN among the samples: -1 although FLT_MIN is in the window *)
Example C99_movmax_example : shown (movmax_ieee 24 128 3 [fl 5; fl (-2); fl 4]) = Ok [Some 5; Some 5; Some 5] /\ shown (movmax_ieee 24 128 3 [limits_min 24 128; fl (-1)]) = Ok [Some 0; Some (-1)].
Proof. split; reflexivity. Qed.

(** ** Recursive filters: one sample that is not finite and no later output is finite; one NaN and every later output is
    NaN.  For any coefficients and any state, real and complex samples, until the object is constructed anew. *)
Definition sticks {prec emax} (o : (nat -> binary_float prec emax) -> nat -> binary_float prec emax) : Prop := spoils nonfinite nonfinite o /\ spoils nan nan o.
Definition csticks {prec emax} (o : (nat -> binary_float prec emax * binary_float prec emax) -> nat -> binary_float prec emax * binary_float prec emax) : Prop :=
  spoils (part nonfinite) (part nonfinite) o /\ spoils (part nan) (part nan) o.
Local Ltac absorb := first [apply nf_real|apply nan_real|apply part_cplx; apply nf_real|apply part_cplx; apply nan_real|assumption|intros; apply nf_div; assumption|intros; apply nan_div; auto].
Section Ieee.
Context (prec emax : Z) {Hp : Prec_gt_0 prec} {Hpe : Prec_lt_emax prec emax}.
Notation B := (Bn prec emax).
Theorem C99_ema : forall (e : ema _ _) (ec : ema _ _), sticks (out (ema_step B (vreal B)) e) /\ csticks (out (ema_step B (vcplx B)) ec).
Proof. intros. split; split; apply ema_bad; absorb. Qed.
Theorem C99_ema_cascade : forall (e : emac _ _) (ec : emac _ _), ec_prev e <> [] -> ec_prev ec <> [] -> sticks (out (emac_step B (vreal B)) e) /\ csticks (out (emac_step B (vcplx B)) ec).
Proof. intros. split; split; apply emac_bad; absorb. Qed.
Theorem C99_blockdc : forall (d : blockdc _ _) (dc : blockdc _ _), sticks (out (blockdc_step (vreal B)) d) /\ csticks (out (blockdc_step (vcplx B)) dc).
Proof. intros. split; split; apply blockdc_bad; absorb. Qed.
Theorem C99_biquad : forall (b : biquad _ _) (bc : biquad _ _), sticks (out (biquad_step (vreal B)) b) /\ csticks (out (biquad_step (vcplx B)) bc).
Proof. intros. split; split; apply biquad_bad; absorb. Qed.
Theorem C99_biquad_cascade : forall (b : list (biquad _ _)) (bc : list (biquad _ _)), b <> [] -> bc <> [] -> sticks (out (bqc_step (vreal B)) b) /\ csticks (out (bqc_step (vcplx B)) bc).
Proof. intros. split; split; apply bqc_bad; absorb. Qed.
Theorem C99_integrator : forall s sc, sticks (out (integrator_step (nadd B)) s) /\ csticks (out (integrator_step (cadd B)) sc).
Proof. intros. split; split; [apply (integrator_bad (vreal B))|apply (integrator_bad (vreal B))|apply (integrator_bad (vcplx B))|apply (integrator_bad (vcplx B))]; absorb. Qed.
Theorem C99_kahan : forall k, sticks (out (kahan_call (nadd B) (nsub B)) k).
Proof. intros. split; apply (kahan_stream_bad (vreal B)); absorb. Qed.
Theorem C99_normalize_sine : forall n, sticks (out (norm_step B) n).
Proof. intros. split; apply norm_bad; absorb. Qed.
(** the moving averages with a running sum *)
Theorem C99_sma2 : forall NUM norm, 0 < NUM -> let o := oout (sma2_call (nadd B) (nsub B) (fun v => ndiv B v (nofZ B NUM)) NUM norm) (Ok (sma2_new (n0 B) NUM)) in
  spoils nonfinite (returns nonfinite) o /\ spoils nan (returns nan) o.
Proof. intros. split; apply (sma2_bad (vreal B)); absorb. Qed.
Theorem C99_sma3 : forall NUM norm, 0 < NUM -> let o := oout (sma3_call (nadd B) (nsub B) (nopp B) (fun v => ndiv B v (nofZ B NUM)) NUM norm) (Ok (sma3_new (n0 B) NUM)) in
  spoils nonfinite (returns nonfinite) o /\ spoils nan (returns nan) o.
Proof. intros. split; apply (sma3_bad (vreal B)); absorb. Qed.
(** NLMS with one such input *)
Theorem C99_nlms : forall SIZE : nat, (1 <= SIZE)%nat -> let o := oout (nlms_step B (Z.of_nat SIZE)) (Ok (nlms_new B (Z.of_nat SIZE))) in
  spoils (fun p => nonfinite (fst (fst p))) (returns nonfinite) o /\ spoils (fun p => nan (fst (fst p))) (returns nan) o.
Proof.
  intros. split; apply nlms_bad; auto using nf_add, nf_sub, nf_mul, nf_neq0, nan_add, nan_sub, nan_mul. intros a Ha. apply nan_eq. auto.
Qed.
(** the AM demodulator after a NaN (the bounds of its gain control do not help: comparisons with NaN are false) *)
Theorem C99_am_demodulator : forall a, spoils (part nan) nan (out (amd_step B) a).
Proof. apply amd_nan. Qed.
(** a Schmitt trigger ignores NaN *)
Theorem C99_schmitt_trigger : forall (s : schmitt _) x, nan x -> schmitt_step (nltb B) s x = (s, st_previous s).
Proof. intros [lo hi p] x H. unfold schmitt_step. cbn [st_previous st_low st_high]. rewrite !nan_lt by auto. destruct p; reflexivity. Qed.
End Ieee.
Print Assumptions C99_ema.
Print Assumptions C99_ema_cascade.
Print Assumptions C99_blockdc.
Print Assumptions C99_biquad.
Print Assumptions C99_biquad_cascade.
Print Assumptions C99_integrator.
Print Assumptions C99_kahan.
Print Assumptions C99_normalize_sine.
Print Assumptions C99_sma2.
Print Assumptions C99_sma3.
Print Assumptions C99_nlms.
Print Assumptions C99_am_demodulator.
Print Assumptions C99_schmitt_trigger.
(** an EMA with alpha = 1 only passes its input on, and still never gets rid of the infinity: (1-1) * inf is NaN *)
Example C99_ema_example : let o t := out (ema_step b32 (vreal b32)) (mkEma (fl 0) (fl 1)) (fun t => match t with 1%nat => B754_infinity false | _ => fl 3 end) t in
  map (fun t => is_finite (o t)) (seq 0 5) = [true; false; false; false; false] /\ is_nan (o 2%nat) = true.
Proof. split; reflexivity. Qed.

(** ** Objects that recover, in any arithmetic: the output depends on the last samples only, so a bad sample is
    forgotten after that many calls *)
Theorem C99_differentiator_recovers : forall (A : Type) (sub : A -> A -> A) p, remembers 2 (out (differentiator_step sub) p).
Proof. exact @differentiator_memory. Qed.
Theorem C99_fm_demodulators_recover : forall (T : Type) (N : num T) argf (f1 : fmd T T) (f : fmd T (cplx T)) (f5 : fmd T (cplx T * cplx T)),
  remembers 2 (out (fmd1_step N argf) f1) /\ remembers 2 (out (fmd2_step N argf) f) /\ remembers 2 (out (fmd3_step N argf) f) /\ remembers 2 (out (fmd4_step N) f) /\ remembers 3 (out (fmd5_step N) f5).
Proof. intros. refine (conj _ (conj _ (conj _ (conj _ _)))); [apply fmd1_memory|apply fmd2_memory|apply fmd3_memory|apply fmd4_memory|apply fmd5_memory]. Qed.
Theorem C99_hilbert_recovers : forall (T : Type) (N : num T) (K : nat) imco reco, (1 <= K)%nat -> length imco = K ->
  remembers (4 * K + 1) (oout (hilbert_step N (4 * Z.of_nat K + 1)) (Ok (mkHilbert (repeat (n0 N) (4 * K + 1)) imco reco))).
Proof. exact @hilbert_memory. Qed.
Theorem C99_cdc_recovers : forall (T : Type) (N : num T) (K : nat) imco reco, (1 <= K)%nat -> length imco = K ->
  remembers (2 * K) (oout (cdc_step N (4 * Z.of_nat K + 1)) (Ok (mkCdc (repeat (n0 N) K) (repeat (n0 N) (2 * K)) imco reco false))).
Proof. exact @cdc_memory. Qed.
Theorem C99_sma1_recovers : forall (A : Type) (zero : A) add div (NUM : nat), (1 <= NUM)%nat ->
  remembers NUM (oout (sma1_call add div (Z.of_nat NUM)) (Ok (sma1_new zero (Z.of_nat NUM)))).
Proof. exact @sma1_memory. Qed.
Print Assumptions C99_differentiator_recovers.
Print Assumptions C99_fm_demodulators_recover.
Print Assumptions C99_hilbert_recovers.
Print Assumptions C99_cdc_recovers.
Print Assumptions C99_sma1_recovers.
(** SMA1 over 2 samples and SMA2 on the same history with one infinity *)
Example C99_sma_example : let x t := match t with 1%nat => B754_infinity false | _ => fl 4 end in
  map (fun t => match oout (sma1_call (nadd b32) (fun v => ndiv b32 v (fl 2)) 2) (Ok (sma1_new (fl 0) 2)) x t with Ok v => is_finite v | _ => false end) (seq 0 5) = [true; false; false; true; true] /\
  map (fun t => match oout (sma2_call (nadd b32) (nsub b32) (fun v => ndiv b32 v (fl 2)) 2 true) (Ok (sma2_new (fl 0) 2)) x t with Ok v => is_finite v | _ => false end) (seq 0 5) = [true; false; false; false; false].
Proof. split; reflexivity. Qed.
