(* Property C110: the phase of Resampler2 in floating point *)
From Coq Require Import Reals ZArith List Lra Lia Psatz.
From Flocq Require Import Core.
From Verif Require Import Model.Resampler Spec.Resample Spec.ExactConst Proofs.BaseLemmas Proofs.KahanFloat Proofs.KaiserRound Proofs.Rs2Round Props.PResampler.
Import ListNotations.
Open Scope R_scope.

(** position in the input after the calls before call t, and number of values returned by them *)
Fixpoint position {V} (out : nat -> list V) (d : nat -> R) (rate : R) (t : nat) : R :=
  match t with O => 0 | S t' => position out d rate t' + INR (length (out t')) * (1 - d t' / rate) end.

(** C110: Resampler2 with every operation rounded to nearest (prec bits, no overflow), |diff| <= rate/2 in every call,
    diff changing from call to call, an output buffer of two elements: the constructor and every call in every
    sequence are defined, a call returns at most two values, the phase stays in [-1, 1/2] for ever, and it misses the
    exact one by at most 1.5 * 2^-prec for every value returned so far *)
Theorem C110_phase (emin prec : Z) (TAPS OVER : nat) (rate cutoff alpha : R) (sinf : R -> R) (V : Type) (VS : vsp R V) (x : nat -> V) (d : nat -> R) (fuel : nat) (ob : list V) :
  (20 <= prec)%Z -> (emin <= - prec - 110)%Z -> dims TAPS OVER -> (Z.of_nat TAPS * Z.of_nat OVER <= 2 ^ prec)%Z ->
  0 < rate -> (forall t, Rabs (d t) <= rate / 2) -> (1 <= fuel)%nat -> (2 <= length ob)%nat ->
  let rnd := round radix2 (FLT_exp emin prec) ZnearestE in
  let step := rs2_step (Fn rnd) VS Rtoint (Z.of_nat TAPS) (Z.of_nat OVER) fuel ob in
  let start := rs2_new (Fn rnd) VS sinf (Z.of_nat TAPS) (Z.of_nat OVER) rate cutoff alpha in
  exists out : nat -> list V, forall t,
    oout step start (fun t => (x t, d t)) t = Ok (out t) /\ (length (out t) <= 2)%nat /\
    (exists s, ostate_at step start (fun t => (x t, d t)) t = Ok s /\ -1 <= rs_dpos s <= 1 / 2 /\
       Rabs (rs_dpos s - (INR t - position out d rate t)) <= INR (produced out t) * (3 / 2 * bpow radix2 (- prec))) /\
    ((forall i, 0 <= d i <= rate * bpow radix2 (- prec - 3)) -> length (out t) = 1%nat).
Proof.
  intros Hp He (D1 & D2 & D3 & D4) HN Hr Hd Hf Ho rnd step start. set (sig := fun t => (x t, d t)).
  change rnd with (FLTrnd emin prec) in *. clear rnd.
  destruct (filter_def emin prec Hp He TAPS OVER sinf rate cutoff alpha D1 D2 D3 D4 HN) as (lpf & EL & HF).
  assert (HT2 : (Z.of_nat TAPS <= 2 ^ prec)%Z) by nia.
  set (s0 := mkResampler lpf rate 0 (repeat (v0 VS) TAPS)).
  assert (E0 : start = Ok s0). { unfold start, rs2_new. rewrite EL. cbn [bind]. rewrite Nat2Z.id. cbn [nofZ Fn]. rewrite (KaiserRound.rnd_0 emin prec). reflexivity. }
  assert (ST : forall s t, good emin prec TAPS lpf rate s -> exists s' o, step s (sig t) = Ok (s', o) /\ good emin prec TAPS lpf rate s' /\ (length o <= 2)%nat /\
    Rabs (rs_dpos s' - (rs_dpos s + 1 - INR (length o) * (1 - d t / rate))) <= INR (length o) * (3 / 2 * ulp_u prec) /\
    (0 <= d t <= rate * bpow radix2 (- prec - 3) -> 0 <= rs_dpos s <= / 4 -> length o = 1%nat /\ 0 <= rs_dpos s' <= / 4)).
  { intros s t G. apply (step_def emin prec Hp He VS TAPS OVER lpf rate (d t) fuel ob s (x t)); auto. }
  set (out := fun t => match oout step start sig t with Ok o => o | _ => [] end). exists out.
  assert (ALL : forall t, exists s, ostate_at step start sig t = Ok s /\ good emin prec TAPS lpf rate s /\
    Rabs (rs_dpos s - (INR t - position out d rate t)) <= INR (produced out t) * (3 / 2 * ulp_u prec) /\
    ((forall i, 0 <= d i <= rate * bpow radix2 (- prec - 3)) -> 0 <= rs_dpos s <= / 4)).
  { induction t as [|t (s & E & G & B & K)].
    - exists s0. cbn [ostate_at position produced INR]. split; [exact E0|]. split.
      + unfold good, s0. cbn [rs_lpf rs_rate rs_buf rs_dpos]. split; [auto|]. split; [auto|]. split; [apply repeat_length|]. split; [apply generic_format_0|lra].
      + cbn [s0 rs_dpos]. rewrite !Rminus_0_r, Rabs_R0. split; [lra|intros; lra].
    - destruct (ST s t G) as (s' & o & E' & G' & L' & B' & K'). exists s'. cbn [ostate_at position produced]. rewrite E. cbn [bind]. rewrite E'. cbn [bind fst].
      assert (EO : out t = o). { unfold out, oout. rewrite E. cbn [bind]. rewrite E'. reflexivity. }
      rewrite EO. split; [reflexivity|]. split; [auto|]. split; [|intros HD; apply K'; auto]. rewrite plus_INR, S_INR.
      replace (rs_dpos s' - (INR t + 1 - (position out d rate t + INR (length o) * (1 - d t / rate)))) with ((rs_dpos s' - (rs_dpos s + 1 - INR (length o) * (1 - d t / rate))) + (rs_dpos s - (INR t - position out d rate t))) by ring.
      eapply Rle_trans; [apply Rabs_triang|]. lra. }
  intros t. destruct (ALL t) as (s & E & G & B & K). destruct (ST s t G) as (s' & o & E' & G' & L' & B' & K').
  assert (EO : oout step start sig t = Ok o). { unfold oout. rewrite E. cbn [bind]. rewrite E'. reflexivity. }
  assert (EO' : out t = o) by (unfold out; rewrite EO; reflexivity). rewrite EO'. split; [exact EO|]. split; [auto|]. split.
  - exists s. split; [exact E|]. destruct G as (_ & _ & _ & _ & G). split; [lra|exact B].
  - intros HD. apply K'; auto.
Qed.
Print Assumptions C110_phase.

(** C110: a rate difference of 0.0003 Hz at 48 kHz.  In exact arithmetic the number of values returned runs ahead of the
    number of calls by any amount; in single precision every call returns exactly one value, for ever: the increment
    is lost once the phase is large enough, and the resampler does not resample *)
Theorem C110_small_difference_refuted (TAPS OVER : nat) (cutoff alpha : R) (sinf : R -> R) (x : nat -> R) :
  dims TAPS OVER -> (Z.of_nat TAPS * Z.of_nat OVER <= 2 ^ 24)%Z ->
  let rnd := round radix2 (FLT_exp (-149) 24) ZnearestE in let sig := fun t => (x t, 0.0003) in let ob := [0; 0] in
  (exists out : nat -> list R, (forall t, oout (rs2_step Rc (vreal Rc) Rtoint (Z.of_nat TAPS) (Z.of_nat OVER) 1 ob) (rs2_new Rc (vreal Rc) sin (Z.of_nat TAPS) (Z.of_nat OVER) 48000 cutoff alpha) sig t = Ok (out t)) /\
     forall B : R, exists t, INR (produced out t) - INR t > B) /\
  (exists out : nat -> list R, (forall t, oout (rs2_step (Fn rnd) (vreal (Fn rnd)) Rtoint (Z.of_nat TAPS) (Z.of_nat OVER) 1 ob) (rs2_new (Fn rnd) (vreal (Fn rnd)) sinf (Z.of_nat TAPS) (Z.of_nat OVER) 48000 cutoff alpha) sig t = Ok (out t)) /\
     forall t, produced out t = t).
Proof.
  intros D HN rnd sig ob. split.
  - destruct (C66_rate TAPS OVER 48000 cutoff alpha D ltac:(lra)) as (w & F & K & A).
    destruct (A R (vreal Rc) x 0.0003 1%nat 1%nat ob) as (out & B); try (cbn; lia); try (unfold INT_MAX; lia). { rewrite Rabs_pos_eq; lra. } { cbn [INR]. lra. }
    exists out. split; [intros t; apply (B t)|]. intros b. set (q := 0.0003 / 48000) in *. assert (Q : q = / 160000000) by (unfold q; lra). clearbody q.
    exists (Z.to_nat (up ((Rabs b + 1) * 160000000))). set (t := Z.to_nat _). destruct (B t) as (_ & (s & _ & E & RG) & _). rewrite Q in E.
    assert (T : (Rabs b + 1) * 160000000 < INR t).
    { unfold t. rewrite INR_IZR_INZ, Z2Nat.id; [apply archimed|]. apply le_IZR. destruct (archimed ((Rabs b + 1) * 160000000)) as [G _]. pose proof (Rabs_pos b). lra. }
    pose proof (Rle_abs b). pose proof (Rabs_pos b). lra.
  - destruct (C110_phase (-149) 24 TAPS OVER 48000 cutoff alpha sinf R (vreal (Fn rnd)) x (fun _ => 0.0003) 1%nat ob) as (out & B); auto; try lia; try lra. { intros _. rewrite Rabs_pos_eq; lra. }
    exists out. split; [intros t; apply (B t)|]. assert (L : forall t, length (out t) = 1%nat).
    { intros t. apply (B t). intros _. replace (bpow radix2 (- (24) - 3)) with (/ 134217728) by reflexivity. lra. }
    induction t as [|t IH]; cbn [produced]; [auto|]. rewrite IH, L. lia.
Qed.
Print Assumptions C110_small_difference_refuted.

(** 33 taps, 16 knots per sample, single precision: after 2^20 values the phase is known to 1/10 *)
Example C110_case : dims 33 16 /\ (Z.of_nat 33 * Z.of_nat 16 <= 2 ^ 24)%Z /\ 2 ^ 20 * (3 / 2 * bpow radix2 (-24)) <= 0.1.
Proof. split; [unfold dims, INT_MAX; cbn; lia|]. split; [cbn; lia|]. change (bpow radix2 (-24)) with (/ 16777216). lra. Qed.
