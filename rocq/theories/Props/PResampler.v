(* Properties C65, C66: resamplers *)
From Coq Require Import Reals ZArith List Lra Lia Psatz.
From Flocq Require Import Core.
From Verif Require Import Model.Resampler Spec.ExactConst Spec.Resample Spec.Interp Spec.Fir Proofs.BaseLemmas Proofs.ConstProofs Proofs.WinProofs Proofs.ShiftProofs
  Proofs.ResamplerProofs Proofs.Resampler2Proofs Props.PWinFun.
Import ListNotations.
Open Scope R_scope.

Lemma lit_same x : -2 <= x <= 1.5 -> exact_lit x = x.
Proof. intros H. unfold exact_lit. rewrite !Req_bool_false; [reflexivity|..]; unfold Pi_lit, HalfPi_lit, TwoPi_lit, SqrtTwoPi_lit; lra. Qed.
Lemma again_rc {V} (VS : vsp R V) TAPS OVER lpf buf delta : forall fuel p out m,
  rs2_again Rc VS Rtoint TAPS OVER fuel lpf buf delta p out m = rs2_again Rn VS Rtoint TAPS OVER fuel lpf buf delta p out m.
Proof.
  assert (E : nlit Rc 0.5 = nlit Rn 0.5) by (cbn [nlit Rc Rn]; apply lit_same; lra).
  induction fuel as [|f IH]; intros p out m; cbn [rs2_again]; rewrite E; [reflexivity|].
  change (rs_filter Rc) with (rs_filter Rn). change (nadd Rc) with Rplus. change (nadd Rn) with Rplus.
  destruct (for_loop _ _ _ _); cbn [bind]; auto. destruct (set _ _ _); cbn [bind]; auto. destruct (ichk _); cbn [bind]; auto.
  change (nltb Rc) with (nltb Rn). destruct (nltb Rn _ _); auto.
Qed.
Lemma call_rc {V} (VS : vsp R V) TAPS OVER fuel s ob i d : rs2_call Rc VS Rtoint TAPS OVER fuel s ob i d = rs2_call Rn VS Rtoint TAPS OVER fuel s ob i d.
Proof.
  unfold rs2_call. assert (E : nlit Rc (-0.5) = nlit Rn (-0.5)) by (cbn [nlit Rc Rn]; apply lit_same; lra). rewrite E.
  destruct (shift_in _ _ _); cbn [bind]; auto. change (nltb Rc) with (nltb Rn). destruct (nltb Rn _ _); auto. rewrite again_rc. reflexivity.
Qed.

(** the interpolation kernel built by the constructors: the object [lpf] evaluates the natural cubic spline
    through the Kaiser windowed sinc with OVER knots per sample *)
Definition kernel (TAPS OVER : nat) (rate cutoff alpha : R) (w : nat -> R) (F : R -> R) : Prop :=
  (forall n, (n < TAPS * OVER)%nat -> win_kaiser Rc alpha (Z.of_nat n) (Z.of_nat TAPS * Z.of_nat OVER) = Ok (w n)) /\
  natural_spline (TAPS * OVER) (fun n => INR n / INR OVER) (fun n =>
    let f := 2 * cutoff / rate in f * rsinc (f * (INR n / INR OVER - (INR TAPS - 1) / 2)) * w n) F.
Definition dims (TAPS OVER : nat) : Prop := (1 <= TAPS)%nat /\ (1 <= OVER)%nat /\ (2 <= TAPS * OVER)%nat /\ (16 * (Z.of_nat TAPS * Z.of_nat OVER) <= INT_MAX)%Z.
Lemma make_kernel TAPS OVER rate cutoff alpha : dims TAPS OVER ->
  exists lpf w F, rs_new_lpf Rc sin (Z.of_nat TAPS) (Z.of_nat OVER) rate cutoff alpha = Ok lpf /\ kernel TAPS OVER rate cutoff alpha w F /\
    forall k, -1 <= k <= INR TAPS -> rs_filter Rn Rtoint (Z.of_nat TAPS) (Z.of_nat OVER) lpf k = Ok (F k).
Proof.
  intros (HT & HO & HN & HI). set (N := (Z.of_nat TAPS * Z.of_nat OVER)%Z) in *.
  assert (HW : forall n, (0 <= n < N)%Z -> exists v, win_kaiser Rc alpha n N = Ok v).
  { intros n Hn. destruct (C56_kaiser alpha) as (G & _). destruct (G n N) as (v & E & _); try lia; eauto. }
  set (w := fun n : Z => match win_kaiser Rc alpha n N with Ok v => v | _ => 0 end).
  assert (Hw : forall n, (0 <= n < N)%Z -> win_kaiser Rc alpha n N = Ok (w n)) by (intros n Hn; unfold w; destruct (HW n Hn) as (v & ->); reflexivity).
  set (g := fun n : Z => let f := 2 * cutoff / rate in f * rsinc (f * (IZR n / INR OVER - (INR TAPS - 1) / 2)) * w n).
  destruct (kernel_ok TAPS OVER HO HN HI (rs_tap Rc sin (Z.of_nat TAPS) (Z.of_nat OVER) rate cutoff alpha) g) as (tmp & lpf & F & E1 & E2 & E3 & E4).
  - intros n Hn. fold N in Hn. unfold rs_tap. fold N. rewrite Hw by auto. cbn [bind]. rewrite sinc_rc. cbn [nmul ndiv nsub nofZ Rc]. rewrite minus_IZR, <- !INR_IZR_INZ. reflexivity.
  - exists lpf, (fun n => w (Z.of_nat n)), F. split.
    + unfold rs_new_lpf. fold N. fold N in E1, E2. rewrite E1. cbn [bind]. cbn [ndiv nofZ nlit Rc]. rewrite lit_same by lra. replace 1.0 with 1 by lra. exact E2.
    + split; [|exact E4]. split; [intros n Hn; apply Hw; lia|]. destruct E3 as (A & B & C). split; [|split; [exact B|exact C]].
      intros n Hn. rewrite (A n Hn). unfold g. rewrite <- INR_IZR_INZ. reflexivity.
Qed.

(** C65: Resampler: with rate + diff > 0, positions that fit int and buffers of (samples-1)*stride+1 elements
    the call returns; output i + (TAPS-1)/2 becomes the input interpolated at position i * rate/(rate+diff)
    when the TAPS samples around it lie inside the input, and everything else is left as it was *)
Theorem C65_values : forall (TAPS OVER : nat) (rate cutoff alpha : R), dims TAPS OVER -> 0 < rate ->
  exists lpf w F, rs_new_lpf Rc sin (Z.of_nat TAPS) (Z.of_nat OVER) rate cutoff alpha = Ok lpf /\ kernel TAPS OVER rate cutoff alpha w F /\
  forall (V : Type) (VS : vsp R V) (output input : list V) (def : V) (diff : R) (samples stride : Z),
    let ratio := rate / (rate + diff) in
    let pos i := IZR i * ratio in
    let written i := (0 <= i < samples - Z.of_nat TAPS)%Z /\ (ZnearestE (pos i) + Z.of_nat TAPS <= samples)%Z in
    let dest i := ((i + (Z.of_nat TAPS - 1) / 2) * stride)%Z in
    0 < rate + diff -> (1 <= stride)%Z -> (0 <= samples)%Z ->
    ((samples - 1) * stride < zlen input)%Z -> ((samples - 1) * stride < zlen output)%Z -> ((samples - 1) * stride <= INT_MAX)%Z ->
    pos (samples - Z.of_nat TAPS)%Z + INR TAPS <= IZR INT_MAX ->
    exists out', rs_call Rc VS Rtoint Rnearby (Z.of_nat TAPS) (Z.of_nat OVER) lpf rate output input diff samples stride = Ok out' /\
      length out' = length output /\
      (forall i, written i -> (0 <= ZnearestE (pos i))%Z /\ znth out' (dest i) = Some (vsum VS TAPS (fun s =>
        let j := (ZnearestE (pos i) + Z.of_nat s)%Z in vscale VS (F (IZR j - pos i)) (nth (Z.to_nat (j * stride)) input def)))) /\
      (forall j, (forall i, written i -> j <> dest i) -> znth out' j = znth output j).
Proof.
  intros TAPS OVER rate cutoff alpha D Hr. destruct (make_kernel TAPS OVER rate cutoff alpha D) as (lpf & w & F & E & K & A). exists lpf, w, F. split; [exact E|]. split; [exact K|].
  intros V VS output input def diff samples stride ratio pos written dest Hrd Hst Hs Hin Hout Hint Hpos. destruct D as (HT & HO & HN & HI). rewrite INR_IZR_INZ in Hpos.
  assert (HTi : (Z.of_nat TAPS <= INT_MAX)%Z) by nia.
  destruct (rs_call_ok VS TAPS OVER lpf F HT A rate diff samples stride input output def Hr Hrd Hst Hs Hin Hout Hint HTi Hpos) as (out' & E1 & E2 & E3 & E4).
  exists out'. split; [exact E1|]. split; [exact E2|]. split; [|exact E4]. intros i Hi. split; [|exact (E3 i Hi)].
  rewrite <- (Zrnd_IZR ZnearestE 0). apply (Zrnd_le ZnearestE). apply Rmult_le_pos; [apply IZR_le, Hi|]. apply Rlt_le, Rdiv_lt_0_compat; auto.
Qed.
Print Assumptions C65_values.

(** C65: different i write different cells, so every cell is written at most once *)
Theorem C65_once : forall (TAPS stride i j : Z), (1 <= stride)%Z -> ((i + (TAPS - 1) / 2) * stride = (j + (TAPS - 1) / 2) * stride)%Z -> i = j.
Proof. intros. nia. Qed.
Print Assumptions C65_once.

(** C65: buffer accesses in any arithmetic (rounded, with NaN or infinities, rate + diff = 0 included), as long
    as the conversions to int made on the way are defined *)
Theorem C65_safe : forall (T V : Type) (M : num T) (VS : vsp T V) (toint : T -> outcome Z) (nearby : T -> T) (TAPS OVER : Z)
  (lpf : spline T T) (rate diff : T) (samples stride : Z) (input output : list V), (1 <= TAPS <= INT_MAX)%Z -> (1 <= stride)%Z -> (0 <= samples <= INT_MAX)%Z ->
  ((samples - 1) * stride < zlen input)%Z -> ((samples - 1) * stride < zlen output)%Z -> ((samples - 1) * stride <= INT_MAX)%Z ->
  (forall i, (0 <= i < samples - TAPS)%Z -> let x := nmul M (nofZ M i) (ndiv M rate (nadd M rate diff)) in
    exists s0, toint (nearby x) = Ok s0 /\ (INT_MIN <= s0 + TAPS <= INT_MAX)%Z /\
    forall s, (s0 <= s < s0 + TAPS)%Z -> (0 <= s < samples)%Z -> exists v, rs_filter M toint TAPS OVER lpf (nsub M (nofZ M s) x) = Ok v) ->
  exists out', rs_call M VS toint nearby TAPS OVER lpf rate output input diff samples stride = Ok out' /\ length out' = length output /\
    forall j, (forall i, (0 <= i < samples - TAPS)%Z -> j <> (i + (TAPS - 1) / 2) * stride)%Z -> znth out' j = znth output j.
Proof. intros. apply rs_call_safe; auto; lia. Qed.
Print Assumptions C65_safe.

(** positions beyond int: undefined behaviour although rate + diff > 0 *)
Example C65_overflow_refuted : forall (V : Type) (VS : vsp R V) lpf (output input : list V),
  0 < 1 + (-1 + 1 / 4294967296) /\ forall out', rs_call Rc VS Rtoint Rnearby 3 1 lpf 1 output input (-1 + 1 / 4294967296) 5 1 <> Ok out'.
Proof.
  intros V VS lpf output input. split; [lra|]. intros out'. unfold rs_call. change (ichk (5 - 3)) with (Ok 2%Z). cbn [bind]. change (Z.to_nat 2) with 2%nat. cbn [for_loop]. destruct (Rtoint _); cbn [bind]; try discriminate.
  assert (Und : forall o : list V, (s0 <- Rtoint (Rnearby (nmul Rc (nofZ Rc (0 + 1)) (ndiv Rc 1 (nadd Rc 1 (-1 + 1 / 4294967296))))) ;; Ok o) = Undefined).
  { intros o. cbn [nmul nofZ ndiv nadd Rc]. replace (IZR (0 + 1) * (1 / (1 + (-1 + 1 / 4294967296)))) with (IZR 4294967296) by (cbn; field).
    unfold Rnearby, Rtoint. rewrite (Zrnd_IZR ZnearestE), Ztrunc_IZR. reflexivity. }
  destruct (ichk _); cbn [bind]; try discriminate. match goal with |- context [bind ?m _] => destruct m; cbn [bind]; try discriminate end.
  destruct (Rtoint (Rnearby (nmul Rc (nofZ Rc (0 + 1)) _))) eqn:X; cbn [bind] in *; try discriminate. specialize (Und a1). discriminate.
Qed.

(** C65: with diff = 0, an odd number of taps and the cutoff at half the rate, the output is the input times the
    window weight of the centre tap, which lies in (0, 1] *)
Theorem C65_identity : forall (h OVER : nat) (rate alpha : R), let TAPS := (2 * h + 1)%nat in dims TAPS OVER -> 0 < rate ->
  exists lpf w, rs_new_lpf Rc sin (Z.of_nat TAPS) (Z.of_nat OVER) rate (rate / 2) alpha = Ok lpf /\ 0 < w <= 1 /\
    win_kaiser Rc alpha (Z.of_nat (h * OVER)) (Z.of_nat TAPS * Z.of_nat OVER) = Ok w /\
  forall (output input : list R) (samples stride : Z), (1 <= stride)%Z -> (0 <= samples)%Z ->
    ((samples - 1) * stride < zlen input)%Z -> ((samples - 1) * stride < zlen output)%Z -> ((samples - 1) * stride <= INT_MAX)%Z -> (samples <= INT_MAX)%Z ->
    exists out', rs_call Rc (vreal Rc) Rtoint Rnearby (Z.of_nat TAPS) (Z.of_nat OVER) lpf rate output input 0 samples stride = Ok out' /\
      forall j, (Z.of_nat h <= j < samples - Z.of_nat h - 1)%Z -> znth out' (j * stride) = Some (w * nth (Z.to_nat (j * stride)) input 0).
Proof.
  intros h OVER rate alpha TAPS D Hr. destruct (C65_values TAPS OVER rate (rate / 2) alpha D Hr) as (lpf & w & F & E & (Hw & (Hk & _)) & A).
  destruct D as (HT & HO & HN & HI). assert (Hc : (h * OVER < TAPS * OVER)%nat) by (unfold TAPS; nia).
  exists lpf, (w (h * OVER)%nat). split; [exact E|]. split; [|split; [apply Hw; auto|]].
  - destruct (C56_kaiser alpha) as (G & P). destruct (G (Z.of_nat (h * OVER)) (Z.of_nat TAPS * Z.of_nat OVER)%Z) as (v & Ev & B); try lia. rewrite (Hw _ Hc) in Ev. injection Ev as <-.
    split; [|lra]. apply (P (Z.of_nat (h * OVER)) (Z.of_nat TAPS * Z.of_nat OVER)%Z); auto; lia.
  - intros output input samples stride Hst Hs Hin Hout Hint Hsi.
    assert (ratio1 : rate / (rate + 0) = 1) by (field; lra).
    destruct (A R (vreal Rc) output input 0 0 samples stride) as (out' & E1 & _ & E3 & _); auto; [lra| |].
    { rewrite ratio1, Rmult_1_r, INR_IZR_INZ, <- plus_IZR. apply IZR_le. lia. }
    exists out'. split; [exact E1|]. intros j Hj. set (i := (j - Z.of_nat h)%Z). assert (Hpos : IZR i * (rate / (rate + 0)) = IZR i) by (rewrite ratio1; ring).
    destruct (E3 i) as (_ & E4).
    { rewrite Hpos, (Zrnd_IZR ZnearestE). unfold i, TAPS. lia. }
    rewrite Hpos, (Zrnd_IZR ZnearestE) in E4. replace ((Z.of_nat TAPS - 1) / 2)%Z with (Z.of_nat h) in E4 by (unfold TAPS; replace (Z.of_nat (2 * h + 1) - 1)%Z with (Z.of_nat h * 2)%Z by lia; rewrite Z.div_mul; lia).
    replace (i + Z.of_nat h)%Z with j in E4 by (unfold i; lia). rewrite E4. f_equal.
    assert (HOv : 1 <= INR OVER) by (change 1 with (INR 1); apply le_INR; lia).
    assert (FK : forall s, (s < TAPS)%nat -> F (INR s) = if (s =? h)%nat then w (h * OVER)%nat else 0).
    { intros s Hsn. specialize (Hk (s * OVER)%nat ltac:(nia)). cbv beta zeta in Hk. rewrite mult_INR in Hk. replace (INR s * INR OVER / INR OVER) with (INR s) in Hk by (field; lra).
      rewrite Hk. replace (2 * (rate / 2) / rate) with 1 by (field; lra). replace (1 * (INR s - (INR TAPS - 1) / 2)) with (IZR (Z.of_nat s - Z.of_nat h)).
      2: { rewrite minus_IZR, <- !INR_IZR_INZ. unfold TAPS. rewrite plus_INR, mult_INR. cbn [INR]. field. }
      destruct (Nat.eqb_spec s h) as [->|Nh]; [rewrite Z.sub_diag, rsinc_0; ring|]. rewrite rsinc_int by lia. ring. }
    assert (SUM : forall n, (n <= TAPS)%nat -> vsum (vreal Rc) n (fun s => vscale (vreal Rc) (F (IZR (i + Z.of_nat s) - IZR i)) (nth (Z.to_nat ((i + Z.of_nat s) * stride)) input 0)) =
      if (h <? n)%nat then w (h * OVER)%nat * nth (Z.to_nat (j * stride)) input 0 else 0).
    { induction n as [|n IH]; intros Hn; [reflexivity|]. cbn [vsum]. rewrite IH by lia. cbn [vadd vscale vreal nadd nmul Rc].
      replace (IZR (i + Z.of_nat n) - IZR i) with (INR n) by (rewrite plus_IZR, <- INR_IZR_INZ; ring). rewrite FK by lia.
      destruct (Nat.eqb_spec n h) as [->|Nh].
      - rewrite (proj2 (Nat.ltb_ge h h)), (proj2 (Nat.ltb_lt h (S h))) by lia. replace (i + Z.of_nat h)%Z with j by (unfold i; lia). ring.
      - destruct (Nat.ltb_spec h n), (Nat.ltb_spec h (S n)); try lia; ring. }
    rewrite SUM by lia. rewrite (proj2 (Nat.ltb_lt h TAPS)) by (unfold TAPS; lia). reflexivity.
Qed.
Print Assumptions C65_identity.

(** C66: Resampler2: any history of calls with |diff| < rate, the difference may change from call to call.
    With an output buffer of k+1 elements where diff/rate <= k (1 - diff/rate) (k = 1 for diff <= rate/2)
    every call returns; one input advances by 1, one output by 1 - diff/rate, the phase dpos is the
    difference of the two and stays in (-3/2, 1/2]; output j of call t is the input interpolated at the
    exact position consumed so far, using the TAPS samples ending at sample t, which is the sample nearest
    to it *)
Theorem C66_stream : forall (TAPS OVER : nat) (rate cutoff alpha : R), dims TAPS OVER -> 0 < rate ->
  exists w F, kernel TAPS OVER rate cutoff alpha w F /\
  forall (V : Type) (VS : vsp R V) (x : nat -> V) (d : nat -> R) (k fuel : nat) (ob : list V),
    (forall t, Rabs (d t) < rate) -> (forall t, d t / rate <= INR k * (1 - d t / rate)) ->
    (k + 1 <= length ob)%nat -> (k <= fuel)%nat -> (Z.of_nat k < INT_MAX)%Z ->
    let step := rs2_step Rc VS Rtoint (Z.of_nat TAPS) (Z.of_nat OVER) fuel ob in
    let start := rs2_new Rc VS sin (Z.of_nat TAPS) (Z.of_nat OVER) rate cutoff alpha in
    exists (out : nat -> list V) (used : nat -> R),
      used O = 0 /\ (forall t, used (S t) = used t + INR (length (out t)) * (1 - d t / rate)) /\
      forall t, (exists s, ostate_at step start (fun t => (x t, d t)) t = Ok s /\ rs_dpos s = INR t - used t /\ -1.5 < rs_dpos s <= 0.5) /\
        oout step start (fun t => (x t, d t)) t = Ok (out t) /\ (length (out t) <= k + 1)%nat /\
        forall j, (j < length (out t))%nat -> let p := used t + INR j * (1 - d t / rate) in
          Rabs (INR t - p) <= 0.5 /\ nth_error (out t) j = Some (interp_at VS TAPS F (from0 VS x) (Z.of_nat t) p).
Proof.
  intros TAPS OVER rate cutoff alpha D Hr. destruct (make_kernel TAPS OVER rate cutoff alpha D) as (lpf & w & F & E & K & A). exists w, F. split; [exact K|].
  intros V VS x d k fuel ob Hd Hk Hob Hf Hki step start. destruct D as (HT & HO & HN & HI).
  assert (Hob' : (S k <= length ob)%nat) by lia. assert (Hki' : (Z.of_nat (S k) <= INT_MAX)%Z) by lia.
  set (step' := rs2_step Rn VS Rtoint (Z.of_nat TAPS) (Z.of_nat OVER) fuel ob).
  assert (ES : forall s i, step s i = step' s i) by (intros s i; unfold step, step', rs2_step; rewrite call_rc; reflexivity).
  assert (E0 : start = Ok (mkResampler lpf rate 0 (repeat (v0 VS) TAPS))) by (unfold start, rs2_new; rewrite E; cbn [bind]; rewrite Nat2Z.id; reflexivity).
  assert (EA : forall t, ostate_at step start (fun t => (x t, d t)) t = ostate_at step' (Ok (mkResampler lpf rate 0 (repeat (v0 VS) TAPS))) (fun t => (x t, d t)) t).
  { induction t as [|t IH]; cbn [ostate_at]; [exact E0|]. rewrite IH. match goal with |- bind ?o _ = _ => destruct o as [s| | |] end; cbn [bind]; auto. rewrite ES. reflexivity. }
  exists (outs VS TAPS OVER lpf rate fuel ob x d), (used VS TAPS OVER lpf rate fuel ob x d). split; [reflexivity|]. split; [reflexivity|].
  intros t. destruct (outs_ok VS TAPS OVER lpf F HT A rate k fuel ob Hr Hob' Hf Hki' x d Hd Hk t) as (O1 & O2 & O3 & O4).
  destruct (state_ok VS TAPS OVER lpf F HT A rate k fuel ob Hr Hob' Hf Hki' x d Hd Hk t) as (dpos & S1 & S2 & S3).
  split; [|split; [|split; [lia|exact O4]]].
  - rewrite EA. eexists. split; [exact S1|]. split; [exact S3|exact S2].
  - rewrite <- O1. unfold oout. rewrite EA. fold step'. match goal with |- bind ?o _ = _ => destruct o as [s| | |] end; cbn [bind]; auto. rewrite ES. reflexivity.
Qed.
Print Assumptions C66_stream.

(** number of values returned by the calls before call t *)
Fixpoint produced {V} (out : nat -> list V) (t : nat) : nat := match t with O => O | S t' => (produced out t' + length (out t'))%nat end.
(** C66: constant diff: t inputs give N outputs with N (1 - diff/rate) = t - phase, so the number of
    outputs never deviates from t / (1 - diff/rate) by more than 3/2 / (1 - diff/rate); output number n
    (counted from the start) is the input interpolated at n (1 - diff/rate) *)
Theorem C66_rate : forall (TAPS OVER : nat) (rate cutoff alpha : R), dims TAPS OVER -> 0 < rate ->
  exists w F, kernel TAPS OVER rate cutoff alpha w F /\
  forall (V : Type) (VS : vsp R V) (x : nat -> V) (diff : R) (k fuel : nat) (ob : list V),
    Rabs diff < rate -> diff / rate <= INR k * (1 - diff / rate) ->
    (k + 1 <= length ob)%nat -> (k <= fuel)%nat -> (Z.of_nat k < INT_MAX)%Z ->
    let step := rs2_step Rc VS Rtoint (Z.of_nat TAPS) (Z.of_nat OVER) fuel ob in
    let start := rs2_new Rc VS sin (Z.of_nat TAPS) (Z.of_nat OVER) rate cutoff alpha in
    exists out : nat -> list V, forall t,
      oout step start (fun t => (x t, diff)) t = Ok (out t) /\
      (exists s, ostate_at step start (fun t => (x t, diff)) t = Ok s /\ INR (produced out t) * (1 - diff / rate) = INR t - rs_dpos s /\ -1.5 < rs_dpos s <= 0.5) /\
      forall j, (j < length (out t))%nat -> let p := INR (produced out t + j) * (1 - diff / rate) in
        Rabs (INR t - p) <= 0.5 /\ nth_error (out t) j = Some (interp_at VS TAPS F (from0 VS x) (Z.of_nat t) p).
Proof.
  intros TAPS OVER rate cutoff alpha D Hr. destruct (C66_stream TAPS OVER rate cutoff alpha D Hr) as (w & F & K & A). exists w, F. split; [exact K|].
  intros V VS x diff k fuel ob Hd Hk Hob Hf Hki step start. destruct (A V VS x (fun _ => diff) k fuel ob) as (out & used & U0 & US & B); auto.
  assert (U : forall t, used t = INR (produced out t) * (1 - diff / rate)).
  { induction t as [|t IH]; [rewrite U0; cbn; ring|]. rewrite US, IH. cbn [produced]. rewrite plus_INR. ring. }
  exists out. intros t. destruct (B t) as ((s & S1 & S2 & S3) & O1 & O2 & O3). split; [exact O1|]. split.
  - exists s. split; [exact S1|]. rewrite S2 in *. rewrite U in *. split; [ring|exact S3].
  - intros j Hj p. destruct (O3 j Hj) as (P1 & P2). assert (E : used t + INR j * (1 - diff / rate) = p) by (unfold p; rewrite U, plus_INR; ring). rewrite E in *. auto.
Qed.
Print Assumptions C66_rate.

(** C66: with diff >= rate > 0 a call in the initial state (or any state with phase above -1/2) does not return,
    whatever the output buffer and however long one waits *)
Theorem C66_diverges : forall (V : Type) (VS : vsp R V) (TAPS OVER : Z) (s : resampler R V) (fuel : nat) (ob : list V) (input : V) (diff : R) r,
  0 < rs_rate s -> rs_rate s <= diff -> -0.5 < rs_dpos s ->
  rs2_call Rc VS Rtoint TAPS OVER fuel s ob input diff <> Ok r.
Proof.
  intros V VS TAPS OVER s fuel ob input diff r Hr Hd Hp. rewrite call_rc. unfold rs2_call. destruct (shift_in _ _ _); cbn [bind]; try discriminate.
  cbn [nltb nlit Rn]. rewrite Rlt_bool_false by lra. assert (1 <= ndiv Rn diff (rs_rate s)).
  { cbn [ndiv Rn]. apply (Rmult_le_reg_r (rs_rate s)); auto. unfold Rdiv. rewrite Rmult_assoc, Rinv_l by lra. lra. }
  pose proof (again_diverges VS TAPS OVER (rs_lpf s) a (ndiv Rn diff (rs_rate s)) H fuel (rs_dpos s) ob 0 Hp) as Q.
  destruct (rs2_again _ _ _ _ _ _ _ _ _ _ _ _) as [v| | |]; cbn [bind]; try discriminate. exfalso. apply (Q v). reflexivity.
Qed.
Print Assumptions C66_diverges.

(** the hypotheses are met: 3 taps, 2 knots per sample; diff between -rate/2 and rate/2 with a buffer of 2 *)
Example C66_ex : dims 3 2 /\ forall d, Rabs d <= 1 / 2 -> Rabs d < 1 /\ d / 1 <= INR 1 * (1 - d / 1).
Proof.
  split; [unfold dims, INT_MAX; cbn; lia|]. intros d H. split; [lra|]. apply Rabs_le_inv in H. cbn [INR]. unfold Rdiv. rewrite Rinv_1. lra.
Qed.
