(* Proofs about Resampler2 in Model/Resampler.v *)
From Coq Require Import Reals ZArith List Lia Lra Psatz.
From Flocq Require Import Core.
From Verif Require Import Model.Resampler Spec.Resample Proofs.BaseLemmas Proofs.ShiftProofs Proofs.ResamplerProofs.
Import ListNotations.
Open Scope R_scope.

Lemma nth_error_firstn' {A} (l : list A) : forall n i, (i < n)%nat -> nth_error (firstn n l) i = nth_error l i.
Proof. induction l as [|a l IH]; intros [|n] i H; try lia; [destruct i; reflexivity|]. destruct i; [reflexivity|]. cbn. apply IH. lia. Qed.

Section Stream.
Context {V : Type} (VS : vsp R V).
Variables (TAPS OVER : nat) (lpf : spline R R) (F : R -> R).
Hypothesis HT : (1 <= TAPS)%nat.
Hypothesis HF : forall k, -1 <= k <= INR TAPS -> rs_filter Rn Rtoint (Z.of_nat TAPS) (Z.of_nat OVER) lpf k = Ok (F k).
Definition itp (buf : list V) (p : R) : V := vsum VS TAPS (fun s => vscale VS (F (INR s + p)) (nth s buf (v0 VS))).
Notation again := (rs2_again Rn VS Rtoint (Z.of_nat TAPS) (Z.of_nat OVER)).

Lemma sum_ok buf p : length buf = TAPS -> -0.5 <= p <= 0.5 ->
  for_loop (Z.to_nat (Z.of_nat TAPS)) 0 (fun s sum =>
    v <- rs_filter Rn Rtoint (Z.of_nat TAPS) (Z.of_nat OVER) lpf (nadd Rn (nofZ Rn s) p) ;; a <- get buf s ;;
    Ok (vadd VS sum (vscale VS v a))) (v0 VS) = Ok (itp buf p).
Proof.
  intros HL Hp. rewrite Nat2Z.id. apply for_vsum. intros j a Hj. cbn [nadd nofZ Rn]. rewrite Z.add_0_l, <- INR_IZR_INZ.
  assert (0 <= INR j <= INR TAPS - 1). { split; [apply pos_INR|]. pose proof (le_INR (S j) TAPS ltac:(lia)) as Q. rewrite S_INR in Q. lra. }
  rewrite HF by lra. cbn [bind]. erewrite get_Some; [cbn [bind]; reflexivity|]. rewrite znth_nth_error. apply nth_error_nth'. lia.
Qed.
Lemma again_ok buf delta : length buf = TAPS -> delta < 1 -> forall k fuel out m0 p, -0.5 <= p <= 0.5 -> p + delta - 0.5 <= INR k * (1 - delta) -> (k <= fuel)%nat ->
  (0 <= m0)%Z -> (m0 + 1 + Z.of_nat k <= zlen out)%Z -> (m0 + 1 + Z.of_nat k <= INT_MAX)%Z ->
  exists m p' out', again fuel lpf buf delta p out m0 = Ok (p', out', (m0 + Z.of_nat (S m))%Z) /\ (m <= k)%nat /\
    p' = p + 1 - INR (S m) * (1 - delta) /\ -0.5 + delta <= p' <= 0.5 /\ zlen out' = zlen out /\
    (forall j, (j <= m)%nat -> znth out' (m0 + Z.of_nat j) = Some (itp buf (p - INR j * (1 - delta))) /\ -0.5 <= p - INR j * (1 - delta) <= 0.5) /\
    (forall i, (i < m0 \/ m0 + Z.of_nat m < i)%Z -> znth out' i = znth out i).
Proof.
  intros HL Hd. assert (H05 : forall a b : R, nltb Rn a b = Rlt_bool a b) by reflexivity.
  induction k as [|k IH]; intros fuel out m0 p Hp Hk Hf H0 Ho Hi.
  - assert (again fuel lpf buf delta p out m0 = Ok (p + delta, zupd out m0 (itp buf p), (m0 + 1)%Z)) as ->.
    { destruct fuel; cbn [rs2_again]; rewrite sum_ok by auto; cbn [bind]; rewrite set_in_range by lia; cbn [bind];
        rewrite ichk_ok by (unfold INT_MIN; lia); cbn [bind nadd nlit Rn]; rewrite H05, Rlt_bool_false by (cbn in Hk; lra); reflexivity. }
    exists O, (p + delta), (zupd out m0 (itp buf p)). split; [do 2 f_equal; lia|]. split; [lia|]. split; [cbn; ring|]. cbn [INR] in Hk. split; [lra|].
    split; [apply zlen_zupd|]. split.
    + intros j Hj. assert (j = O) as -> by lia. cbn [INR]. rewrite Z.add_0_r, Rmult_0_l, Rminus_0_r. split; [apply znth_zupd_eq; lia|lra].
    + intros i Hj. apply znth_zupd_ne; lia.
  - destruct (Rlt_dec 0.5 (p + delta)) as [L|L].
    + destruct fuel as [|fuel]; [lia|]. cbn [rs2_again]. rewrite sum_ok by auto. cbn [bind]. rewrite set_in_range by lia. cbn [bind].
      rewrite ichk_ok by (unfold INT_MIN; lia). cbn [bind nadd nlit nsub nofZ Rn]. rewrite H05, Rlt_bool_true by lra.
      rewrite S_INR in Hk. destruct (IH fuel (zupd out m0 (itp buf p)) (m0 + 1)%Z (p + delta - 1)) as (m & p' & out' & E & Hm & Ep & Bp & Lo & A & B); try lra; try lia.
      { rewrite zlen_zupd. lia. }
      rewrite E. exists (S m), p', out'. split; [do 2 f_equal; lia|]. split; [lia|]. split; [rewrite Ep, !S_INR; ring|]. split; [exact Bp|].
      split; [rewrite Lo; apply zlen_zupd|]. split.
      * intros [|j] Hj.
        -- cbn [INR]. rewrite Z.add_0_r, Rmult_0_l, Rminus_0_r. split; [|lra]. rewrite B by lia. apply znth_zupd_eq. lia.
        -- destruct (A j) as (A1 & A2); [lia|]. rewrite S_INR. replace (p - (INR j + 1) * (1 - delta)) with (p + delta - 1 - INR j * (1 - delta)) by ring.
           split; [|exact A2]. rewrite <- A1. f_equal. lia.
      * intros i Hj. rewrite B by lia. apply znth_zupd_ne; lia.
    + assert (again fuel lpf buf delta p out m0 = Ok (p + delta, zupd out m0 (itp buf p), (m0 + 1)%Z)) as ->.
      { destruct fuel; cbn [rs2_again]; rewrite sum_ok by auto; cbn [bind]; rewrite set_in_range by lia; cbn [bind];
          rewrite ichk_ok by (unfold INT_MIN; lia); cbn [bind nadd nlit Rn]; rewrite H05, Rlt_bool_false by lra; reflexivity. }
      exists O, (p + delta), (zupd out m0 (itp buf p)). split; [do 2 f_equal; lia|]. split; [lia|]. split; [cbn; ring|]. split; [lra|].
      split; [apply zlen_zupd|]. split.
      * intros j Hj. assert (j = O) as -> by lia. cbn [INR]. rewrite Z.add_0_r, Rmult_0_l, Rminus_0_r. split; [apply znth_zupd_eq; lia|lra].
      * intros i Hj. apply znth_zupd_ne; lia.
Qed.

(** a call with |diff| < rate *)
Variables (rate : R) (k fuel : nat) (ob : list V).
Hypothesis Hr : 0 < rate.
Hypothesis Hob : (S k <= length ob)%nat.
Hypothesis Hfuel : (k <= fuel)%nat.
Hypothesis Hki : (Z.of_nat (S k) <= INT_MAX)%Z.
Notation step := (rs2_step Rn VS Rtoint (Z.of_nat TAPS) (Z.of_nat OVER) fuel ob).
Lemma step_ok dpos (xz : Z -> V) (t : Z) d : Rabs d < rate -> d / rate <= INR k * (1 - d / rate) -> -1.5 < dpos <= 0.5 ->
  let buf' := wind xz (t + 1 - Z.of_nat TAPS) TAPS in
  exists dpos' l, step (mkResampler lpf rate dpos (wind xz (t - Z.of_nat TAPS) TAPS)) (xz t, d) = Ok (mkResampler lpf rate dpos' buf', l) /\
    -1.5 < dpos' <= 0.5 /\ dpos' = dpos + 1 - INR (length l) * (1 - d / rate) /\ (length l <= S k)%nat /\
    (forall j, (j < length l)%nat -> nth_error l j = Some (itp buf' (dpos - INR j * (1 - d / rate))) /\ -0.5 <= dpos - INR j * (1 - d / rate) <= 0.5) /\
    (length l = O <-> dpos < -0.5).
Proof.
  intros Hd Hk Hdp buf'. assert (Hdel : -1 < d / rate < 1).
  { apply Rabs_def2 in Hd. split; apply (Rmult_lt_reg_r rate); auto; unfold Rdiv; rewrite Rmult_assoc, Rinv_l, Rmult_1_r by lra; lra. }
  unfold rs2_step, rs2_call. cbn [fst snd rs_buf rs_dpos rs_lpf rs_rate].
  rewrite (wind_shift xz (t - Z.of_nat TAPS) TAPS) by (auto; f_equal; lia). cbn [bind]. replace (t - Z.of_nat TAPS + 1)%Z with (t + 1 - Z.of_nat TAPS)%Z by lia. fold buf'.
  change (nltb Rn dpos (nlit Rn (-0.5))) with (Rlt_bool dpos (-0.5)). destruct (Rlt_bool_spec dpos (-0.5)) as [L|L].
  - cbn [bind]. exists (dpos + 1), []. cbn [length INR firstn Z.to_nat]. split; [reflexivity|]. split; [lra|]. split; [ring|]. split; [lia|]. split; [intros; lia|tauto].
  - destruct (again_ok buf' (d / rate)) with (k := k) (fuel := fuel) (out := ob) (m0 := 0%Z) (p := dpos) as (m & p' & out' & E & Hm & Ep & Bp & Lo & A & B); auto; try lra; try (unfold zlen; lia).
    { unfold buf'. apply wind_length. }
    cbn [ndiv Rn]. rewrite E. cbn [bind]. exists p', (firstn (Z.to_nat (0 + Z.of_nat (S m))) out'). split; [reflexivity|].
    assert (Ll : length (firstn (Z.to_nat (0 + Z.of_nat (S m))) out') = S m) by (rewrite firstn_length_le; unfold zlen in Lo; lia).
    rewrite Ll. split; [lra|]. split; [exact Ep|]. split; [lia|]. split; [|split; [lia|lra]].
    intros j Hj. destruct (A j) as (A1 & A2); [lia|]. split; [|exact A2]. rewrite nth_error_firstn' by lia. rewrite <- A1, Z.add_0_l. symmetry. apply znth_nth_error.
Qed.

(** a history of calls *)
Variables (x : nat -> V) (d : nat -> R).
Hypothesis Hd : forall t, Rabs (d t) < rate.
Hypothesis Hk : forall t, d t / rate <= INR k * (1 - d t / rate).
Notation s0 := (mkResampler lpf rate 0 (repeat (v0 VS) TAPS)).
Notation sig := (fun t => (x t, d t)).
Definition outs (t : nat) : list V := match oout step (Ok s0) sig t with Ok l => l | _ => [] end.
(** how far the input has been consumed before call t: one output advances by 1 - diff/rate *)
Fixpoint used (t : nat) : R := match t with O => 0 | S t' => used t' + INR (length (outs t')) * (1 - d t' / rate) end.
Lemma state_ok t : exists dpos, ostate_at step (Ok s0) sig t = Ok (mkResampler lpf rate dpos (wind (from0 VS x) (Z.of_nat t - Z.of_nat TAPS) TAPS)) /\
  -1.5 < dpos <= 0.5 /\ dpos = INR t - used t.
Proof.
  induction t as [|t IH].
  - exists 0. split; [|split; [lra|cbn; ring]]. cbn [ostate_at]. do 2 f_equal. symmetry. apply wind_repeat. intros i Hi. unfold from0.
    rewrite (proj2 (Z.ltb_lt i 0)) by lia. reflexivity.
  - destruct IH as (dpos & E & B & U). destruct (step_ok dpos (from0 VS x) (Z.of_nat t) (d t) (Hd t) (Hk t) B) as (dpos' & l & E1 & B1 & U1 & _).
    assert (Ex : from0 VS x (Z.of_nat t) = x t) by (unfold from0; rewrite (proj2 (Z.ltb_ge (Z.of_nat t) 0)) by lia; rewrite Nat2Z.id; reflexivity).
    rewrite Ex in E1. exists dpos'. cbn [ostate_at used]. split.
    + rewrite E. cbn [bind]. rewrite E1. cbn [bind fst]. do 3 f_equal. lia.
    + split; [exact B1|]. assert (outs t = l) as -> by (unfold outs, oout; rewrite E; cbn [bind]; rewrite E1; reflexivity). rewrite U1, U, S_INR. ring.
Qed.
Lemma outs_ok t : oout step (Ok s0) sig t = Ok (outs t) /\ (length (outs t) <= S k)%nat /\ Rabs (INR t - used t + 0.5) <= 1 /\
  (forall j, (j < length (outs t))%nat -> let p := used t + INR j * (1 - d t / rate) in
    Rabs (INR t - p) <= 0.5 /\ nth_error (outs t) j = Some (interp_at VS TAPS F (from0 VS x) (Z.of_nat t) p)).
Proof.
  destruct (state_ok t) as (dpos & E & B & U). destruct (step_ok dpos (from0 VS x) (Z.of_nat t) (d t) (Hd t) (Hk t) B) as (dpos' & l & E1 & B1 & U1 & Ll & A & _).
  assert (Ex : from0 VS x (Z.of_nat t) = x t) by (unfold from0; rewrite (proj2 (Z.ltb_ge (Z.of_nat t) 0)) by lia; rewrite Nat2Z.id; reflexivity).
  rewrite Ex in E1. assert (Eo : oout step (Ok s0) sig t = Ok l) by (unfold oout; rewrite E; cbn [bind]; rewrite E1; reflexivity).
  assert (outs t = l) as -> by (unfold outs; rewrite Eo; reflexivity). split; [exact Eo|]. split; [exact Ll|].
  split; [apply Rabs_le; lra|]. intros j Hj p. destruct (A j Hj) as (A1 & A2).
  assert (Ep : dpos - INR j * (1 - d t / rate) = INR t - p) by (unfold p; rewrite U; ring). rewrite Ep in *. split; [apply Rabs_le; lra|]. rewrite A1. f_equal.
  unfold itp, interp_at. apply vsum_ext. intros s Hs. rewrite <- INR_IZR_INZ. f_equal.
  unfold wind. rewrite (nth_indep _ _ (from0 VS x (Z.of_nat t + 1 - Z.of_nat TAPS + Z.of_nat 0))) by (rewrite map_length, seq_length; lia).
  rewrite (map_nth (fun j => from0 VS x (Z.of_nat t + 1 - Z.of_nat TAPS + Z.of_nat j))), seq_nth by lia. f_equal. lia.
Qed.
End Stream.

(** diff >= rate: the loop does not end *)
Lemma again_diverges {V} (VS : vsp R V) TAPS OVER lpf buf delta : 1 <= delta -> forall fuel p out m0, -0.5 < p -> forall r,
  rs2_again Rn VS Rtoint TAPS OVER fuel lpf buf delta p out m0 <> Ok r.
Proof.
  intros Hd. induction fuel as [|fuel IH]; intros p out m0 Hp r; cbn [rs2_again];
    destruct (for_loop _ _ _ _); cbn [bind]; try discriminate; destruct (set _ _ _); cbn [bind]; try discriminate; destruct (ichk _); cbn [bind]; try discriminate;
    cbn [nadd nltb nlit nsub nofZ Rn]; rewrite Rlt_bool_true by lra; [discriminate|]. apply IH. lra.
Qed.
