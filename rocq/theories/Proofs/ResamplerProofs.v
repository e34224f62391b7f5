(* Proofs about Model/Resampler.v *)
From Coq Require Import Reals ZArith List Lia Lra Psatz.
From Flocq Require Import Core.
From Verif Require Import Model.Resampler Spec.Resample Spec.Interp Proofs.BaseLemmas Proofs.ShiftProofs Proofs.SplineProofs Proofs.SplineSpec.
Import ListNotations.
Open Scope R_scope.

Lemma vsum_ext {T V} (VS : vsp T V) n f g : (forall i, (i < n)%nat -> f i = g i) -> vsum VS n f = vsum VS n g.
Proof. induction n as [|n IH]; intros H; cbn [vsum]; [reflexivity|]. rewrite IH, H by (auto; intros; apply H; lia). reflexivity. Qed.
Lemma for_vsum {T V} (VS : vsp T V) (body : Z -> V -> outcome V) (f : nat -> V) i0 : forall n,
  (forall j a, (j < n)%nat -> body (i0 + Z.of_nat j)%Z a = Ok (vadd VS a (f j))) -> for_loop n i0 body (v0 VS) = Ok (vsum VS n f).
Proof.
  intros n H. destruct (for_loop_inv (fun i a => a = vsum VS (Z.to_nat (i - i0)) f) body n i0 (v0 VS)) as (a & E & ->).
  - rewrite Z.sub_diag. reflexivity.
  - intros j a Hj ->. eexists. split; [rewrite <- (H (Z.to_nat (j - i0)) (vsum VS (Z.to_nat (j - i0)) f)) by lia; do 2 f_equal; lia|].
    replace (Z.to_nat (j + 1 - i0)) with (S (Z.to_nat (j - i0))) by lia. reflexivity.
  - rewrite E. do 2 f_equal. lia.
Qed.

(** the interpolation kernel *)
Section Kernel.
Variables (TAPS OVER : nat).
Hypothesis HO : (1 <= OVER)%nat.
Hypothesis HN : (2 <= TAPS * OVER)%nat.
Hypothesis HI : (16 * (Z.of_nat TAPS * Z.of_nat OVER) <= INT_MAX)%Z.
Notation N := (Z.of_nat TAPS * Z.of_nat OVER)%Z.
Lemma kernel_ok (tap : Z -> outcome R) (g : Z -> R) : (forall n, (0 <= n < N)%Z -> tap n = Ok (g n)) ->
  exists tmp lpf F, ofill tap (Z.to_nat N) 0 = Ok tmp /\ spl_new Rn (oreal Rn) N tmp 0 (1 / IZR (Z.of_nat OVER)) 1 = Ok lpf /\
    natural_spline (TAPS * OVER) (fun n => INR n / INR OVER) (fun n => g (Z.of_nat n)) F /\
    forall k, -1 <= k <= INR TAPS -> rs_filter Rn Rtoint (Z.of_nat TAPS) (Z.of_nat OVER) lpf k = Ok (F k).
Proof.
  intros Ht. rewrite (ofill_spec tap g) by (intros; apply Ht; lia). eexists. set (tmp := wind g 0 (Z.to_nat N)).
  assert (HY : forall i, (i < TAPS * OVER)%nat -> yat tmp 1 (Z.of_nat i) = Ok (g (Z.of_nat i))).
  { intros i Hi. unfold yat. rewrite Z.mul_1_r, ichk_ok by (unfold INT_MIN in *; lia). cbn [bind]. unfold tmp. rewrite wind_get by lia. reflexivity. }
  set (dx := 1 / IZR (Z.of_nat OVER)). assert (HOv : 1 <= INR OVER) by (change 1 with (INR 1); apply le_INR; lia).
  assert (Hdx : 0 < dx) by (unfold dx; rewrite <- INR_IZR_INZ; apply Rdiv_lt_0_compat; lra).
  destruct (new_ok (TAPS * OVER) (fun n => g (Z.of_nat n)) HN tmp 1 HY 0 dx) as (lpf & E & E0 & E1 & R). exists lpf.
  exists (fun x => NS (TAPS * OVER) (fun n => g (Z.of_nat n)) ((x - 0) / dx)). split; [reflexivity|].
  split; [rewrite Nat2Z.inj_mul in E; exact E|]. split.
  - assert (Q : forall n, INR n / INR OVER = 0 + dx * INR n) by (intros n; unfold dx; rewrite <- INR_IZR_INZ; field; lra).
    pose proof (natural_affine 0 dx _ _ _ Hdx (NS_natural (TAPS * OVER) (fun n => g (Z.of_nat n)) HN)) as NA.
    destruct NA as (A & B & F1 & F2 & D1 & D2 & D3 & Z0 & Z1). split; [intros k Hk; rewrite Q; apply A; auto|]. split.
    + intros j Hj. destruct (B j Hj) as (a & b & c & d & P). exists a, b, c, d. intros x (X1 & X2 & X3). apply P. rewrite !Q in *. repeat split; auto.
    + exists F1, F2. rewrite !Q. auto.
  - intros k Hk. unfold rs_filter. rewrite <- Nat2Z.inj_mul. rewrite <- E0, <- E1. apply at_ok; auto. rewrite E0, E1. unfold dx. rewrite <- INR_IZR_INZ.
    replace ((k - 0) / (1 / INR OVER)) with (k * INR OVER) by (field; lra).
    assert (Bl : IZR (- Z.of_nat OVER) <= k * INR OVER) by (rewrite opp_IZR, <- INR_IZR_INZ; nra).
    assert (Bu : k * INR OVER <= IZR N) by (rewrite mult_IZR, <- !INR_IZR_INZ; nra).
    assert (1 <= Z.of_nat TAPS)%Z by nia. assert (Z.of_nat OVER <= N)%Z by nia.
    apply Ztrunc_le in Bl. apply Ztrunc_le in Bu. rewrite Ztrunc_IZR in Bl, Bu. unfold INT_MIN, INT_MAX in *. nia.
Qed.
End Kernel.

Open Scope Z_scope.
(** Resampler *)
Section Batch.
Context {V : Type} (VS : vsp R V).
Variables (TAPS OVER : nat) (lpf : spline R R) (F : R -> R).
Hypothesis HT : (1 <= TAPS)%nat.
Hypothesis HF : forall k, (-1 <= k <= INR TAPS)%R -> rs_filter Rn Rtoint (Z.of_nat TAPS) (Z.of_nat OVER) lpf k = Ok (F k).
Variables (rate diff : R) (samples stride : Z) (input output : list V) (d : V).
Hypothesis Hr : (0 < rate)%R.
Hypothesis Hrd : (0 < rate + diff)%R.
Hypothesis Hst : 1 <= stride.
Hypothesis Hs : 0 <= samples.
Hypothesis Hin : (samples - 1) * stride < zlen input.
Hypothesis Hout : (samples - 1) * stride < zlen output.
Hypothesis Hint : (samples - 1) * stride <= INT_MAX.
Notation T := (Z.of_nat TAPS).
Notation ratio := (rate / (rate + diff))%R.
Hypothesis HTi : T <= INT_MAX.
Hypothesis Hpos : (IZR (samples - T) * ratio + IZR T <= IZR INT_MAX)%R.
Definition pos (i : Z) : R := (IZR i * ratio)%R.
Definition first (i : Z) : Z := ZnearestE (pos i).
Definition kept (i : Z) : Prop := 0 <= i < samples - T /\ first i + T <= samples.
Definition value (i : Z) : V := vsum VS TAPS (fun s => vscale VS (F (IZR (first i + Z.of_nat s) - pos i)) (nth (Z.to_nat ((first i + Z.of_nat s) * stride)) input d)).
Definition dest (i : Z) : Z := (i + (T - 1) / 2) * stride.
Lemma ratio_pos : (0 < ratio)%R.
Proof. apply Rdiv_lt_0_compat; lra. Qed.
Lemma first_bounds i : 0 <= i < samples - T -> 0 <= first i /\ first i + T <= INT_MAX.
Proof.
  intros Hi. pose proof ratio_pos. assert (0 <= pos i)%R by (unfold pos; apply Rmult_le_pos; [apply IZR_le; lia|lra]).
  assert (Hb : (pos i + IZR T <= IZR INT_MAX)%R).
  { apply Rle_trans with (2 := Hpos). apply Rplus_le_compat_r. apply Rmult_le_compat_r; [lra|]. apply IZR_le. lia. }
  unfold first. split.
  - rewrite <- (Zrnd_IZR ZnearestE 0). apply (Zrnd_le ZnearestE). exact H0.
  - assert (first i <= INT_MAX - T); [|unfold first in *; lia]. unfold first. rewrite <- (Zrnd_IZR ZnearestE (INT_MAX - T)).
    apply (Zrnd_le ZnearestE). rewrite minus_IZR. lra.
Qed.
Lemma first_near i : (Rabs (pos i - IZR (first i)) <= 1 / 2)%R.
Proof. unfold first. pose proof (Znearest_half (fun x => negb (Z.even x)) (pos i)). lra. Qed.
Lemma dest_range i : 0 <= i < samples - T -> 0 <= dest i <= (samples - 1) * stride.
Proof.
  intros Hi. unfold dest. pose proof (Z.div_pos (T - 1) 2 ltac:(lia) ltac:(lia)). assert ((T - 1) / 2 <= T - 1) by (apply Z.div_le_upper_bound; lia). nia.
Qed.
Lemma dest_inj i j : dest i = dest j -> i = j.
Proof. unfold dest. intros E. apply Z.mul_cancel_r in E; lia. Qed.
Lemma rs_call_ok : exists out', rs_call Rn VS Rtoint Rnearby T (Z.of_nat OVER) lpf rate output input diff samples stride = Ok out' /\
  length out' = length output /\
  (forall i, kept i -> znth out' (dest i) = Some (value i)) /\
  (forall j, (forall i, kept i -> j <> dest i) -> znth out' j = znth output j).
Proof.
  unfold rs_call. cbn [ndiv nadd Rn]. rewrite ichk_ok by (unfold INT_MIN, INT_MAX in *; nia). cbn [bind].
  set (PP := fun i0 (o : list V) => zlen o = zlen output /\ (forall i, kept i -> i < i0 -> znth o (dest i) = Some (value i)) /\
    (forall j, (forall i, kept i -> i < i0 -> j <> dest i) -> znth o j = znth output j)).
  match goal with |- context [for_loop ?n ?i ?b ?s] => destruct (for_loop_inv PP b n i s) as (o & E & (L & A & B)) end.
  - split; [reflexivity|]. split; [intros i (K & _) Hi; lia|reflexivity].
  - intros i o Hi (L & A & B). assert (Hi' : 0 <= i < samples - T) by lia. destruct (first_bounds i Hi') as (F0 & F1).
    assert (Et : Rtoint (Rnearby (IZR i * ratio)%R) = Ok (first i)).
    { unfold Rtoint, Rnearby. rewrite Ztrunc_IZR. fold (pos i). fold (first i). apply ichk_ok. unfold INT_MIN. lia. }
    cbn [nmul nofZ Rn]. rewrite Et. cbn [bind]. rewrite ichk_ok by (unfold INT_MIN; lia). cbn [bind].
    rewrite (proj2 (Z.ltb_ge (first i) 0)) by lia. cbn [orb]. destruct (Z.ltb_spec samples (first i + T)) as [Hs1|Hs1].
    + exists o. split; [reflexivity|]. split; [exact L|]. split.
      * intros j K Hj. apply A; auto. assert (j <> i) by (intros ->; destruct K; lia). lia.
      * intros j Hj. apply B. intros k K Hk. apply Hj; auto. lia.
    + replace (Z.to_nat (first i + T - first i)) with TAPS by lia.
      rewrite (for_vsum VS _ (fun s => vscale VS (F (IZR (first i + Z.of_nat s) - pos i)) (nth (Z.to_nat ((first i + Z.of_nat s) * stride)) input d))).
      * cbn [bind]. fold (value i). fold (dest i). pose proof (dest_range i Hi') as D. rewrite ichk_ok by (unfold INT_MIN; lia). cbn [bind].
        rewrite set_in_range by lia. eexists. split; [reflexivity|]. assert (Ki : kept i) by (split; lia).
        split; [rewrite zlen_zupd; exact L|]. split.
        -- intros j K Hj. rewrite znth_zupd by lia. destruct (Z.eqb_spec (dest j) (dest i)) as [E|E]; [rewrite (dest_inj _ _ E); reflexivity|].
           apply A; auto. assert (j <> i) by congruence. lia.
        -- intros j Hj. rewrite znth_zupd by lia. destruct (Z.eqb_spec j (dest i)) as [->|E]; [exfalso; apply (Hj i Ki); [lia|reflexivity]|].
           apply B. intros k K Hk. apply Hj; auto. lia.
      * intros s a Hsn. cbn [nsub nofZ Rn]. fold (pos i). rewrite HF.
        -- cbn [bind]. assert (Hr1 : 0 <= (first i + Z.of_nat s) * stride <= (samples - 1) * stride) by nia. rewrite ichk_ok by (unfold INT_MIN; lia). cbn [bind].
           erewrite get_Some; [cbn [bind]; reflexivity|]. rewrite znth_nonneg by lia. apply nth_error_nth'. unfold zlen in *. lia.
        -- pose proof (first_near i) as Nr. apply Rabs_le_inv in Nr. rewrite plus_IZR, <- INR_IZR_INZ.
           assert (0 <= INR s <= INR TAPS - 1)%R. { split; [apply pos_INR|]. pose proof (le_INR (S s) TAPS ltac:(lia)) as Q. rewrite S_INR in Q. lra. }
           lra.
  - exists o. split; [exact E|]. split; [unfold zlen in L; lia|]. rewrite Z.add_0_l in A, B. split.
    + intros i K. apply A; auto. destruct K. lia.
    + intros j Hj. apply B. intros i K _. apply Hj; auto.
Qed.
End Batch.

(** Resampler: array accesses, any arithmetic *)
Section BatchSafe.
Context {T0 V : Type} (M : num T0) (VS : vsp T0 V) (toint : T0 -> outcome Z) (nearby : T0 -> T0).
Variables (TAPS OVER : Z) (lpf : spline T0 T0) (rate diff : T0) (samples stride : Z) (input output : list V).
Hypothesis HT : 1 <= TAPS.
Hypothesis Hst : 1 <= stride.
Hypothesis Hs : 0 <= samples.
Hypothesis Hti : TAPS <= INT_MAX.
Hypothesis Hsi : samples <= INT_MAX.
Hypothesis Hin : (samples - 1) * stride < zlen input.
Hypothesis Hout : (samples - 1) * stride < zlen output.
Hypothesis Hint : (samples - 1) * stride <= INT_MAX.
Let x (i : Z) : T0 := nmul M (nofZ M i) (ndiv M rate (nadd M rate diff)).
Hypothesis Hconv : forall i, 0 <= i < samples - TAPS -> exists s0, toint (nearby (x i)) = Ok s0 /\ INT_MIN <= s0 + TAPS <= INT_MAX /\
  forall s, s0 <= s < s0 + TAPS -> 0 <= s < samples -> exists v, rs_filter M toint TAPS OVER lpf (nsub M (nofZ M s) (x i)) = Ok v.
Lemma rs_call_safe : exists out', rs_call M VS toint nearby TAPS OVER lpf rate output input diff samples stride = Ok out' /\
  length out' = length output /\
  forall j, (forall i, 0 <= i < samples - TAPS -> j <> (i + (TAPS - 1) / 2) * stride) -> znth out' j = znth output j.
Proof.
  unfold rs_call. rewrite ichk_ok by (unfold INT_MIN, INT_MAX in *; nia). cbn [bind].
  set (PP := fun (i0 : Z) (o : list V) => zlen o = zlen output /\
    (forall j, (forall i, 0 <= i < samples - TAPS -> j <> (i + (TAPS - 1) / 2) * stride) -> znth o j = znth output j)).
  match goal with |- context [for_loop ?n ?i ?b ?s] => destruct (for_loop_inv PP b n i s) as (o & E & (L & B)) end.
  - split; reflexivity.
  - intros i o Hi (L & B). assert (Hi' : 0 <= i < samples - TAPS) by lia. destruct (Hconv i Hi') as (s0 & E0 & E1 & E2). cbv zeta. fold (x i). rewrite E0. cbn [bind].
    rewrite ichk_ok by lia. cbn [bind]. destruct (Z.ltb_spec s0 0); cbn [orb]; [exists o; split; [reflexivity|split; auto]|].
    destruct (Z.ltb_spec samples (s0 + TAPS)); [exists o; split; [reflexivity|split; auto]|].
    replace (Z.to_nat (s0 + TAPS - s0)) with (Z.to_nat TAPS) by lia.
    match goal with |- context [for_loop ?n ?i ?b ?s] => destruct (for_loop_inv (fun _ _ => True) b n i s) as (sm & Es & _); [exact I| |] end.
    + intros s a Hsr _. destruct (E2 s) as (v & ->); [lia|lia|]. cbn [bind]. assert (0 <= s * stride <= (samples - 1) * stride) by nia.
      rewrite ichk_ok by (unfold INT_MIN; lia). cbn [bind]. destruct (get_in_range input (s * stride)) as (w & _ & ->); [lia|]. cbn [bind]. eauto.
    + rewrite Es. cbn [bind]. assert (D : 0 <= (i + (TAPS - 1) / 2) * stride <= (samples - 1) * stride).
      { pose proof (Z.div_pos (TAPS - 1) 2 ltac:(lia) ltac:(lia)). assert ((TAPS - 1) / 2 <= TAPS - 1) by (apply Z.div_le_upper_bound; lia). nia. }
      rewrite ichk_ok by (unfold INT_MIN; lia). cbn [bind]. rewrite set_in_range by lia. eexists. split; [reflexivity|].
      split; [rewrite zlen_zupd; exact L|]. intros j Hj. rewrite znth_zupd by lia. destruct (Z.eqb_spec j ((i + (TAPS - 1) / 2) * stride)) as [->|]; [exfalso; apply (Hj i Hi'); reflexivity|]. apply B; auto.
  - exists o. split; [exact E|]. split; [unfold zlen in L; lia|exact B].
Qed.
End BatchSafe.
