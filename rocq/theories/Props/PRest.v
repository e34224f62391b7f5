(* Property C88: filters with constant input come to rest in floating point, and where *)
From Coq Require Import Floats Reals ZArith Lia Lra List Psatz.
From Flocq Require Import Core.
From Verif Require Import Spec.Rest Spec.Rounding Model.Signal Model.Ema Model.Num64 Proofs.BaseLemmas Proofs.RestLemmas Proofs.RestProofs Proofs.KahanFloat Proofs.KaiserRound Props.PFftRound.
Import ListNotations.
Open Scope R_scope.

(** binary floating point (or fixed point for large prec) with gradual underflow and any rounding mode *)
Notation flt emin prec rm := (round radix2 (FLT_exp emin prec) rm).

(** C88: once its input is constant, EMA and EMACascade become exactly constant after finitely many samples - no
    limit cycles - in every rounding mode, for real and complex samples; the final value reproduces itself.
    The only condition is that 1 - alpha rounds to something in [0,1). *)
Theorem C88_ema_rests emin prec (Hp : Prec_gt_0 prec) (rm : R -> Z) (Hv : Valid_rnd rm) (alpha : R) :
  let N := Fn (flt emin prec rm) in 0 <= flt emin prec rm (1 - alpha) < 1 ->
  (forall (p : R) x xc, rests_at x xc -> exists r, rests_at (out (ema_step N (vreal N)) (mkEma p alpha) x) r /\ snd (ema_step N (vreal N) (mkEma r alpha) xc) = r) /\
  (forall (p : cplx R) x xc, rests_at x xc -> exists r, rests_at (out (ema_step N (vcplx N)) (mkEma p alpha) x) r /\ snd (ema_step N (vcplx N) (mkEma r alpha) xc) = r).
Proof.
  intros N Hc. split; intros p x xc R.
  - destruct (sec_real emin prec rm alpha p x xc Hc R) as (r & (T0 & R1) & R2). exists r. split; [|exact R2]. exists T0. intros t Ht. rewrite ema_out. apply R1. lia.
  - destruct (sec_cplx emin prec rm alpha p x xc Hc R) as (r & (T0 & R1) & R2). exists r. split; [|exact R2]. exists T0. intros t Ht. rewrite ema_out. apply R1. lia.
Qed.
Print Assumptions C88_ema_rests.
Theorem C88_cascade_rests emin prec (Hp : Prec_gt_0 prec) (rm : R -> Z) (Hv : Valid_rnd rm) (alpha : R) :
  let N := Fn (flt emin prec rm) in 0 <= flt emin prec rm (1 - alpha) < 1 ->
  (forall (ps : list R) x xc, rests_at x xc -> exists r, rests_at (out (emac_step N (vreal N)) (mkEmac ps alpha) x) r) /\
  (forall (ps : list (cplx R)) x xc, rests_at x xc -> exists r, rests_at (out (emac_step N (vcplx N)) (mkEmac ps alpha) x) r).
Proof.
  intros N Hc. split; intros ps x xc R.
  - destruct (cascade_rests N (vreal N) alpha (fun _ _ => True)) with (ps := ps) (x := x) (xc := xc) as (rs & _ & Q & _); eauto.
    intros p y yc Ry. destruct (sec_real emin prec rm alpha p y yc Hc Ry) as (r & R1 & _). eauto.
  - destruct (cascade_rests N (vcplx N) alpha (fun _ _ => True)) with (ps := ps) (x := x) (xc := xc) as (rs & _ & Q & _); eauto.
    intros p y yc Ry. destruct (sec_cplx emin prec rm alpha p y yc Hc Ry) as (r & R1 & _). eauto.
Qed.
Print Assumptions C88_cascade_rests.

(** C88: the resting value of a cascade of ORDER sections misses the input by at most (1 + 12 u/alpha)^ORDER - 1,
    plus underflow *)
Theorem C88_rest_point emin prec (Hp : Prec_gt_0 prec) (rm : R -> Z) (Hv : Valid_rnd rm) (u e alpha : R) (ps : list R) x xc :
  let N := Fn (flt emin prec rm) in 0 < u <= / 100 -> 0 <= e <= u / 100 -> rounding u e (flt emin prec rm) -> 8 * u <= alpha <= 1 ->
  0 <= flt emin prec rm (1 - alpha) < 1 -> rests_at x xc ->
  exists r, rests_at (out (emac_step N (vreal N)) (mkEmac ps alpha) x) r /\ Rabs (r - xc) <= ((1 + 12 * u / alpha) ^ length ps - 1) * (Rabs xc + e / u).
Proof.
  intros N Hu He Hr Ha Hc R.
  destruct (cascade_rests N (vreal N) alpha (fun a b => lerp N (vreal N) b a alpha = b)) with (ps := ps) (x := x) (xc := xc) as (rs & L & Q & E); auto.
  { intros p y yc Ry. apply (sec_real emin prec rm alpha p y yc Hc Ry). }
  exists (last rs xc). split; auto. rewrite <- L. assert (A0 : 0 < alpha) by lra.
  apply chain_bound. { apply Rmult_le_pos; [lra|]. apply Rlt_le, Rinv_0_lt_compat; auto. } { apply Rmult_le_pos; [lra|]. apply Rlt_le, Rinv_0_lt_compat; lra. }
  intros i Hi. specialize (E i Hi). set (a := nth i (xc :: rs) xc) in *. set (b := nth i rs xc) in *.
  assert (B : alpha * Rabs (b - a) <= 12 * u * Rabs a + 8 * e) by (apply (equilibrium u e (flt emin prec rm)); auto; lra).
  apply Rmult_le_reg_l with alpha; auto. replace (alpha * (12 * u / alpha * (Rabs a + e / u))) with (12 * u * Rabs a + 12 * e) by (field; lra). lra.
Qed.
Print Assumptions C88_rest_point.

(** C88: with input zero and rounding to nearest, a filter with 1/2 < 1 - alpha < 1 (rounded) never gets to zero: its
    output keeps its sign for ever and rests at a denormal number of size at most 2^emin / (2 alpha) *)
Theorem C88_never_zero emin prec (Hp : Prec_gt_0 prec) (ch : Z -> bool) (alpha p : R) (x : nat -> R) (T : nat) :
  let rnd := flt emin prec (Znearest ch) in let N := Fn rnd in let y := out (ema_step N (vreal N)) (mkEma p alpha) x in
  / 2 < rnd (1 - alpha) < 1 -> (forall t, (T < t)%nat -> x t = 0) -> y T <> 0 ->
  exists r, rests_at y r /\ bpow radix2 emin <= Rabs r <= bpow radix2 emin / (2 * (1 - rnd (1 - alpha))) /\ forall t, (T <= t)%nat -> 0 < r * y t.
Proof.
  intros rnd N y Hc Hx H0.
  destruct (zero_rests emin prec Hp ch (rnd (1 - alpha)) y T) as (r & R1 & R2 & R3 & R4); auto.
  - apply generic_format_round; typeclasses eauto.
  - intros t Ht. unfold y. rewrite !ema_out. rewrite sec_S, Hx by lia. cbn. unfold rnd. rewrite Rmult_0_r, (round_0 radix2 (FLT_exp emin prec) (Znearest ch)), Rplus_0_r. apply (rnd_rnd emin prec (Znearest ch)).
  - unfold y. rewrite ema_out, sec_S. apply generic_format_round; typeclasses eauto.
  - exists r. auto.
Qed.
Print Assumptions C88_never_zero.
(** with 1 - alpha < 1/2 it does *)
Theorem C88_reaches_zero emin prec (Hp : Prec_gt_0 prec) (ch : Z -> bool) (alpha p : R) (x : nat -> R) :
  let rnd := flt emin prec (Znearest ch) in let N := Fn rnd in
  0 <= rnd (1 - alpha) < / 2 -> rests_at x 0 -> rests_at (out (ema_step N (vreal N)) (mkEma p alpha) x) 0.
Proof.
  intros rnd N Hc (T & Hx). apply (zero_reached emin prec Hp ch (rnd (1 - alpha)) _ T); auto.
  - apply generic_format_round; typeclasses eauto.
  - intros t Ht. rewrite !ema_out. rewrite sec_S, Hx by lia. cbn. unfold rnd. rewrite Rmult_0_r, (round_0 radix2 (FLT_exp emin prec) (Znearest ch)), Rplus_0_r. apply (rnd_rnd emin prec (Znearest ch)).
Qed.
Print Assumptions C88_reaches_zero.

(** C88: BlockDC does not remove a constant completely: from the first output after the input became constant on, a
    non-zero output never becomes zero and rests at size at most 2^emin / (2 (1 - a)) *)
Theorem C88_blockdc emin prec (Hp : Prec_gt_0 prec) (ch : Z -> bool) (d : blockdc R R) (x : nat -> R) (T : nat) :
  let rnd := flt emin prec (Znearest ch) in let y := out (blockdc_step (vreal (Fn rnd))) d x in
  generic_format radix2 (FLT_exp emin prec) (bd_a d) -> / 2 < bd_a d < 1 -> (forall t, (T <= t)%nat -> x t = x T) ->
  (y T = 0 -> forall t, (T <= t)%nat -> y t = 0) /\
  (y T <> 0 -> exists r, rests_at y r /\ bpow radix2 emin <= Rabs r <= bpow radix2 emin / (2 * (1 - bd_a d)) /\ forall t, (T <= t)%nat -> 0 < r * y t).
Proof.
  intros rnd y Fa Ha Hx.
  assert (E : forall t, (T <= t)%nat -> y (S t) = rnd (bd_a d * y t)). { intros t Ht. apply (bdc_next emin prec (Znearest ch)). rewrite (Hx (S t)), (Hx t) by lia. auto. }
  split; intros H0.
  - intros t Ht. induction Ht; auto. rewrite E, IHHt, Rmult_0_r by lia. apply round_0. typeclasses eauto.
  - destruct (zero_rests emin prec Hp ch (bd_a d) y T) as (r & R1 & R2 & R3 & R4); auto.
    + unfold y, out, blockdc_step. cbn. apply generic_format_round; typeclasses eauto.
    + exists r. auto.
Qed.
Print Assumptions C88_blockdc.

(** what samples(s) sets meets these conditions for 3 <= s <= 2^(prec-1) *)
Lemma fmt_int emin prec s : Prec_gt_0 prec -> (emin <= 0)%Z -> (Z.abs s <= 2 ^ (prec - 1))%Z -> generic_format radix2 (FLT_exp emin prec) (IZR s).
Proof.
  intros Hp He Hs. apply generic_format_FLT. apply FLT_spec with (Float radix2 s 0); cbn; auto; [unfold F2R; cbn; ring|].
  unfold Prec_gt_0 in Hp. change (radix_val radix2) with 2%Z. assert (2 ^ (prec - 1) < 2 ^ prec)%Z by (apply Z.pow_lt_mono_r; lia). lia.
Qed.
Theorem C88_samples emin prec (Hp : Prec_gt_0 prec) (ch : Z -> bool) (s : Z) (em : ema R R) (d : blockdc R R) :
  let rnd := flt emin prec (Znearest ch) in (emin <= - prec)%Z -> (4 <= prec)%Z -> (3 <= s <= 2 ^ (prec - 1))%Z ->
  / 2 < rnd (1 - em_alpha (ema_samples (Fn rnd) em s)) < 1 /\
  generic_format radix2 (FLT_exp emin prec) (bd_a (blockdc_samples (Fn rnd) d s)) /\ / 2 < bd_a (blockdc_samples (Fn rnd) d s) < 1.
Proof.
  intros rnd He Hp4 Hs. assert (V : Valid_exp (FLT_exp emin prec)) by typeclasses eauto. set (v := bpow radix2 (1 - prec)).
  assert (S3 : 3 <= IZR s) by (apply IZR_le; lia).
  assert (P8 : (8 <= 2 ^ (prec - 1))%Z) by (change 8%Z with (2 ^ 3)%Z; apply Z.pow_le_mono_r; lia).
  assert (Sv : v <= / IZR s).
  { unfold v. replace (1 - prec)%Z with (- (prec - 1))%Z by ring. rewrite bpow_opp. apply Rinv_le_contravar; [lra|]. rewrite <- IZR_Zpower by lia. apply IZR_le. cbn. lia. }
  assert (v0 : 0 < v) by apply bpow_gt_0.
  assert (Iv : / IZR s <= / 3) by (apply Rinv_le_contravar; lra).
  assert (Fv : rnd v = v). { apply round_generic; [typeclasses eauto|]. apply generic_format_FLT_bpow; auto. lia. }
  assert (F1v : rnd (1 - v) = 1 - v).
  { apply round_generic; [typeclasses eauto|]. replace (1 - v) with (IZR (2 ^ (prec - 1) - 1) * v).
    - apply generic_format_FLT. apply FLT_spec with (Float radix2 (2 ^ (prec - 1) - 1) (1 - prec)); cbn [Fnum Fexp]; [unfold F2R; reflexivity| |lia]. change (radix_val radix2) with 2%Z. assert (2 ^ (prec - 1) < 2 ^ prec)%Z by (apply Z.pow_lt_mono_r; lia). lia.
    - rewrite minus_IZR. change 2%Z with (radix_val radix2). rewrite IZR_Zpower by lia. unfold v. rewrite Rmult_minus_distr_r, <- bpow_plus. replace (prec - 1 + (1 - prec))%Z with 0%Z by ring. cbn. ring. }
  assert (Fq : forall m, (Z.abs m <= 8)%Z -> rnd (IZR m * / 8) = IZR m * / 8).
  { intros m Hm. apply round_generic; [typeclasses eauto|]. apply generic_format_FLT. apply FLT_spec with (Float radix2 m (-3)); cbn [Fnum Fexp]; [unfold F2R; reflexivity| |lia].
    change (radix_val radix2) with 2%Z. assert (2 ^ (prec - 1) < 2 ^ prec)%Z by (apply Z.pow_lt_mono_r; lia). lia. }
  assert (Le : forall a b, a <= b -> rnd a <= rnd b) by (intros a b; apply round_le; typeclasses eauto).
  assert (Fs : rnd (IZR s) = IZR s) by (apply round_generic; [typeclasses eauto|apply fmt_int; auto; lia]).
  assert (Fs1 : rnd (IZR (s - 1)) = IZR (s - 1)) by (apply round_generic; [typeclasses eauto|apply fmt_int; auto; lia]).
  assert (F1 : rnd 1 = 1) by (replace 1 with (IZR 8 * / 8) by lra; apply Fq; lia).
  split; [|split].
  - cbn [ema_samples em_alpha ndiv n1 nofZ Fn]. rewrite ?F1, Fs. unfold Rdiv. rewrite Rmult_1_l.
    assert (A1 : v <= rnd (/ IZR s)) by (rewrite <- Fv; apply Le; auto).
    assert (A2 : rnd (/ IZR s) <= IZR 3 * / 8) by (rewrite <- Fq by lia; apply Le; lra).
    assert (A3 : rnd (1 - rnd (/ IZR s)) <= 1 - v) by (rewrite <- F1v; apply Le; lra).
    assert (A4 : IZR 5 * / 8 <= rnd (1 - rnd (/ IZR s))) by (rewrite <- (Fq 5%Z) by lia; apply Le; lra). lra.
  - cbn. apply generic_format_round; typeclasses eauto.
  - cbn [blockdc_samples bd_a ndiv nofZ Fn]. rewrite Fs, Fs1. replace (IZR (s - 1) / IZR s) with (1 - / IZR s) by (rewrite minus_IZR; field; lra).
    assert (A3 : rnd (1 - / IZR s) <= 1 - v) by (rewrite <- F1v; apply Le; lra).
    assert (A4 : IZR 5 * / 8 <= rnd (1 - / IZR s)) by (rewrite <- (Fq 5%Z) by lia; apply Le; lra). lra.
Qed.
Print Assumptions C88_samples.

(** the same with the machine numbers: EMA samples(100) with input 1 does not come to rest at 1; BlockDC samples(4)
    with input 1 rests at 2^-1073; and an alpha of 2^-54 (1 - alpha rounds to 1) ignores the input *)
Theorem C88_rest_at_input_refuted :
  let e := ema_samples Dn (mkEma 0%float 1%float) 100 in
  exists r, rests_at (out (ema_step Dn (vreal Dn)) e (fun _ => 1%float)) r /\ PrimFloat.ltb r 1 = true.
Proof.
  intros e. set (it := fix it (n : nat) (e : ema PrimFloat.float PrimFloat.float) : ema PrimFloat.float PrimFloat.float := match n with O => e | S n => it n (fst (ema_step Dn (vreal Dn) e 1%float)) end).
  assert (I : forall n a, it n (fst (ema_step Dn (vreal Dn) a 1%float)) = fst (ema_step Dn (vreal Dn) (it n a) 1%float)) by (induction n; intros; [reflexivity|apply IHn]).
  assert (S : forall t, state_at (ema_step Dn (vreal Dn)) e (fun _ => 1%float) t = it t e). { induction t; [reflexivity|]. cbn [state_at]. rewrite IHt. symmetry. apply I. }
  assert (F : fst (ema_step Dn (vreal Dn) (it 4000%nat e) 1%float) = it 4000%nat e) by (vm_compute; reflexivity).
  exists (em_prev (it 4000%nat e)). split.
  - exists 4000%nat. intros t Ht. unfold out. rewrite S.
    assert (Q : it t e = it 4000%nat e). { induction Ht as [|t Ht IH]; [reflexivity|]. change (it (Datatypes.S t) e) with (it t (fst (ema_step Dn (vreal Dn) e 1%float))). rewrite I, IH. exact F. }
    rewrite Q. rewrite <- F at 2. reflexivity.
  - vm_compute. reflexivity.
Qed.
Print Assumptions C88_rest_at_input_refuted.
Theorem C88_constant_removed_refuted :
  let d := blockdc_samples Dn (blockdc_new Dn (vreal Dn)) 4 in rests_at (out (blockdc_step (vreal Dn)) d (fun _ => 1%float)) 0x1p-1073%float.
Proof.
  intros d. set (st := fun a => fst (blockdc_step (vreal Dn) a 1%float)). set (it := fix it (n : nat) (e : blockdc PrimFloat.float PrimFloat.float) : blockdc PrimFloat.float PrimFloat.float := match n with O => e | S n => it n (st e) end).
  assert (I : forall n a, it n (st a) = st (it n a)) by (induction n; intros; [reflexivity|apply IHn]).
  assert (S : forall t, state_at (blockdc_step (vreal Dn)) d (fun _ => 1%float) t = it t d). { induction t; [reflexivity|]. cbn [state_at]. rewrite IHt. symmetry. apply I. }
  assert (F : st (it 4000%nat d) = it 4000%nat d) by (vm_compute; reflexivity).
  exists 4000%nat. intros t Ht. unfold out. rewrite S.
  assert (Q : it t d = it 4000%nat d). { induction Ht as [|t Ht IH]; [reflexivity|]. change (it (Datatypes.S t) d) with (it t (st d)). rewrite I, IH. exact F. }
  rewrite Q. vm_compute. reflexivity.
Qed.
Print Assumptions C88_constant_removed_refuted.
Theorem C88_small_alpha_refuted : forall t, out (ema_step Dn (vreal Dn)) (mkEma 100%float 0x1p-54%float) (fun _ => 1%float) t = 100%float.
Proof.
  intros t. assert (S : state_at (ema_step Dn (vreal Dn)) (mkEma 100%float 0x1p-54%float) (fun _ => 1%float) t = mkEma 100%float 0x1p-54%float) by (induction t; [reflexivity|cbn [state_at]; rewrite IHt; vm_compute; reflexivity]).
  unfold out. rewrite S. vm_compute. reflexivity.
Qed.
Print Assumptions C88_small_alpha_refuted.

Lemma rnd32_big : rnd32 (IZR (2 ^ 25 + 1)) = IZR (2 ^ 25).
Proof.
  unfold rnd32, FLTrnd, round, scaled_mantissa, cexp. rewrite (mag_unique_pos radix2 (IZR (2 ^ 25 + 1)) 26).
  2:{ change (bpow radix2 (26 - 1)) with (IZR (2 ^ 25)). change (bpow radix2 26) with (IZR (2 ^ 26)). split; [apply IZR_le|apply IZR_lt]; lia. }
  replace (FLT_exp (-149) 24 26) with 2%Z by reflexivity. change (bpow radix2 (- (2))) with (/ 4).
  rewrite (Znearest_imp _ _ (2 ^ 23)). { unfold F2R. cbn [Fnum Fexp]. change (bpow radix2 2) with (IZR 4). rewrite <- mult_IZR. reflexivity. }
  change (2 ^ 25 + 1)%Z with 33554433%Z. change (2 ^ 23)%Z with 8388608%Z. replace (33554433 * / 4 - 8388608) with (/ 4) by lra. rewrite Rabs_pos_eq; lra.
Qed.
(** C88  The upper bound on s in C88_samples is needed: in binary32, samples(2^25 + 1) makes both coefficients 1, and
    the filter passes a constant input for ever. *)
Theorem C88_float_constant_stays (c : R) (t : nat) : FLTfmt (-149) 24 c ->
  let M := Fn rnd32 in let d := blockdc_samples M (mkBdc 0 0 0 (/ 2)) (2 ^ 25 + 1) in
  bd_a d = 1 /\ bd_b d = 1 /\ out (blockdc_step (vreal M)) d (fun _ => c) t = c.
Proof.
  intros Fc M d. assert (I : forall k, (Z.abs k <= 2 ^ 24)%Z -> rnd32 (IZR k) = IZR k).
  { intros k Hk. apply (KaiserRound.fmt_id (-149) 24). apply (KaiserRound.fmt_Z (-149) 24); lia. }
  assert (P : rnd32 (IZR (2 ^ 25)) = IZR (2 ^ 25)). { change (IZR (2 ^ 25)) with (bpow radix2 25). apply round_generic; [typeclasses eauto|]. apply generic_format_FLT_bpow; [reflexivity|lia]. }
  assert (A : bd_a d = 1). { unfold d, blockdc_samples, M. cbn [bd_a ndiv nofZ Fn]. replace (2 ^ 25 + 1 - 1)%Z with (2 ^ 25)%Z by lia. rewrite rnd32_big, P. replace (IZR (2 ^ 25) / IZR (2 ^ 25)) with 1 by (field; change (2 ^ 25)%Z with 33554432%Z; lra). apply (I 1%Z). lia. }
  assert (B : bd_b d = 1). { assert (E : bd_b d = ndiv M (nadd M (n1 M) (bd_a d)) (nofZ M 2)) by reflexivity. rewrite E, A. unfold M. cbn [ndiv nadd n1 nofZ Fn]. replace (1 + 1) with 2 by ring. rewrite !(I 2%Z) by lia. replace (2 / 2) with 1 by field. apply (I 1%Z). lia. }
  split; [auto|]. split; [auto|].
  assert (Rc : rnd32 c = c) by (apply round_generic; [typeclasses eauto|exact Fc]). assert (R0 : rnd32 0 = 0) by (apply (I 0%Z); lia).
  assert (X0 : bd_x1 d = 0) by reflexivity. assert (Y0 : bd_y1 d = 0) by reflexivity. clearbody d.
  assert (G : forall t, let e := state_at (blockdc_step (vreal M)) d (fun _ => c) t in bd_a e = 1 /\ bd_b e = 1 /\ ((bd_x1 e = 0 /\ bd_y1 e = 0) \/ (bd_x1 e = c /\ bd_y1 e = c))).
  { assert (ST : forall e, bd_a e = 1 -> bd_b e = 1 -> ((bd_x1 e = 0 /\ bd_y1 e = 0) \/ (bd_x1 e = c /\ bd_y1 e = c)) -> bd_y1 (fst (blockdc_step (vreal M) e c)) = c).
    { intros e Ea Eb H. unfold blockdc_step, M. cbn [fst bd_y1 vadd vsub vscale vreal nadd nsub nmul Fn]. rewrite Ea, Eb. destruct H as [[-> ->]|[-> ->]].
      - rewrite Rminus_0_r, Rc, Rmult_0_r, R0, Rmult_1_l, Rc, Rplus_0_r. exact Rc.
      - rewrite Rminus_eq_0, R0, Rmult_0_r, R0, Rmult_1_l, Rc, Rplus_0_l. exact Rc. }
    induction t0 as [|k (Ha & Hb & H)]; cbn [state_at]; [auto|]. set (e := state_at _ _ _ k) in *. split; [exact Ha|]. split; [exact Hb|]. right. split; [reflexivity|]. apply ST; auto. }
  destruct (G t) as (Ha & Hb & H). unfold out. set (e := state_at _ _ _ t) in *.
  unfold blockdc_step, M. cbn [snd vadd vsub vscale vreal nadd nsub nmul Fn]. rewrite Ha, Hb. destruct H as [[-> ->]|[-> ->]].
      - rewrite Rminus_0_r, Rc, Rmult_0_r, R0, Rmult_1_l, Rc, Rplus_0_r. exact Rc.
      - rewrite Rminus_eq_0, R0, Rmult_0_r, R0, Rmult_1_l, Rc, Rplus_0_l. exact Rc.
Qed.
Print Assumptions C88_float_constant_stays.
(** that samples(s) always gives a factor below 1 is refuted *)
Theorem C88_samples_bound_refuted : ~ (forall (s : Z) (d : blockdc R R), (3 <= s <= INT_MAX)%Z -> bd_a (blockdc_samples (Fn rnd32) d s) < 1).
Proof.
  intros H. specialize (H (2 ^ 25 + 1)%Z (mkBdc 0 0 0 (/ 2)) ltac:(unfold INT_MAX; lia)).
  destruct (C88_float_constant_stays 0 0 ltac:(apply generic_format_0)) as (A & _). rewrite A in H. lra.
Qed.
Print Assumptions C88_samples_bound_refuted.

(** binary64, samples(4): the unit step leaves BlockDC at a positive number of at most 2^-1073 for ever *)
Example C88_example (d : blockdc R R) : let c := blockdc_samples (Fn rnd64) d 4 in / 2 < bd_a c < 1 /\ generic_format radix2 (FLT_exp (-1074) 53) (bd_a c).
Proof. destruct (C88_samples (-1074) 53 ltac:(reflexivity) (fun x => negb (Z.even x)) 4 (mkEma 0 0) d) as (_ & A & B); [lia|lia|lia|]. auto. Qed.
