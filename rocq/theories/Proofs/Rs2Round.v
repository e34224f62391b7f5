(* Resampler2 in floating point: the phase *)
From Coq Require Import Reals ZArith List Lra Lia Psatz.
From Flocq Require Import Core Sterbenz.
From Verif Require Import Model.Resampler Spec.Rounding Spec.Fir Proofs.BaseLemmas Proofs.ShiftProofs Proofs.SplineSafe Proofs.KahanFloat Proofs.KaiserRound.
Import ListNotations.
Open Scope R_scope.

Section Phase.
Context (emin prec : Z) (Hp : (20 <= prec)%Z) (He : (emin <= - prec - 110)%Z).
Notation rnd := (FLTrnd emin prec).
Notation F := (FLTfmt emin prec).
Notation u := (ulp_u prec).

Lemma fmt_bpow k : (emin <= k)%Z -> F (bpow radix2 k).
Proof. intros H. apply generic_format_bpow. unfold FLT_exp. lia. Qed.
Lemma fmt_opp x : F x -> F (- x). Proof. apply generic_format_opp. Qed.
Lemma fmt_half : F (/ 2). Proof. replace (/ 2) with (bpow radix2 (-1)) by (cbn; lra). apply fmt_bpow. lia. Qed.
Lemma fmt_one : F 1. Proof. change 1 with (bpow radix2 0). apply fmt_bpow. lia. Qed.
Lemma rnd_le x b : F b -> x <= b -> rnd x <= b.
Proof. intros Fb H. rewrite <- (fmt_id emin prec b Fb). apply (rnd_mono emin prec Hp); auto. Qed.
Lemma rnd_ge x b : F b -> b <= x -> b <= rnd x.
Proof. intros Fb H. rewrite <- (fmt_id emin prec b Fb). apply (rnd_mono emin prec Hp); auto. Qed.
Lemma rnd_abs x b : F b -> Rabs x <= b -> Rabs (rnd x) <= b.
Proof. intros Fb H. apply Rabs_le_inv in H. apply Rabs_le. split; [apply rnd_ge; [apply fmt_opp; auto|lra]|apply rnd_le; auto; lra]. Qed.
(** subtracting one from a phase above 1/2, adding one to a phase below -1/2: exact *)
Lemma sub_one p : F p -> / 2 <= p <= 1 -> rnd (p - 1) = p - 1.
Proof.
  intros Fp H. assert (HP : Prec_gt_0 prec) by (unfold Prec_gt_0; lia). apply (fmt_id emin prec). unfold FLTfmt. apply sterbenz; try typeclasses eauto; [exact Fp|exact fmt_one|lra].
Qed.
Lemma add_one p : F p -> -1 <= p <= - / 2 -> rnd (p + 1) = p + 1.
Proof.
  intros Fp H. assert (HP : Prec_gt_0 prec) by (unfold Prec_gt_0; lia). apply (fmt_id emin prec). replace (p + 1) with (1 - (- p)) by ring. unfold FLTfmt. apply sterbenz; try typeclasses eauto; [exact fmt_one|apply fmt_opp; exact Fp|lra].
Qed.
Lemma err_pow x k : (emin + prec <= k + 1)%Z -> Rabs x <= bpow radix2 k -> Rabs (rnd x - x) <= bpow radix2 k * u.
Proof.
  intros Hk H. assert (HP : Prec_gt_0 prec) by (unfold Prec_gt_0; lia). unfold FLTrnd. eapply Rle_trans; [apply error_le_half_ulp; typeclasses eauto|].
  eapply Rle_trans; [apply Rmult_le_compat_l; [lra|apply (ulp_le radix2 (FLT_exp emin prec) x (bpow radix2 k)); rewrite (Rabs_pos_eq (bpow radix2 k)) by apply bpow_ge_0; auto]|].
  rewrite ulp_bpow. unfold FLT_exp. rewrite Z.max_l by lia. unfold ulp_u. replace (k + 1 - prec)%Z with (1 + (k + - prec))%Z by lia. rewrite bpow_plus, (bpow_plus _ k). change (bpow radix2 1) with 2. lra.
Qed.
Lemma err_one x : Rabs x <= 1 -> Rabs (rnd x - x) <= u.
Proof. intros H. pose proof (err_pow x 0 ltac:(lia) H) as Q. cbn [bpow] in Q. lra. Qed.
Lemma err_half x : Rabs x <= / 2 -> Rabs (rnd x - x) <= u / 2.
Proof. intros H. assert (E : bpow radix2 (-1) = / 2) by (cbn; lra). pose proof (err_pow x (-1) ltac:(lia)) as Q. rewrite E in Q. specialize (Q H). lra. Qed.

Section Run.
Context {V : Type} (VS : vsp R V) (TAPS OVER : nat) (lpf : spline R R).
Hypothesis HT : (1 <= TAPS)%nat.
Hypothesis HT2 : (Z.of_nat TAPS <= 2 ^ prec)%Z.
Hypothesis HF : forall k, -1 <= k <= INR TAPS -> exists v, rs_filter (Fn rnd) Rtoint (Z.of_nat TAPS) (Z.of_nat OVER) lpf k = Ok v.
Notation again := (rs2_again (Fn rnd) VS Rtoint (Z.of_nat TAPS) (Z.of_nat OVER)).

Lemma sum_def buf p : length buf = TAPS -> - / 2 <= p <= / 2 -> exists v,
  for_loop (Z.to_nat (Z.of_nat TAPS)) 0 (fun s sum =>
    v <- rs_filter (Fn rnd) Rtoint (Z.of_nat TAPS) (Z.of_nat OVER) lpf (nadd (Fn rnd) (nofZ (Fn rnd) s) p) ;; a <- get buf s ;;
    Ok (vadd VS sum (vscale VS v a))) (v0 VS) = Ok v.
Proof.
  intros HL H. match goal with |- context [for_loop ?n ?i ?b ?s] => destruct (for_loop_inv (fun _ _ => True) b n i s) as (v & E & _) end; auto; [|exists v; exact E].
  intros j a Hj _. cbn [nadd nofZ Fn]. assert (FT : forall z, (0 <= z <= Z.of_nat TAPS)%Z -> F (IZR z)) by (intros z Hz; apply (fmt_Z emin prec Hp He); lia).
  rewrite (fmt_id emin prec (IZR j)) by (apply FT; lia).
  assert (0 <= IZR j <= INR TAPS - 1). { split; [apply IZR_le; lia|]. rewrite INR_IZR_INZ, <- minus_IZR. apply IZR_le. lia. }
  destruct (HF (rnd (IZR j + p))) as (v & Ev).
  { split; [apply rnd_ge; [apply fmt_opp, fmt_one|lra]|apply rnd_le; [rewrite INR_IZR_INZ; apply FT; lia|lra]]. }
  rewrite Ev. cbn [bind]. destruct (nth_error buf (Z.to_nat j)) as [w|] eqn:Ew; [|apply nth_error_None in Ew; lia].
  erewrite get_Some; [cbn [bind]; eauto|]. rewrite znth_nonneg by lia. exact Ew.
Qed.

(** the jumps back to the label: one or two outputs *)
Lemma again_def buf delta fuel out p : length buf = TAPS -> F p -> F delta -> - / 2 <= p <= / 2 -> Rabs delta <= / 2 -> (1 <= fuel)%nat -> (2 <= length out)%nat ->
  exists (n : nat) p' out', again fuel lpf buf delta p out 0 = Ok (p', out', Z.of_nat n) /\ (n = 1 \/ n = 2)%nat /\ length out' = length out /\ F p' /\ -1 <= p' <= / 2 /\
    Rabs (p' - (p + INR n * delta - (INR n - 1))) <= INR n * u /\ (rnd (p + delta) <= / 2 -> n = 1%nat /\ p' = rnd (p + delta)).
Proof.
  intros HL Fp Fd H Hd Hf Lo. destruct fuel as [|f]; [lia|]. pose proof Hd as Hd'. apply Rabs_le_inv in Hd'. cbn [rs2_again].
  destruct (sum_def buf p HL H) as (v & Ev). change (cplx R) with (R * R)%type in *. rewrite Ev. cbn [bind].
  rewrite set_in_range by (unfold zlen; lia). cbn [bind]. change (ichk (0 + 1)) with (Ok 1%Z). cbn [bind].
  cbn [nadd nltb nlit nsub nofZ Fn].
  assert (E5 : rnd 0.5 = / 2) by (replace 0.5 with (/ 2) by lra; apply (fmt_id emin prec), fmt_half). rewrite E5.
  assert (E1 : rnd (IZR 1) = 1) by (apply (fmt_id emin prec), fmt_one). rewrite E1.
  set (q := rnd (p + delta)). assert (Fq : F q) by apply (rnd_fmt emin prec Hp).
  assert (Q1 : -1 <= q <= 1) by (split; [apply rnd_ge; [apply fmt_opp, fmt_one|lra]|apply rnd_le; [apply fmt_one|lra]]).
  assert (QE : Rabs (q - (p + delta)) <= u) by (apply err_one, Rabs_le; lra).
  destruct (Rlt_bool_spec (/ 2) q) as [L|L].
  2:{ exists 1%nat, q, (zupd out 0 v). split; [reflexivity|]. split; [auto|]. split; [pose proof (zlen_zupd out 0 v) as Z0; unfold zlen in Z0; lia|]. split; [auto|]. split; [lra|]. split; [|auto].
      cbn [INR]. replace (q - (p + 1 * delta - (1 - 1))) with (q - (p + delta)) by ring. lra. }
  rewrite (sub_one q Fq) by lra.
  assert (Fq1 : F (q - 1)) by (rewrite <- (sub_one q Fq) by lra; apply (rnd_fmt emin prec Hp)).
  set (q2 := rnd (q - 1 + delta)). assert (Fq2 : F q2) by apply (rnd_fmt emin prec Hp).
  assert (Q2 : -1 <= q2 <= / 2) by (split; [apply rnd_ge; [apply fmt_opp, fmt_one|lra]|apply rnd_le; [apply fmt_half|lra]]).
  assert (QE2 : Rabs (q2 - (q - 1 + delta)) <= u) by (apply err_one, Rabs_le; lra).
  exists 2%nat, q2. destruct (sum_def buf (q - 1) HL ltac:(lra)) as (v2 & Ev2).
  exists (zupd (zupd out 0 v) 1 v2). split.
  - destruct f as [|f]; cbn [rs2_again]; rewrite Ev2; cbn [bind]; rewrite set_in_range by (rewrite zlen_zupd; unfold zlen; lia); cbn [bind]; cbn [nadd nltb nlit nsub nofZ Fn]; rewrite E5; fold q2; (rewrite Rlt_bool_false by lra); reflexivity.
  - split; [auto|]. split; [pose proof (zlen_zupd out 0 v) as Z0; pose proof (zlen_zupd (zupd out 0 v) 1 v2) as Z1; unfold zlen in Z0, Z1; lia|]. split; [auto|]. split; [auto|]. split; [|intros; lra].
    cbn [INR]. replace (q2 - (p + (1 + 1) * delta - (1 + 1 - 1))) with ((q2 - (q - 1 + delta)) + (q - (p + delta))) by ring. eapply Rle_trans; [apply Rabs_triang|]. lra.
Qed.
End Run.

(** the constructor and the evaluation of the filter are defined *)
Lemma filter_def (TAPS OVER : nat) (sinf : R -> R) (rate cutoff alpha : R) :
  (1 <= TAPS)%nat -> (1 <= OVER)%nat -> (2 <= TAPS * OVER)%nat -> (16 * (Z.of_nat TAPS * Z.of_nat OVER) <= INT_MAX)%Z -> (Z.of_nat TAPS * Z.of_nat OVER <= 2 ^ prec)%Z ->
  exists lpf, rs_new_lpf (Fn rnd) sinf (Z.of_nat TAPS) (Z.of_nat OVER) rate cutoff alpha = Ok lpf /\
    forall k, -1 <= k <= INR TAPS -> exists v, rs_filter (Fn rnd) Rtoint (Z.of_nat TAPS) (Z.of_nat OVER) lpf k = Ok v.
Proof.
  intros HT HO HN HI HP. set (N := (Z.of_nat TAPS * Z.of_nat OVER)%Z) in *.
  assert (HTN : (Z.of_nat TAPS <= N /\ Z.of_nat OVER <= N /\ 2 <= N)%Z) by (unfold N; nia). assert (IM : INT_MAX = 2147483647%Z) by reflexivity.
  unfold rs_new_lpf, rs_filter. fold N.
  set (tap := rs_tap (Fn rnd) sinf (Z.of_nat TAPS) (Z.of_nat OVER) rate cutoff alpha).
  assert (HW : forall n, (0 <= n < N)%Z -> exists v, tap n = Ok v).
  { intros n Hn. unfold tap, rs_tap, win_kaiser. fold N. rewrite !ichk_ok by (unfold in_int, INT_MIN; lia). cbn [bind]. eauto. }
  set (g := fun n => match tap n with Ok v => v | _ => 0 end).
  rewrite (ofill_spec tap g) by (intros j Hj; unfold g; destruct (HW j ltac:(lia)) as (v & ->); auto). cbn [bind].
  destruct (natural_safe (Fn rnd) (oreal (Fn rnd)) Rtoint N 1 (wind g 0 (Z.to_nat N)) ltac:(lia)) with (x0 := nofZ (Fn rnd) 0) (dx := ndiv (Fn rnd) (nlit (Fn rnd) 1.0) (nofZ (Fn rnd) (Z.of_nat OVER))) as (s & E & X0 & DX & A).
  { intros i Hi. unfold yat. rewrite ichk_ok by (unfold in_int, INT_MIN; lia). cbn [bind]. assert (L : length (wind g 0 (Z.to_nat N)) = Z.to_nat N) by (unfold wind; rewrite map_length, seq_length; auto).
    destruct (nth_error (wind g 0 (Z.to_nat N)) (Z.to_nat (i * 1))) as [w|] eqn:Ew; [|apply nth_error_None in Ew; lia]. exists w. apply get_Some. rewrite znth_nonneg by lia. exact Ew. }
  exists s. split; [exact E|]. intros k Hk. clear E. 
  assert (FZ : forall z, (0 <= z <= N)%Z -> rnd (IZR z) = IZR z) by (intros z Hz; apply (fmt_id emin prec), (fmt_Z emin prec Hp He); lia).
  set (dx := rnd (1 / INR OVER)). assert (O1 : 1 <= INR OVER) by (change 1 with (INR 1); apply le_INR; lia). assert (T1 : 1 <= INR TAPS) by (change 1 with (INR 1); apply le_INR; lia).
  assert (D1 : / INR OVER / 2 <= dx).
  { unfold dx. pose proof (rnd_err emin prec Hp (1 / INR OVER)) as Q. pose proof (u_range prec Hp) as U. pose proof (e_range emin prec He) as EE.
    assert (i0 : 0 < / INR OVER) by (apply Rinv_0_lt_compat; lra). unfold Rdiv in Q at 2 3. unfold Rdiv at 2. rewrite Rmult_1_l in *. rewrite (Rabs_pos_eq (/ INR OVER)) in Q by lra.
    assert (i1 : 1e-9 <= / INR OVER). { replace 1e-9 with (/ 1000000000) by lra. apply Rinv_le_contravar; [lra|]. rewrite INR_IZR_INZ. apply IZR_le. lia. }
    apply Rabs_le_inv in Q. set (i := / INR OVER) in *. assert (ulp_u prec * i <= 1e-6 * i) by (apply Rmult_le_compat_r; lra). unfold Rdiv in Q. rewrite Rmult_1_l in Q. fold i in Q. unfold Rdiv. lra. }
  assert (A1 : Rabs (rnd (rnd (k - 0) / dx)) <= bpow radix2 29).
  { apply rnd_abs; [apply fmt_bpow; lia|]. assert (KA : Rabs (rnd (k - 0)) <= INR TAPS). { apply rnd_abs; [rewrite INR_IZR_INZ; apply (fmt_Z emin prec Hp He); lia|]. apply Rabs_le. lra. }
    assert (dx0 : 0 < / dx <= 2 * INR OVER).
    { assert (P0 : 0 < / INR OVER / 2) by (assert (0 < / INR OVER) by (apply Rinv_0_lt_compat; lra); lra). split; [apply Rinv_0_lt_compat; lra|]. replace (2 * INR OVER) with (/ (/ INR OVER / 2)) by (field; lra). apply Rinv_le_contravar; auto. }
    unfold Rdiv. rewrite Rabs_mult, (Rabs_pos_eq (/ dx)) by lra. apply Rle_trans with (INR TAPS * (2 * INR OVER)); [apply Rmult_le_compat; try lra; apply Rabs_pos|].
    replace (INR TAPS * (2 * INR OVER)) with (IZR (2 * N)). 2:{ unfold N. rewrite !mult_IZR, <- !INR_IZR_INZ. ring. } change (bpow radix2 29) with (IZR 536870912). apply IZR_le. lia. }
  apply (A k (Ztrunc (rnd (rnd (k - 0) / dx)))). unfold Rtoint. cbn [ndiv nsub nofZ nlit Fn]. rewrite (FZ (Z.of_nat OVER)) by lia. rewrite <- INR_IZR_INZ. rewrite (KaiserRound.rnd_0 emin prec). replace 1.0 with 1 by lra. rewrite (fmt_id emin prec 1) by apply fmt_one. fold dx.
  apply ichk_ok. set (z := rnd (rnd (k - 0) / dx)) in *. change (bpow radix2 29) with (IZR 536870912) in A1. apply Rabs_le_inv in A1.
  assert (Ztrunc z <= 536870912)%Z. { apply le_IZR. rewrite <- (Ztrunc_IZR 536870912). apply IZR_le, Ztrunc_le. lra. }
  assert (- 536870912 <= Ztrunc z)%Z. { rewrite <- (Ztrunc_IZR (- 536870912)). apply Ztrunc_le. lra. }
  unfold in_int, INT_MIN. lia.
Qed.

(** one call *)
Definition good (TAPS : nat) {V} (lpf : spline R R) (rate : R) (s : resampler R V) : Prop :=
  rs_lpf s = lpf /\ rs_rate s = rate /\ length (rs_buf s) = TAPS /\ F (rs_dpos s) /\ -1 <= rs_dpos s <= / 2.
Lemma step_def {V} (VS : vsp R V) (TAPS OVER : nat) (lpf : spline R R) (rate d : R) (fuel : nat) (ob : list V) (s : resampler R V) (x : V) :
  (1 <= TAPS)%nat -> (Z.of_nat TAPS <= 2 ^ prec)%Z -> (forall k, -1 <= k <= INR TAPS -> exists v, rs_filter (Fn rnd) Rtoint (Z.of_nat TAPS) (Z.of_nat OVER) lpf k = Ok v) ->
  0 < rate -> Rabs d <= rate / 2 -> (1 <= fuel)%nat -> (2 <= length ob)%nat -> good TAPS lpf rate s ->
  exists s' o, rs2_step (Fn rnd) VS Rtoint (Z.of_nat TAPS) (Z.of_nat OVER) fuel ob s (x, d) = Ok (s', o) /\ good TAPS lpf rate s' /\ (length o <= 2)%nat /\
    Rabs (rs_dpos s' - (rs_dpos s + 1 - INR (length o) * (1 - d / rate))) <= INR (length o) * (3 / 2 * u) /\
    (0 <= d <= rate * bpow radix2 (- prec - 3) -> 0 <= rs_dpos s <= / 4 -> length o = 1%nat /\ 0 <= rs_dpos s' <= / 4).
Proof.
  intros HT HT2 HF Hr Hd Hf Ho (G1 & G2 & G3 & G4 & G5). unfold rs2_step, rs2_call. cbn [fst snd].
  assert (SH : shift_in (Z.of_nat TAPS) (rs_buf s) x = Ok (tl (rs_buf s) ++ [x])) by (rewrite <- G3; apply shift_in_eq; lia). rewrite SH. cbn [bind].
  assert (LB : length (tl (rs_buf s) ++ [x]) = TAPS). { rewrite app_length. destruct (rs_buf s) as [|b l]; cbn in *; lia. }
  cbn [nltb nlit nadd nofZ ndiv Fn]. assert (E5 : rnd (-0.5) = - / 2) by (replace (-0.5) with (- / 2) by lra; apply (fmt_id emin prec), fmt_opp, fmt_half). rewrite E5.
  assert (E1 : rnd (IZR 1) = 1) by (apply (fmt_id emin prec), fmt_one). rewrite E1. rewrite G1, G2.
  destruct (Rlt_bool_spec (rs_dpos s) (- / 2)) as [L|L].
  - cbn [bind]. rewrite (add_one _ G4) by lra. eexists _, _. split; [reflexivity|]. cbn [Z.to_nat firstn length rs_dpos INR].
    split; [|split; [lia|split]].
    + unfold good. cbn [rs_lpf rs_rate rs_buf rs_dpos]. split; [auto|]. split; [auto|]. split; [auto|]. split; [|lra]. rewrite <- (add_one _ G4) by lra. apply (rnd_fmt emin prec Hp).
    + rewrite Rmult_0_l. rewrite (Rmult_0_l (3 / 2 * u)). rewrite Rminus_0_r, Rminus_diag_eq by auto. rewrite Rabs_R0. lra.
    + intros _ K. lra.
  - set (delta := rnd (d / rate)).
    assert (DR : Rabs (d / rate) <= / 2). { unfold Rdiv. rewrite Rabs_mult, (Rabs_pos_eq (/ rate)) by (apply Rlt_le, Rinv_0_lt_compat; auto). apply (Rmult_le_reg_r rate); auto. rewrite Rmult_assoc, Rinv_l by lra. lra. }
    assert (Hdl : Rabs delta <= / 2) by (apply rnd_abs; [apply fmt_half|auto]).
    destruct (again_def VS TAPS OVER lpf HT HT2 HF (tl (rs_buf s) ++ [x]) delta fuel ob (rs_dpos s) LB G4 (rnd_fmt emin prec Hp _) ltac:(lra) Hdl Hf Ho) as (n & p' & out' & E & Hn & Lo & Fp & Rp & Ep & Sp).
    rewrite E. cbn [bind]. rewrite Nat2Z.id. eexists _, _. split; [reflexivity|]. assert (LN : length (firstn n out') = n) by (rewrite firstn_length; lia). rewrite LN. cbn [rs_dpos].
    split; [unfold good; cbn [rs_lpf rs_rate rs_buf rs_dpos]; auto|]. split; [lia|]. pose proof (err_half (d / rate) DR) as ED. fold delta in ED. split.
    + pose proof (pos_INR n) as N0. set (q := d / rate) in *. replace (p' - (rs_dpos s + 1 - INR n * (1 - q))) with ((p' - (rs_dpos s + INR n * delta - (INR n - 1))) + INR n * (delta - q)) by ring.
      eapply Rle_trans; [apply Rabs_triang|]. rewrite Rabs_mult, (Rabs_pos_eq (INR n)) by auto. assert (INR n * Rabs (delta - q) <= INR n * (u / 2)) by (apply Rmult_le_compat_l; auto). lra.
    + intros D0 P0. assert (F4 : F (/ 4)) by (replace (/ 4) with (bpow radix2 (-2)) by (cbn; lra); apply fmt_bpow; lia).
      assert (B8 : 0 <= delta <= bpow radix2 (- prec - 3)).
      { split; [apply rnd_ge; [apply generic_format_0|]|apply rnd_le; [apply fmt_bpow; lia|]].
        - apply Rmult_le_pos; [lra|apply Rlt_le, Rinv_0_lt_compat; auto].
        - apply (Rmult_le_reg_r rate); auto. unfold Rdiv. rewrite Rmult_assoc, Rinv_l by lra. lra. }
      assert (Q : rnd (/ 4 + bpow radix2 (- prec - 3)) = / 4).
      { assert (HP : Prec_gt_0 prec) by (unfold Prec_gt_0; lia). unfold FLTrnd. apply Rle_antisym.
        - apply round_N_le_midp; [typeclasses eauto|exact F4|]. rewrite succ_eq_pos by lra. replace (ulp radix2 (FLT_exp emin prec) (/ 4)) with (bpow radix2 (- prec - 1)).
          + pose proof (bpow_gt_0 radix2 (- prec - 3)). replace (- prec - 1)%Z with (2 + (- prec - 3))%Z by lia. rewrite bpow_plus. change (bpow radix2 2) with 4. lra.
          + replace (/ 4) with (bpow radix2 (-2)) by (cbn; lra). rewrite ulp_bpow. unfold FLT_exp. f_equal. lia.
        - apply rnd_ge; [exact F4|]. pose proof (bpow_gt_0 radix2 (- prec - 3)). lra. }
      assert (Q2 : rnd (rs_dpos s + delta) <= / 4) by (rewrite <- Q; apply (rnd_mono emin prec Hp); lra).
      destruct Sp as [-> ->]; [lra|]. split; [auto|]. split; [apply rnd_ge; [apply generic_format_0|lra]|exact Q2].
Qed.
End Phase.
