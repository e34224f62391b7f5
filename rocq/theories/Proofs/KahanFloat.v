(* Error bound for compensated summation in floating point arithmetic *)
From Coq Require Import Reals Lra List Lia ZArith.
From Flocq Require Import Core Relative Plus_error.
From Verif Require Import Model.Kahan Spec.Sums.
Import ListNotations.
Open Scope R_scope.

Lemma mulb u a h B : 0 <= u -> Rabs a <= B -> Rabs h <= u -> Rabs (a * h) <= u * B.
Proof.
  intros Hu Ha Hh. rewrite Rabs_mult, Rmult_comm. apply Rmult_le_compat; auto using Rabs_pos.
Qed.
Lemma rab a b A B : Rabs a <= A -> Rabs b <= B -> Rabs (a + b) <= A + B.
Proof. intros. eapply Rle_trans; [apply Rabs_triang|lra]. Qed.
Lemma rabm a b A B : Rabs a <= A -> Rabs b <= B -> Rabs (a - b) <= A + B.
Proof. intros. unfold Rminus. apply rab; auto. now rewrite Rabs_Ropp. Qed.

Lemma kstep u s c x T A E h1 h2 h3 h4 : 0 < u <= / 1024 -> 0 <= A ->
  Rabs c <= 3 * u * A -> Rabs (s - c - T) <= E -> Rabs s <= 5 / 4 * A ->
  Rabs h1 <= u -> Rabs h2 <= u -> Rabs h3 <= u -> Rabs h4 <= u ->
  let y := (x - c) * (1 + h1) in let s' := (s + y) * (1 + h2) in let d := (s' - s) * (1 + h3) in let c' := (d - y) * (1 + h4) in
  Rabs c' <= 3 * u * (A + Rabs x) /\ Rabs (s' - c' - (T + x)) <= E + 2 * u * Rabs x + 12 * (u * u) * (A + Rabs x).
Proof.
  intros Hu HA Hc He Hs H1 H2 H3 H4 y s' d c'. pose proof (Rabs_pos x) as HX. set (X := Rabs x) in *.
  assert (U : 0 <= u) by lra.
  assert (UX : 0 <= u * X) by (apply Rmult_le_pos; lra). assert (UA : 0 <= u * A) by (apply Rmult_le_pos; lra).
  assert (UUX : 0 <= u * (u * X) <= / 1024 * (u * X)). { split; [apply Rmult_le_pos; lra|apply Rmult_le_compat_r; lra]. }
  assert (UUA : 0 <= u * (u * A) <= / 1024 * (u * A)). { split; [apply Rmult_le_pos; lra|apply Rmult_le_compat_r; lra]. }
  assert (U3X : 0 <= u * (u * (u * X)) <= / 1024 * (u * (u * X))). { split; [apply Rmult_le_pos; lra|apply Rmult_le_compat_r; lra]. }
  assert (U3A : 0 <= u * (u * (u * A)) <= / 1024 * (u * (u * A))). { split; [apply Rmult_le_pos; lra|apply Rmult_le_compat_r; lra]. }
  assert (U4X : 0 <= u * (u * (u * (u * X))) <= / 1024 * (u * (u * (u * X)))). { split; [apply Rmult_le_pos; lra|apply Rmult_le_compat_r; lra]. }
  assert (U4A : 0 <= u * (u * (u * (u * A))) <= / 1024 * (u * (u * (u * A)))). { split; [apply Rmult_le_pos; lra|apply Rmult_le_compat_r; lra]. }
  assert (UX1 : u * X <= / 1024 * X) by (apply Rmult_le_compat_r; lra).
  assert (UA1 : u * A <= / 1024 * A) by (apply Rmult_le_compat_r; lra).
  assert (B0 : Rabs (x - c) <= X + 3 * u * A) by (apply rabm; auto; unfold X; lra).
  assert (B1 : Rabs (y - (x - c)) <= u * (X + 3 * u * A)).
  { replace (y - (x - c)) with ((x - c) * h1) by (unfold y; ring). apply mulb; auto. }
  assert (By : Rabs y <= (1 + u) * (X + 3 * u * A)).
  { replace y with ((x - c) + (y - (x - c))) by ring. eapply Rle_trans; [apply rab; eauto|]. lra. }
  assert (Bsy : Rabs (s + y) <= 13 / 10 * (A + X)). { eapply Rle_trans; [apply rab; eauto|]. lra. }
  set (q := (s + y) * h2).
  assert (Bq : Rabs q <= u * (13 / 10 * (A + X))) by (apply mulb; auto).
  assert (Es : s' = s + y + q) by (unfold s', q; ring).
  assert (Bss : Rabs (s' - s) <= (1 + u) * (X + 3 * u * A) + u * (13 / 10 * (A + X))).
  { replace (s' - s) with (y + q) by (rewrite Es; ring). apply rab; auto. }
  set (r := (s' - s) * h3).
  assert (Br : Rabs r <= u * ((1 + u) * (X + 3 * u * A) + u * (13 / 10 * (A + X)))) by (apply mulb; auto).
  assert (Ec : c' = (q + r) + (q + r) * h4). { unfold c', d, r. rewrite Es. unfold q. ring. }
  assert (Bqr : Rabs (q + r) <= u * (13 / 10 * (A + X)) + u * ((1 + u) * (X + 3 * u * A) + u * (13 / 10 * (A + X)))) by (apply rab; auto).
  assert (Bqrh : Rabs ((q + r) * h4) <= u * (u * (13 / 10 * (A + X)) + u * ((1 + u) * (X + 3 * u * A) + u * (13 / 10 * (A + X))))) by (apply mulb; auto).
  split.
  - rewrite Ec. eapply Rle_trans; [apply rab; eauto|]. lra.
  - replace (s' - c' - (T + x)) with ((s - c - T) + ((y - (x - c)) - (r + (q + r) * h4))) by (rewrite Ec, Es; ring).
    eapply Rle_trans; [apply rab; [exact He|apply rabm; [exact B1|apply rab; [exact Br|exact Bqrh]]]|]. lra.
Qed.

Section KF.
(** addition and subtraction with relative error [u] on a set of representable numbers *)
Context (F : R -> Prop) (add sub : R -> R -> R) (u : R) (Hu : 0 < u <= / 1024).
Hypothesis Hadd : forall x y, F x -> F y -> F (add x y) /\ exists e, Rabs e <= u /\ add x y = (x + y) * (1 + e).
Hypothesis Hsub : forall x y, F x -> F y -> F (sub x y) /\ exists e, Rabs e <= u /\ sub x y = (x - y) * (1 + e).

Definition absum (l : list R) : R := Rsum (map Rabs l).

Lemma absum_pos l : 0 <= absum l.
Proof. unfold absum, Rsum, gsum. induction l; cbn [map fold_right]; [lra|]. pose proof (Rabs_pos a). lra. Qed.
Lemma Rsum_abs l : Rabs (Rsum l) <= absum l.
Proof.
  unfold absum, Rsum, gsum. induction l; cbn [map fold_right]; [rewrite Rabs_R0; lra|]. apply rab; auto. lra.
Qed.
Lemma Rsum_snoc l x : Rsum (l ++ [x]) = Rsum l + x.
Proof. unfold Rsum, gsum. induction l; cbn [app fold_right]; [lra|]. rewrite IHl. lra. Qed.
Lemma absum_snoc l x : absum (l ++ [x]) = absum l + Rabs x.
Proof. unfold absum. rewrite map_app. apply Rsum_snoc. Qed.

Lemma kahan_inv init xs : F init -> F 0 -> Forall F xs -> INR (length xs) * u <= 1 ->
  let k := fold_left (fun k x => fst (kahan_call add sub k x)) xs (kahan_new 0 init) in
  let A := Rabs init + absum xs in
  F (k_high k) /\ F (k_low k) /\ Rabs (k_low k) <= 3 * u * A /\
  Rabs (k_high k - k_low k - (init + Rsum xs)) <= 2 * u * A + 12 * INR (length xs) * (u * u) * A.
Proof.
  intros Fi F0 FX. induction xs as [|x xs IH] using rev_ind; intros Hn; cbn zeta.
  - cbn [fold_left kahan_new k_high k_low]. unfold absum, Rsum, gsum. cbn [map fold_right length INR].
    pose proof (Rabs_pos init) as P. assert (0 <= u * Rabs init) by (apply Rmult_le_pos; lra).
    repeat split; auto.
    + rewrite Rabs_R0. lra.
    + replace (init - 0 - (init + 0)) with 0 by ring. rewrite Rabs_R0. lra.
  - rewrite fold_left_app. cbn [fold_left]. apply Forall_app in FX. destruct FX as [FX Fx]. inversion_clear Fx as [|? ? Fx' _].
    rewrite app_length in *. cbn [length] in *. rewrite Nat.add_1_r, S_INR in *.
    assert (Hn' : INR (length xs) * u <= 1) by lra.
    specialize (IH FX Hn'). cbn zeta in IH. set (k := fold_left _ xs _) in *.
    destruct IH as (I1 & I2 & I3 & I4). unfold kahan_call. cbn [fst k_high k_low].
    destruct (Hsub x (k_low k) Fx' I2) as (F1 & h1 & G1 & E1).
    destruct (Hadd (k_high k) _ I1 F1) as (F2 & h2 & G2 & E2).
    destruct (Hsub _ (k_high k) F2 I1) as (F3 & h3 & G3 & E3).
    destruct (Hsub _ _ F3 F1) as (F4 & h4 & G4 & E4).
    split; auto. split; auto.
    rewrite Rsum_snoc, absum_snoc. rewrite E4, E3, E2, E1.
    set (A := Rabs init + absum xs) in *. set (n := INR (length xs)) in *.
    assert (HA : 0 <= A). { unfold A. pose proof (Rabs_pos init). pose proof (absum_pos xs). lra. }
    assert (Hn0 : 0 <= n) by apply pos_INR.
    assert (UA : 0 <= u * A) by (apply Rmult_le_pos; lra).
    assert (NUA : 0 <= n * u * (u * A) <= 1 * (u * A)).
    { split; [apply Rmult_le_pos; [apply Rmult_le_pos; lra|lra]|apply Rmult_le_compat_r; lra]. }
    assert (UA1 : u * A <= / 1024 * A) by (apply Rmult_le_compat_r; lra).
    assert (Hs : Rabs (k_high k) <= 5 / 4 * A).
    { replace (k_high k) with ((k_high k - k_low k - (init + Rsum xs)) + (k_low k + (init + Rsum xs))) by ring.
      assert (BT : Rabs (init + Rsum xs) <= A) by (apply rab; [lra|apply Rsum_abs]).
      eapply Rle_trans; [apply rab; [exact I4|apply rab; [exact I3|exact BT]]|]. lra. }
    destruct (kstep u (k_high k) (k_low k) x (init + Rsum xs) A _ h1 h2 h3 h4 Hu HA I3 I4 Hs G1 G2 G3 G4) as [K1 K2].
    split.
    + eapply Rle_trans; [exact K1|]. unfold A. lra.
    + replace (init + (Rsum xs + x)) with (init + Rsum xs + x) by ring. eapply Rle_trans; [exact K2|].
      replace (Rabs init + (absum xs + Rabs x)) with (A + Rabs x) by (unfold A; ring).
      assert (0 <= 12 * n * (u * u) * Rabs x). { repeat apply Rmult_le_pos; try lra. apply Rabs_pos. }
      lra.
Qed.

Lemma kahan_error init xs : F init -> F 0 -> Forall F xs -> INR (length xs) * u <= 1 ->
  Rabs (kahan_sum 0 add sub xs init - (init + Rsum xs)) <= (5 * u + 12 * INR (length xs) * u ^ 2) * (Rabs init + absum xs).
Proof.
  intros Fi F0 FX Hn. destruct (kahan_inv init xs Fi F0 FX Hn) as (_ & _ & I3 & I4). cbn zeta in *.
  unfold kahan_sum, kahan_value. set (k := fold_left _ xs _) in *.
  replace (k_high k - (init + Rsum xs)) with (k_high k - k_low k - (init + Rsum xs) + k_low k) by ring.
  eapply Rle_trans; [apply rab; eauto|]. lra.
Qed.
End KF.

(** IEEE arithmetic, round to nearest, gradual underflow, no overflow *)
Definition FLTfmt (emin prec : Z) : R -> Prop := generic_format radix2 (FLT_exp emin prec).
Definition FLTrnd (emin prec : Z) (x : R) : R := round radix2 (FLT_exp emin prec) ZnearestE x.
Definition ulp_u (prec : Z) : R := bpow radix2 (- prec).

Lemma FLT_add emin prec : (0 < prec)%Z -> forall x y, FLTfmt emin prec x -> FLTfmt emin prec y ->
  FLTfmt emin prec (FLTrnd emin prec (x + y)) /\
  exists e, Rabs e <= ulp_u prec /\ FLTrnd emin prec (x + y) = (x + y) * (1 + e).
Proof.
  intros Hp x y Fx Fy. assert (HP : Prec_gt_0 prec) by exact Hp. split.
  - apply generic_format_round; typeclasses eauto.
  - destruct (@FLT_plus_error_N_ex radix2 emin prec HP (fun x => negb (Z.even x)) x y Fx Fy) as (e & He & E).
    exists e. split; auto. eapply Rle_trans; [exact He|]. unfold u_ro, ulp_u.
    replace (/ 2 * bpow radix2 (- prec + 1)) with (bpow radix2 (- prec)).
    + pose proof (bpow_gt_0 radix2 (- prec)) as B. set (b := bpow radix2 (- prec)) in *.
      apply Rmult_le_reg_r with (1 + b); [lra|]. unfold Rdiv. rewrite Rmult_assoc, Rinv_l by lra. nra.
    + rewrite bpow_plus. cbn. lra.
Qed.
Lemma FLT_sub emin prec : (0 < prec)%Z -> forall x y, FLTfmt emin prec x -> FLTfmt emin prec y ->
  FLTfmt emin prec (FLTrnd emin prec (x - y)) /\
  exists e, Rabs e <= ulp_u prec /\ FLTrnd emin prec (x - y) = (x - y) * (1 + e).
Proof. intros Hp x y Fx Fy. apply FLT_add; auto. apply generic_format_opp; auto. Qed.

Lemma kahan_FLT emin prec init xs : (10 <= prec)%Z -> FLTfmt emin prec init -> Forall (FLTfmt emin prec) xs ->
  INR (length xs) * ulp_u prec <= 1 ->
  Rabs (kahan_sum 0 (fun x y => FLTrnd emin prec (x + y)) (fun x y => FLTrnd emin prec (x - y)) xs init - (init + Rsum xs))
    <= (5 * ulp_u prec + 12 * INR (length xs) * ulp_u prec ^ 2) * (Rabs init + Rsum (map Rabs xs)).
Proof.
  intros Hp Fi FX Hn. apply (kahan_error (FLTfmt emin prec)); auto.
  - unfold ulp_u. split; [apply bpow_gt_0|]. replace (/ 1024) with (bpow radix2 (-10)) by (cbn; lra). apply bpow_le. lia.
  - intros x y. apply FLT_add. lia.
  - intros x y. apply FLT_sub. lia.
  - apply generic_format_0.
Qed.
