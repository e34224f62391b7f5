(* C78: rounding errors of the moving averages (sma.hh) *)
From Coq Require Import Reals Lra List Lia ZArith Floats.
From Flocq Require Import Core.
From Verif Require Import Proofs.BaseLemmas Proofs.ContainerProofs Proofs.SwaProofs Proofs.SmaProofs Proofs.KahanFloat Proofs.PhasorProofs Proofs.SmaRound
  Model.Sma Model.Num64 Spec.Containers Spec.Reduce Spec.Sums.
Import ListNotations.
Open Scope R_scope.

Section Prove.
Context (emin prec NUM : Z) (Hp : (1 < prec)%Z) (He : (emin <= 0)%Z) (HN : (0 < NUM)%Z).
Notation u := (ulp_u prec).
Notation rnd := (FLTrnd emin prec).
Notation fadd := (fun x y : R => rnd (x + y)).
Notation fsub := (fun x y : R => rnd (x - y)).
Notation fdiv := (fun v : R => rnd (v / IZR NUM)).
Lemma u0 : 0 <= u. Proof. apply bpow_ge_0. Qed.
Lemma uhalf : u <= / 2.
Proof. unfold ulp_u. replace (/ 2) with (bpow radix2 (-1)) by (cbn; lra). apply bpow_le. lia. Qed.
Lemma rnd00 : rnd (0 + 0) = 0. Proof. rewrite Rplus_0_r. apply round_0. typeclasses eauto. Qed.
Lemma rnd_div v : Rabs (rnd v - v) <= u * Rabs v + bpow radix2 (emin - 1).
Proof. apply flt_rounding; lia. Qed.
Lemma div_step B m v s A : Rabs s <= A -> Rabs (v - s) <= ((1 + u) ^ m - 1) * A + B -> 0 <= B ->
  Rabs (fdiv v - s / IZR NUM) <= ((1 + u) ^ S m - 1) * (A / IZR NUM) + (1 + u) * (B / IZR NUM) + bpow radix2 (emin - 1).
Proof.
  intros H1 H2 HB. pose proof u0 as U. assert (N0 : 0 < IZR NUM) by (apply IZR_lt; lia). pose proof (rnd_div (v / IZR NUM)) as R.
  assert (I : 0 <= / IZR NUM) by (left; apply Rinv_0_lt_compat; auto).
  assert (D : Rabs (v / IZR NUM - s / IZR NUM) <= ((1 + u) ^ m - 1) * (A / IZR NUM) + B / IZR NUM).
  { unfold Rdiv. rewrite <- Rmult_minus_distr_r, Rabs_mult, (Rabs_pos_eq (/ IZR NUM)) by auto.
    apply Rle_trans with ((((1 + u) ^ m - 1) * A + B) * / IZR NUM); [apply Rmult_le_compat_r; auto|]. lra. }
  assert (M : Rabs (v / IZR NUM) <= (1 + u) ^ m * (A / IZR NUM) + B / IZR NUM).
  { replace (v / IZR NUM) with ((v / IZR NUM - s / IZR NUM) + s / IZR NUM) by ring. eapply Rle_trans; [apply Rabs_triang|].
    assert (Rabs (s / IZR NUM) <= A / IZR NUM); [|lra]. unfold Rdiv. rewrite Rabs_mult, (Rabs_pos_eq (/ IZR NUM)) by auto. apply Rmult_le_compat_r; auto. }
  cbn beta.   replace (rnd (v / IZR NUM) - s / IZR NUM) with ((rnd (v / IZR NUM) - v / IZR NUM) + (v / IZR NUM - s / IZR NUM)) by ring.
  eapply Rle_trans; [apply Rabs_triang|]. cbn [pow]. set (p := (1 + u) ^ m) in *. set (a := A / IZR NUM) in *. set (b := B / IZR NUM) in *.
  assert (u * Rabs (v / IZR NUM) <= u * (p * a + b)) by (apply Rmult_le_compat_l; auto). lra.
Qed.
Lemma Rmean_w (f : R -> R) h : Rmean (map f (window (Z.to_nat NUM) 0 h)) = Rsum (map f (window (Z.to_nat NUM) 0 h)) / IZR NUM.
Proof. unfold Rmean. rewrite map_length, window_length, INR_IZR_INZ, Z2Nat.id by lia. reflexivity. Qed.
Lemma Rmean_w' h : Rmean (window (Z.to_nat NUM) 0 h) = Rsum (window (Z.to_nat NUM) 0 h) / IZR NUM.
Proof. unfold Rmean. rewrite window_length, INR_IZR_INZ, Z2Nat.id by lia. reflexivity. Qed.

(** the specification: within ((1+u)^m - 1) times the sum of the magnitudes of the last NUM inputs, m the number
    of roundings on the longest way of an input to the sum; one more rounding for the division, which may underflow *)
Definition sum_error (m : nat) (h : list R) (o : R) : Prop :=
  let w := window (Z.to_nat NUM) 0 h in Rabs (o - Rsum w) <= ((1 + u) ^ m - 1) * Rsum (map Rabs w).
Definition mean_error (m : nat) (h : list R) (o : R) : Prop :=
  let w := window (Z.to_nat NUM) 0 h in Rabs (o - Rmean w) <= ((1 + u) ^ m - 1) * Rmean (map Rabs w) + bpow radix2 (emin - 1).

Lemma out_error m (norm : bool) h v : approx (FLTfmt emin prec) u m v (Rsum (window (Z.to_nat NUM) 0 h)) (absum (window (Z.to_nat NUM) 0 h)) ->
  (if norm then mean_error (S m) else sum_error m) h (if norm then fdiv v else v).
Proof.
  intros (_ & H1 & H2). destruct norm; [|exact H2]. unfold mean_error. rewrite Rmean_w, Rmean_w'. fold (absum (window (Z.to_nat NUM) 0 h)).
  pose proof (div_step 0 m v _ _ H1 ltac:(lra) ltac:(lra)) as D. cbn beta in D. lra.
Qed.
Lemma prefix_Forall (F : R -> Prop) xs : Forall F xs -> forall t, Forall F (firstn t xs).
Proof. intros H t. rewrite Forall_forall in *. intros x Hx. apply H. rewrite <- (firstn_skipn t xs). apply in_or_app. auto. Qed.

Lemma sma4_error (d : nat) (norm : bool) (xs : list R) : (NUM <= 2 ^ Z.of_nat d)%Z -> Forall (FLTfmt emin prec) xs ->
  exists os, observe (run (sma4_call fadd fdiv NUM norm) (sma4_new 0 NUM) xs) = Ok os /\ Forall2 (if norm then mean_error (S d) else sum_error d) (prefixes xs) os.
Proof.
  intros Hd HF. destruct (run_rel (sma4_call fadd fdiv NUM norm) (swa_inv fadd NUM 0) (if norm then mean_error (S d) else sum_error d) (Forall (FLTfmt emin prec)))
    with (s := sma4_new 0 NUM) (xs := xs) as (s & os & E & H2 & _).
  - intros h s x HQ HI. destruct (sma4_call_round (FLTfmt emin prec) fadd u u0) with (NUM := NUM) (d := d) (div := fdiv) (norm := norm) (xs := h) (s := s) (x := x) as (s' & v & E & A & HI'); auto.
    + intros x0 y. apply FLT_add. lia.
    + intros x0 y. now rewrite Rplus_comm.
    + apply generic_format_0.
    + exists s', (if norm then fdiv v else v). split; auto. split; auto. now apply out_error.
  - intros. now apply prefix_Forall.
  - apply swa_new_inv; auto. apply rnd00.
  - exists os. split; auto. rewrite E. reflexivity.
Qed.
Lemma sma1_error (xs : list R) : Forall (FLTfmt emin prec) xs ->
  exists os, observe (run (sma1_call fadd fdiv NUM) (sma1_new 0 NUM) xs) = Ok os /\ Forall2 (mean_error (Z.to_nat NUM)) (prefixes xs) os.
Proof.
  intros HF. destruct (run_rel (sma1_call fadd fdiv NUM) (fun h s => ring NUM (s1_inp s) (s1_pos s) (window (Z.to_nat NUM) 0 h)) (mean_error (Z.to_nat NUM)) (Forall (FLTfmt emin prec)))
    with (s := sma1_new 0 NUM) (xs := xs) as (s & os & E & H2 & _).
  - intros h s x HQ HI. destruct (sma1_call_round (FLTfmt emin prec) fadd u u0) with (NUM := NUM) (div := fdiv) (xs := h) (s := s) (x := x) as (s' & v & E & A & HI'); auto.
    + intros x0 y. apply FLT_add. lia.
    + apply generic_format_0.
    + exists s', (fdiv v). split; auto. split; auto. pose proof (out_error _ true _ _ A) as G. cbn iota in G.
      replace (S (Z.to_nat (NUM - 1))) with (Z.to_nat NUM) in G by lia. exact G.
  - intros. now apply prefix_Forall.
  - cbn [s1_inp s1_pos sma1_new]. rewrite window_nil. now apply ring_init.
  - exists os. split; auto. rewrite E. reflexivity.
Qed.
Lemma sma2_error (X : R) (norm : bool) (xs : list R) : 0 <= X -> Forall (FLTfmt emin prec) xs -> Forall (fun x => Rabs x <= X) xs ->
  exists os, observe (run (sma2_call fadd fsub fdiv NUM norm) (sma2_new 0 NUM) xs) = Ok os /\
    Forall2 (fun h o => let w := window (Z.to_nat NUM) 0 h in let E := ((1 + u) ^ length h - 1) * ((IZR NUM + 3) * X) in
      if norm then Rabs (o - Rmean w) <= (1 + u) * (E / IZR NUM) + u * X + bpow radix2 (emin - 1) else Rabs (o - Rsum w) <= E) (prefixes xs) os.
Proof.
  intros HX HF HB.
  destruct (run_rel (sma2_call fadd fsub fdiv NUM norm)
     (fun h s => delay_inv NUM 0 h (s2_delay s) /\ FLTfmt emin prec (s2_sum s) /\ Rabs (s2_sum s - Rsum (window (Z.to_nat NUM) 0 h)) <= ((1 + u) ^ length h - 1) * ((IZR NUM + 3) * X))
     (fun h o => let w := window (Z.to_nat NUM) 0 h in let E := ((1 + u) ^ length h - 1) * ((IZR NUM + 3) * X) in
      if norm then Rabs (o - Rmean w) <= (1 + u) * (E / IZR NUM) + u * X + bpow radix2 (emin - 1) else Rabs (o - Rsum w) <= E)
     (fun h => Forall (FLTfmt emin prec) h /\ Forall (fun x => Rabs x <= X) h))
    with (s := @sma2_new R 0 NUM) (xs := xs) as (s & os & E & H2 & _).
  - intros h s x [HQ HQ2] (I1 & I2 & I3).
    destruct (sma2_call_round (FLTfmt emin prec) fadd fsub u u0) with (NUM := NUM) (X := X) (div := fdiv) (norm := norm) (xs := h) (s := s) (x := x) as (s' & v & E & A1 & A2 & A3 & A4); auto.
    + intros x0 y. apply FLT_add. lia.
    + intros x0 y. apply FLT_sub. lia.
    + apply generic_format_0.
    + apply uhalf.
    + exists s', (if norm then fdiv v else v). split; auto. split; [|subst v; auto]. cbn zeta. destruct norm; auto.
      rewrite Rmean_w'. set (w := window (Z.to_nat NUM) 0 (h ++ [x])) in *. set (EE := ((1 + u) ^ length (h ++ [x]) - 1) * ((IZR NUM + 3) * X)) in *.
      assert (E0 : 0 <= EE) by (eapply Rle_trans; [apply Rabs_pos|exact A4]).
      assert (N0 : 0 < IZR NUM) by (apply IZR_lt; lia).
      assert (S1 : Rabs (Rsum w) <= IZR NUM * X).
      { eapply Rle_trans; [apply (Rsum_bound _ X); auto; apply window_Forall; auto; rewrite Rabs_R0; auto|]. unfold w. rewrite window_length, INR_IZR_INZ, Z2Nat.id by lia. lra. }
      pose proof (div_step EE 0 v (Rsum w) (IZR NUM * X) S1 ltac:(cbn [pow]; lra) E0) as D. cbn beta in D. cbn [pow] in D.
      replace (IZR NUM * X / IZR NUM) with X in D by (field; lra). lra.
  - intros. split; now apply prefix_Forall.
  - cbn [sma2_new s2_delay s2_sum]. split; [now apply delay_new_inv|]. split; [apply generic_format_0|].
    rewrite window_nil. cbn [length pow]. replace (Rsum (repeat 0 (Z.to_nat NUM))) with 0. { rewrite Rminus_0_r, Rabs_R0. lra. }
    unfold Rsum, gsum. clear. induction (Z.to_nat NUM); cbn [repeat fold_right]; lra.
  - exists os. split; auto. rewrite E. reflexivity.
Qed.
End Prove.

Notation fadd emin prec := (fun x y : R => FLTrnd emin prec (x + y)).
Notation fsub emin prec := (fun x y : R => FLTrnd emin prec (x - y)).
Notation fdiv emin prec NUM := (fun v : R => FLTrnd emin prec (v / IZR NUM)).

(** C78  SMA4 in floating point (round to nearest even, gradual underflow, no overflow): whatever came before, every
    output is the sum (or the mean) of the last NUM inputs with the error of d = ceil(log2 NUM) roundings. *)
Theorem C78_sma4_error (emin prec NUM : Z) (d : nat) (norm : bool) (xs : list R) :
  (1 < prec)%Z -> (emin <= 0)%Z -> (0 < NUM <= 2 ^ Z.of_nat d)%Z -> Forall (FLTfmt emin prec) xs ->
  exists os, observe (run (sma4_call (fadd emin prec) (fdiv emin prec NUM) NUM norm) (sma4_new 0 NUM) xs) = Ok os /\
    Forall2 (fun h o => let w := window (Z.to_nat NUM) 0 h in
      if norm then Rabs (o - Rmean w) <= ((1 + ulp_u prec) ^ S d - 1) * Rmean (map Rabs w) + bpow radix2 (emin - 1)
      else Rabs (o - Rsum w) <= ((1 + ulp_u prec) ^ d - 1) * Rsum (map Rabs w)) (prefixes xs) os.
Proof. intros H1 H2 [H3 H4] H5. destruct (sma4_error emin prec NUM H1 H2 H3 d norm xs H4 H5) as (os & E & F). exists os. split; auto. destruct norm; exact F. Qed.
Print Assumptions C78_sma4_error.
(** SMA1 likewise, with NUM roundings *)
Theorem C78_sma1_error (emin prec NUM : Z) (xs : list R) :
  (1 < prec)%Z -> (emin <= 0)%Z -> (0 < NUM)%Z -> Forall (FLTfmt emin prec) xs ->
  exists os, observe (run (sma1_call (fadd emin prec) (fdiv emin prec NUM) NUM) (sma1_new 0 NUM) xs) = Ok os /\
    Forall2 (fun h o => let w := window (Z.to_nat NUM) 0 h in
      Rabs (o - Rmean w) <= ((1 + ulp_u prec) ^ Z.to_nat NUM - 1) * Rmean (map Rabs w) + bpow radix2 (emin - 1)) (prefixes xs) os.
Proof. intros H1 H2 H3 H4. exact (sma1_error emin prec NUM H1 H2 H3 xs H4). Qed.
Print Assumptions C78_sma1_error.
(** SMA2: the error of the running sum may grow with the number of calls, but no faster than (1+u)^t - 1 times (NUM+3) X,
    X a bound of all inputs *)
Theorem C78_sma2_error (emin prec NUM : Z) (X : R) (norm : bool) (xs : list R) :
  (1 < prec)%Z -> (emin <= 0)%Z -> (0 < NUM)%Z -> 0 <= X -> Forall (FLTfmt emin prec) xs -> Forall (fun x => Rabs x <= X) xs ->
  exists os, observe (run (sma2_call (fadd emin prec) (fsub emin prec) (fdiv emin prec NUM) NUM norm) (sma2_new 0 NUM) xs) = Ok os /\
    Forall2 (fun h o => let w := window (Z.to_nat NUM) 0 h in let E := ((1 + ulp_u prec) ^ length h - 1) * ((IZR NUM + 3) * X) in
      if norm then Rabs (o - Rmean w) <= (1 + ulp_u prec) * (E / IZR NUM) + ulp_u prec * X + bpow radix2 (emin - 1)
      else Rabs (o - Rsum w) <= E) (prefixes xs) os.
Proof. intros H1 H2 H3 H4 H5 H6. exact (sma2_error emin prec NUM H1 H2 H3 X norm xs H4 H5 H6). Qed.
Print Assumptions C78_sma2_error.

(** C78  SMA2 and SMA3 do drift: in double precision, window of two, after the inputs 2^60 and 1 every later mean of
    zeros is -1/2, for ever *)
Notation d2 := (fun v => PrimFloat.div v 2).
Definition big : PrimFloat.float := 1152921504606846976%float.
Lemma zeros_tail {S} (step : S -> PrimFloat.float -> outcome (S * PrimFloat.float)) s1 s2 o : step s1 0%float = Ok (s2, o) -> step s2 0%float = Ok (s1, o) ->
  forall n, (exists os, run step s1 (repeat 0%float n) = Ok (if Nat.even n then s1 else s2, os) /\ os = repeat o n) /\
            (exists os, run step s2 (repeat 0%float n) = Ok (if Nat.even n then s2 else s1, os) /\ os = repeat o n).
Proof.
  intros H1 H2. induction n as [|n [IH1 IH2]].
  - split; eexists; cbn; eauto.
  - split; cbn [repeat run]; [rewrite H1|rewrite H2]; cbn [bind].
    + destruct IH2 as (os & -> & ->). cbn [bind]. eexists. split; [|reflexivity]. do 2 f_equal. rewrite Nat.even_succ, <- Nat.negb_even. destruct (Nat.even n); reflexivity.
    + destruct IH1 as (os & -> & ->). cbn [bind]. eexists. split; [|reflexivity]. do 2 f_equal. rewrite Nat.even_succ, <- Nat.negb_even. destruct (Nat.even n); reflexivity.
Qed.
Theorem C78_sma2_no_drift_refuted (n : nat) : exists os,
  observe (run (sma2_call PrimFloat.add PrimFloat.sub d2 2 true) (sma2_new 0%float 2) ([big; 1; 0; 0]%float ++ repeat 0%float n)) = Ok (os ++ repeat (-0.5)%float n).
Proof.
  rewrite run_app. set (st := sma2_call PrimFloat.add PrimFloat.sub d2 2 true).
  let r := eval vm_compute in (run st (sma2_new 0%float 2) [big; 1; 0; 0]%float) in replace (run st (sma2_new 0%float 2) [big; 1; 0; 0]%float) with r by (vm_compute; reflexivity).
  cbn [bind]. destruct (zeros_tail st (mkSma2 (mkDelay [0; 0]%float 0) (-1)%float) (mkSma2 (mkDelay [0; 0]%float 1) (-1)%float) (-0.5)%float eq_refl eq_refl n) as [(os & E & ->) _].
  eexists. unfold observe. rewrite E. cbn [bind]. reflexivity.
Qed.
Print Assumptions C78_sma2_no_drift_refuted.
Theorem C78_sma3_no_drift_refuted (n : nat) : exists os,
  observe (run (sma3_call PrimFloat.add PrimFloat.sub PrimFloat.opp d2 2 true) (sma3_new 0%float 2) ([big; 1; 0; 0]%float ++ repeat 0%float n)) = Ok (os ++ repeat (-0.5)%float n).
Proof.
  rewrite run_app. set (st := sma3_call PrimFloat.add PrimFloat.sub PrimFloat.opp d2 2 true).
  let r := eval vm_compute in (run st (sma3_new 0%float 2) [big; 1; 0; 0]%float) in replace (run st (sma3_new 0%float 2) [big; 1; 0; 0]%float) with r by (vm_compute; reflexivity).
  cbn [bind]. destruct (zeros_tail st (mkSma3 (mkDelay [0; 0]%float 0) (mkKahan (-1)%float 0%float)) (mkSma3 (mkDelay [0; 0]%float 1) (mkKahan (-1)%float 0%float)) (-0.5)%float eq_refl eq_refl n) as [(os & E & ->) _].
  eexists. unfold observe. rewrite E. cbn [bind]. reflexivity.
Qed.
Print Assumptions C78_sma3_no_drift_refuted.
(** a window of 1000 doubles in [-1, 1]: every mean SMA4 returns, after any number of inputs, is within 1.3e-15 *)
Example C78_example (xs : list R) : Forall (FLTfmt (-1074) 53) xs -> Forall (fun x => Rabs x <= 1) xs ->
  exists os, observe (run (sma4_call (fadd (-1074) 53) (fdiv (-1074) 53 1000) 1000 true) (sma4_new 0 1000) xs) = Ok os /\
    Forall2 (fun h o => Rabs (o - Rmean (window 1000 0 h)) <= 1.3e-15) (prefixes xs) os.
Proof.
  intros HF HB. destruct (C78_sma4_error (-1074) 53 1000 10 true xs) as (os & E & H); auto; [lia|lia|split; [lia|apply Z.leb_le; reflexivity]|].
  exists os. split; auto. change (Z.to_nat 1000) with 1000%nat in H. cbv beta zeta iota in H.
  assert (U : ulp_u 53 = / 9007199254740992) by (unfold ulp_u; cbn; lra).
  assert (Q : (1 + ulp_u 53) ^ 11 - 1 <= 1.2999e-15) by (rewrite U; cbn [pow]; lra).
  assert (Q0 : 0 <= (1 + ulp_u 53) ^ 11 - 1). { assert (1 <= (1 + ulp_u 53) ^ 11); [|lra]. apply pow_R1_Rle. rewrite U. lra. }
  assert (B : bpow radix2 (-1074 - 1) <= 1e-19). { apply Rle_trans with (bpow radix2 (-70)); [apply bpow_le; lia|cbn; lra]. }
  assert (M : forall h, In h (prefixes xs) -> Rmean (map Rabs (window 1000 0 h)) <= 1).
  { intros h Hh. unfold Rmean. rewrite map_length, window_length.
    assert (A : Rabs (Rsum (map Rabs (window 1000 0 h))) <= INR (length (map Rabs (window 1000 0 h))) * 1).
    { apply Rsum_bound; [lra|]. apply Forall_map. apply (Forall_impl (P := fun x => Rabs x <= 1)); [intros a Ha; rewrite Rabs_Rabsolu; auto|].
      apply window_Forall; [rewrite Rabs_R0; lra|]. unfold prefixes in Hh. apply in_map_iff in Hh. destruct Hh as (t & <- & _). now apply prefix_Forall. }
    rewrite map_length, window_length in A. pose proof (Rle_abs (Rsum (map Rabs (window 1000 0 h)))).
    assert (I : INR 1000 = 1000) by (rewrite INR_IZR_INZ; reflexivity). rewrite I in *. lra. }
  clear E. revert M H. generalize (prefixes xs) as ps. intros ps M H. induction H as [|h o ps os H1 H IH]; constructor.
  - pose proof (M h ltac:(cbn; auto)). eapply Rle_trans; [exact H1|].
    assert (((1 + ulp_u 53) ^ 11 - 1) * Rmean (map Rabs (window 1000 0 h)) <= ((1 + ulp_u 53) ^ 11 - 1) * 1) by (apply Rmult_le_compat_l; auto). lra.
  - apply IH. intros h' Hh. apply M. cbn; auto.
Qed.
