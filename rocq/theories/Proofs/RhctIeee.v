(* RealToHalfComplexTransform in any arithmetic and in the IEEE formats *)
From Coq Require Import ZArith Reals Lia Lra List Bool.
From Flocq Require Import Core BinarySingleNaN.
From Coquelicot Require Import Complex.
From Verif Require Import Model.Base Proofs.BaseLemmas Model.Num Model.Complex Model.NumIeee Spec.Rounding Proofs.IeeeProofs Proofs.IeeeFun Spec.Dft Model.Fft Model.UnitCircle Proofs.FftSplit Proofs.FftGen Proofs.FftKernels Proofs.FftProofs Proofs.FftRound Proofs.Param Proofs.IeeeFft Proofs.RhctRound.
Import ListNotations.
Open Scope R_scope.

(** ** any arithmetic *)
Section Safe.
Context {T : Type} (N : num T) (tr : trig T).
Lemma dit_safe n SIGN out (inp z : list (cplx T)) : (0 < n)%Z -> smooth31 n -> (n <= zlen inp)%Z -> (n <= zlen out)%Z -> zlen z = n ->
  exists out', dit N tr (Z.to_nat n) SIGN (split n) n 1 out 0 inp 0 z = Ok out' /\ zlen out' = zlen out /\
    (forall k, (n <= k)%Z -> znth out' k = znth out k) /\ forall k, (0 <= k < n)%Z -> exists v, znth out' k = Some (Some v).
Proof.
  intros HB Hsm Li Lo Lz.
  destruct (dit_gen N tr SIGN n inp z (fun _ _ _ _ _ => True)) with (fuel := Z.to_nat n) (n := n) (s := 1%Z) (out := out) (o := 0%Z) (i := 0%Z)
    as (out' & E & L & U & B); auto; try lia.
  - intros R s i ins IR _ _ _ _ _ Lins _. destruct (dft_len N tr SIGN R ins IR Lins) as (outs & E & LO). exists outs. auto.
  - intros R q s i k0 xs ins IR _ _ _ _ _ _ _ _ _ Lins _ _. destruct (dft_len N tr SIGN R ins IR Lins) as (outs & E & LO). exists outs. auto.
  - exists out'. splits; auto. { intros m Hm. apply U. lia. }
    intros k Hk. destruct (B k Hk) as (v & Hv & _). exists v. auto.
Qed.
Lemma rhct_safe BINS out (inp : list T) : (0 < BINS)%Z -> (BINS mod 2 = 0)%Z -> smooth31 (BINS / 2) -> zlen inp = BINS -> (BINS / 2 + 1 <= zlen out)%Z ->
  exists out', rhct N tr BINS out inp = Ok out' /\ zlen out' = zlen out /\
    (forall k, (BINS / 2 < k)%Z -> znth out' k = znth out k) /\ forall k, (0 <= k <= BINS / 2)%Z -> exists v, znth out' k = Some (Some v).
Proof.
  intros HB Ev Hsm Li Lo. set (M := (BINS / 2)%Z) in *. assert (EB : (BINS = 2 * M)%Z) by (unfold M; apply Z_div_exact_full_2; lia).
  destruct (dit_safe M (-1) out (pairup inp) (rhct_factors N tr BINS)) as (o1 & E1 & L1 & U1 & V1); auto; try lia.
  { rewrite (zlen_pairup BINS) by auto. fold M. lia. } { apply zlen_rfactors. unfold M in *. lia. }
  set (Zt := fun k : Z => match znth o1 k with Some (Some v) => v | _ => (n0 N, n0 N) end).
  destruct (rhct_gen N tr BINS out inp o1 Zt) as (out' & E & L & U & V0 & VM & VX); auto; try (fold M; lia).
  { intros k Hk. fold M in Hk. destruct (V1 k Hk) as (v & Ev'). unfold Zt. rewrite Ev'. auto. }
  fold M in U, VM, VX. exists out'. splits; auto. intros k Hk. destruct (Z.eq_dec k 0) as [->|]; [eauto|]. destruct (Z.eq_dec k M) as [->|]; [eauto|]. eexists. apply VX. lia.
Qed.
End Safe.

(** ** magnitudes *)
Lemma b_cmul2 p w a : bnd 2.006 w -> bnd p a -> bnd (4.03 * p) (cmul Mn a w).
Proof.
  intros [A1 A2] [B1 B2]. split; cbn; unfold creal, cimag in *.
  - assert (0 <= fst a * fst w <= p * 2.006) by nra. assert (0 <= snd a * snd w <= p * 2.006) by nra. lra.
  - assert (0 <= fst a * snd w <= p * 2.006) by nra. assert (0 <= snd a * fst w <= p * 2.006) by nra. lra.
Qed.
Lemma rhct_bnd BINS (out : list (option (cplx R))) (inp : list R) m : (0 < BINS)%Z -> (BINS mod 2 = 0)%Z -> smooth31 (BINS / 2) -> zlen inp = BINS -> (BINS / 2 + 1 <= zlen out)%Z -> 1 <= m -> (forall x, In x inp -> 0 <= x <= m) ->
  exists out', rhct Mn Mtr BINS out inp = Ok out' /\ forall k, (0 <= k <= BINS / 2)%Z -> exists v, znth out' k = Some (Some v) /\ bnd (2 * m * IZR BINS ^ 3) v.
Proof.
  intros HB Ev Hsm Li Lo Hm Hin. set (M := (BINS / 2)%Z) in *. assert (EB : (BINS = 2 * M)%Z) by (unfold M; apply Z_div_exact_full_2; lia).
  destruct (dit_bnd M (-1) (rhct_factors Mn Mtr BINS) out (pairup inp) m) as (o1 & E1 & L1 & U1 & V1); auto; try lia.
  { apply zlen_rfactors. unfold M in *. lia. }
  { intros w Hw. unfold rhct_factors in Hw. apply in_map_iff in Hw. destruct Hw as (n & <- & _). split; cbn; lra. }
  { rewrite (zlen_pairup BINS) by auto. fold M. lia. }
  { clear - Hin. intros x. assert (G : forall n (l : list R), (length l <= n)%nat -> (forall x, In x l -> 0 <= x <= m) -> In x (pairup l) -> bnd m x).
    { induction n as [|n IH]; intros l L H; destruct l as [|a [|b l]]; cbn [length] in L; try lia; try solve [intros []]. intros [I|I].
      - subst x. split; apply H; cbn; auto.
      - apply (IH l); auto; [lia|]. intros; apply H; cbn; auto. }
    apply (G (length inp)); auto. }
  set (Zt := fun k : Z => match znth o1 k with Some (Some v) => v | _ => (0, 0) end).
  set (q := IZR M ^ 3 * m) in *.
  assert (VZ : forall k, (0 <= k < M)%Z -> znth o1 k = Some (Some (Zt k)) /\ bnd q (Zt k)).
  { intros k Hk. destruct (V1 k Hk) as (v & Ev' & Bv). unfold Zt. rewrite Ev'. auto. }
  assert (Q1 : 1 <= q). { unfold q. assert (1 <= IZR M ^ 3) by (apply pow_R1_Rle; apply IZR_le; lia). replace 1 with (1 * 1) by ring. apply Rmult_le_compat; lra. }
  assert (Q8 : 2 * m * IZR BINS ^ 3 = 16 * q). { rewrite EB, mult_IZR. unfold q. ring. } rewrite Q8. clearbody q.
  destruct (rhct_gen Mn Mtr BINS out inp o1 Zt) as (out' & E & L & U & V0 & VM & VX); auto; try (fold M; lia).
  { intros k Hk. fold M in Hk. apply VZ. auto. }
  fold M in U, VM, VX. exists out'. split; auto. destruct (VZ 0%Z ltac:(lia)) as [_ [B1 B2]]. intros k Hk. destruct (Z.eq_dec k 0) as [->|]; [|destruct (Z.eq_dec k M) as [->|]].
  - eexists. split; [exact V0|]. unfold creal, cimag in *. split; cbn; lra.
  - eexists. split; [exact VM|]. unfold creal, cimag in *. split; cbn; lra.
  - eexists. split; [apply VX; lia|]. destruct (VZ k ltac:(lia)) as [_ Bk1]. destruct (VZ (M - k)%Z ltac:(lia)) as [_ Bk2]. unfold rbin. fold M.
    eapply bnd_le; [|apply b_add; apply b_cmul2; [|exact Bk1| |]].
    + instantiate (1 := q). lra.
    + split; cbn; lra.
    + split; cbn; lra.
    + destruct Bk2. split; cbn; auto.
Qed.

(** ** IEEE formats *)
Section Ieee.
Context (prec emax : Z) {Hp : Prec_gt_0 prec} {Hpe : Prec_lt_emax prec emax}.
Context (P24 : (24 <= prec)%Z) (E128 : (128 <= emax)%Z).
Notation bf := (binary_float prec emax).
Notation B := (Bn prec emax).
Notation rnd := (brnd prec emax).
Notation F := (Fn rnd).
Lemma one_rep : rep prec emax (n1 B) (n1 F).
Proof. split; [apply is_finite_Bone|]. cbn [n1 Bn Fn]. apply Bone_correct. Qed.
Lemma half_lit : rk prec emax (nlit B (1 / 2)) (nlit F (1 / 2)) 0.
Proof. apply rk_lit; auto; [lia|]. apply Rabs_le. change (bpow radix2 0) with 1. lra. Qed.
Lemma ieee_rhct_F BINS out inp : (0 < BINS)%Z -> (8 * BINS <= INT_MAX)%Z ->
  orel (Forall2 (oprel (crel (relF prec emax)))) (rhct B (uc_trig B) BINS out inp) (rhct F (uc_trig F) BINS (map (option_map (cR prec emax)) out) (map B2R inp)).
Proof.
  intros HB HI. apply (rhct_rel B F (uc_trig B) (uc_trig F) (relF prec emax) (Z.max 31 BINS)); try lia.
  - exact (relF_add prec emax). - exact (relF_sub prec emax). - exact (relF_mul prec emax). - apply rep_relF, rep_0.
  - intros n M H1 H2. apply trig_F; auto. unfold INT_MAX in *. lia.
  - intros n M H1 H2. apply trig_F; auto. unfold INT_MAX in *. lia.
  - apply rep_relF, rs_lit; auto.
  - exact (relF_opp prec emax).
  - apply rep_relF, one_rep.
  - apply rep_relF, half_lit.
  - clear. induction out as [|[z|] out IH]; cbn; constructor; auto; cbn; auto. split; intros _; reflexivity.
  - clear. induction inp; cbn; constructor; auto. intros _. reflexivity.
Qed.
Lemma relM_opp a x : relM prec emax a x -> relM prec emax (nopp B a) (nopp Mn x).
Proof. intros [X Ha]. split; auto. intros L. destruct (Ha L) as [F1 R1]. cbn [nopp Bn]. rewrite is_finite_Bopp, B2R_Bopp, Rabs_Ropp. auto. Qed.
Lemma ieee_rhct_M BINS out (inp : list bf) X : (0 < BINS)%Z -> (BINS mod 2 = 0)%Z -> smooth31 (BINS / 2) -> (8 * BINS <= INT_MAX)%Z -> zlen inp = BINS -> (BINS / 2 + 1 <= zlen out)%Z ->
  1 <= X -> 2 * X * IZR BINS ^ 3 < bpow radix2 emax -> (forall z, In z inp -> is_finite z = true /\ Rabs (B2R z) <= X) ->
  exists out', rhct B (uc_trig B) BINS out inp = Ok out' /\ forall k, (0 <= k <= BINS / 2)%Z -> exists v, znth out' k = Some (Some v) /\ cfin prec emax v.
Proof.
  intros HB Ev Hsm HI Li Lo X1 HX Hin. set (mo := map (option_map (fun _ : cplx bf => (bpow radix2 emax, bpow radix2 emax))) out). set (mi := map (fun _ : bf => X) inp).
  destruct (rhct_safe B (uc_trig B) BINS out inp HB Ev Hsm Li Lo) as (out' & E & L & U & V). exists out'. split; auto.
  destruct (rhct_bnd BINS mo mi X) as (om & Em & Vm); auto.
  { unfold mi, zlen. rewrite map_length. auto. } { unfold mo, zlen. rewrite map_length. auto. } { intros x Ix. unfold mi in Ix. apply in_map_iff in Ix. destruct Ix as (y & <- & _). lra. }
  assert (RR : orel (Forall2 (oprel (crel (relM prec emax)))) (rhct B (uc_trig B) BINS out inp) (rhct Mn Mtr BINS mo mi)).
  { apply (rhct_rel B Mn (uc_trig B) Mtr (relM prec emax) (Z.max 31 BINS)); try lia.
    - exact (relM_add prec emax P24 E128). - exact (relM_sub prec emax P24 E128). - exact (relM_mul prec emax P24 E128).
    - split; [cbn; lra|]. intros _. split; [reflexivity|]. cbn. rewrite Rabs_R0. lra.
    - intros n M H1 H2. apply trig_M; auto. unfold INT_MAX in *. lia.
    - intros n M H1 H2. apply trig_M; auto. unfold INT_MAX in *. lia.
    - eapply rk_relM; [apply rs_lit; auto| |]; cbn; lra.
    - exact relM_opp.
    - split; [cbn; lra|]. intros _. destruct one_rep as [F1 R1]. split; auto. rewrite R1. cbn. rewrite Rabs_R1. lra.
    - eapply rk_relM; [exact half_lit| |]; cbn; lra.
    - unfold mo. clear - E128. assert (1 <= bpow radix2 emax) by (change 1 with (bpow radix2 0); apply bpow_le; lia). induction out as [|[z|] out IH]; cbn; constructor; auto; cbn; auto. split; split; cbn; auto; lra.
    - unfold mi. clear - Hin X1. induction inp as [|z inp IH]; cbn; constructor; [|apply IH; intros; apply Hin; right; auto]. destruct (Hin z ltac:(left; auto)) as (F1 & B1). split; auto. }
  rewrite E, Em in RR. cbn in RR. intros k Hk. destruct (V k Hk) as (v & Ev'). exists v. split; auto. destruct (Vm k Hk) as (w & Ew & [Bw1 Bw2]).
  pose proof (znth_rel _ _ _ k RR) as Q. rewrite Ev', Ew in Q. destruct Q as [[_ Q1] [_ Q2]]. split; [apply Q1|apply Q2]; lra.
Qed.
End Ieee.
