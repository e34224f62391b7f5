(* Rounding error of frequency domain zero padding *)
From Coq Require Import Reals ZArith Lia Lra List Psatz.
From Coquelicot Require Import Complex.
From Verif Require Import Proofs.BaseLemmas Spec.Dft Spec.Rounding Spec.Fir Model.Fft Model.Fdzp Proofs.FftAlg Proofs.FftSplit Proofs.FftKernels Proofs.FftGen Proofs.FftProofs Proofs.FftInverse Proofs.FftRound Proofs.FftL2 Proofs.FdzpProofs.
Import ListNotations.
Open Scope R_scope.

(** the padded spectrum, from the bins v and the halved middle bin y *)
Definition Tv (h : nat) (v : nat -> C) (y : C) (O j : nat) : C :=
  if (j <? h)%nat then v j else if (j =? h)%nat then y
  else if (j <? O - h)%nat then RtoC 0 else if (j =? O - h)%nat then y else v (j - (O - 2 * h))%nat.
Lemma Tj_Tv h x O : (0 < h)%nat -> forall j, Tj h x O j = Tv h (fun k => DFT (-1) (2 * h) x k) (RtoC (1/2) * DFT (-1) (2 * h) x h)%C O j.
Proof.
  intros Hh j. unfold Tj, Tv. rewrite !Xs_DFT by auto. destruct (j <? h)%nat; auto.
Qed.

(** the norm of a padded sequence *)
Lemma pad_norm h O (g p : nat -> R) : (0 < h)%nat -> (2 * h < O)%nat -> (forall j, (j < h)%nat -> p j = g j) -> (forall j, (h < j < O - h)%nat -> p j = 0) -> (forall j, (O - h < j < O)%nat -> p j = g (j - (O - 2 * h))%nat) ->
  p h ^ 2 + p (O - h)%nat ^ 2 <= g h ^ 2 -> nr O p <= nr (2 * h) g.
Proof.
  intros Hh HO P1 P2 P3 P4. unfold nr. apply sqrt_le_1_alt. set (z := (O - 2 * h - 1)%nat).
  replace O with (h + (1 + (z + (1 + (h - 1)))))%nat at 1 by (unfold z; lia). replace (2 * h)%nat with (h + (1 + (h - 1)))%nat at 1 by lia. rewrite !Rsumn_add'.
  rewrite (Rsumn_ext' h (fun k => p k ^ 2) (fun k => g k ^ 2)) by (intros; rewrite P1; auto).
  rewrite (Rsumn_ext' z _ (fun _ => 0)) by (intros k Hk; rewrite P2 by (unfold z in *; lia); ring). rewrite Rsumn_zero.
  rewrite (Rsumn_ext' (h - 1) (fun k => p (h + (1 + (z + (1 + k))))%nat ^ 2) (fun k => g (h + (1 + k))%nat ^ 2)) by (intros k Hk; rewrite P3 by (unfold z; lia); do 2 f_equal; unfold z; lia).
  cbn [Rsumn]. rewrite !Nat.add_0_r. replace (h + (1 + z))%nat with (O - h)%nat by (unfold z; lia). lra.
Qed.

Section Run.
Context (rnd : R -> R) (tr : trig R).
Notation N := (Fn rnd).
Open Scope Z_scope.

Lemma fdzp_run (OUTPUT INPUT : Z) (tmp output t1 : list (option C)) (input : list C) (v w : nat -> C) :
  0 < INPUT -> INPUT mod 2 = 0 -> 3 * INPUT <= 2 * OUTPUT -> zeroed OUTPUT INPUT tmp -> OUTPUT <= zlen output ->
  let h := Z.to_nat (INPUT / 2) in let O := Z.to_nat OUTPUT in let y := cscale_eq N (v h) (nlit N (1/2)%R) in
  fft N tr INPUT (-1) tmp input = Ok t1 -> zlen t1 = zlen tmp -> (forall k, INPUT <= k -> znth t1 k = znth tmp k) -> (forall k, (k < Z.to_nat INPUT)%nat -> znth t1 (Z.of_nat k) = Some (Some (v k))) ->
  (exists o1, fft N tr OUTPUT 1 output (map (Tv h v y O) (seq 0 O)) = Ok o1 /\ zlen o1 = zlen output /\ (forall k, OUTPUT <= k -> znth o1 k = znth output k) /\ (forall k, (k < O)%nat -> znth o1 (Z.of_nat k) = Some (Some (w k)))) ->
  exists tmp' output' : list (option C), fdzp N tr OUTPUT INPUT tmp output input = Ok (tmp', output') /\
    zeroed OUTPUT INPUT tmp' /\ zlen output' = zlen output /\ (forall m, OUTPUT <= m -> znth output' m = znth output m) /\
    forall m, (m < O)%nat -> znth output' (Z.of_nat m) = Some (Some (cscale_eq N (w m) (ndiv N (nofZ N 1) (nofZ N INPUT)))).
Proof.
  intros HI Hev H32 (Lt & Zt) Lo h O y E1 L1 U1 V1 (o1 & E5 & L5 & U5 & V5).
  set (H := INPUT / 2) in *. assert (EI : INPUT = 2 * H) by (unfold H; apply Z_div_exact_full_2; lia).
  assert (HH : 0 < H) by lia. assert (Eh : Z.of_nat h = H) by (unfold h; lia).
  assert (FI : (INPUT + 1) / 2 + 1 = H + 1). { rewrite EI. f_equal. symmetry. apply (Z.div_unique _ 2 H 1); lia. }
  unfold fdzp. change (cplx R) with C. rewrite E1. cbn [bind]. rewrite Hev. cbn [Z.eqb]. cplxC. fold H.
  assert (V : forall k, 0 <= k < INPUT -> znth t1 k = Some (Some (v (Z.to_nat k)))).
  { intros k Hk. rewrite <- V1 by lia. f_equal. lia. }
  clear V1. rewrite (geti_Some _ _ _ (V H ltac:(lia))). cbn [bind]. rewrite set_in_range by lia. cbn [bind].
  assert (G : forall c : option C, znth (zupd t1 H c) H = Some c) by (intros c; apply znth_zupd_eq; lia).
  rewrite (geti_Some _ _ _ (G _)). cbn [bind]. rewrite set_in_range by (rewrite zlen_zupd; lia). cbn [bind].
  rewrite FI. fold h y. clearbody y.
  set (t2 := zupd (zupd t1 H (Some y)) (OUTPUT - H) (Some y)).
  assert (L2 : zlen t2 = OUTPUT) by (unfold t2; rewrite !zlen_zupd; lia).
  pose (P := fun (i : Z) (t : list (option C)) => zlen t = OUTPUT /\
     (forall k, ~ (OUTPUT - H < k < OUTPUT - INPUT + i) -> znth t k = znth t2 k) /\
     (forall k, OUTPUT - H < k < OUTPUT - INPUT + i -> znth t k = Some (Some (v (Z.to_nat (k - (OUTPUT - INPUT))))))).
  match goal with |- context [for_loop ?n ?i ?b t2] => destruct (for_loop_inv P b n i t2) as (t3 & E3 & P3) end.
  { unfold P. splits; auto. intros k Hk. lia. }
  { intros j t Hj (Lj & Uj & Vj). 
    assert (Gj : znth t j = Some (Some (v (Z.to_nat j)))).
    { rewrite Uj by lia. unfold t2. rewrite !znth_zupd_ne by lia. apply V. lia. }
    rewrite (geti_Some _ _ _ Gj). cbn [bind]. rewrite set_in_range by lia. eexists. split; [reflexivity|].
    unfold P. rewrite zlen_zupd. splits; auto.
    - intros k Hk. rewrite znth_zupd_ne by lia. apply Uj. lia.
    - intros k Hk. destruct (Z.eq_dec k (OUTPUT - INPUT + j)) as [->|Hne].
      + rewrite znth_zupd_eq by lia. do 4 f_equal. lia.
      + rewrite znth_zupd_ne by lia. apply Vj. lia. }
  change (cplx R) with C in *. rewrite E3. cbn [bind]. clear E3.
  destruct P3 as (L3 & U3 & V3). replace (OUTPUT - INPUT + (H + 1 + Z.of_nat (Z.to_nat (INPUT - (H + 1))))) with OUTPUT in U3, V3 by lia.
  pose (Q := fun (i : Z) (t : list (option C)) => zlen t = OUTPUT /\
     (forall k, ~ (H < k < i) -> znth t k = znth t3 k) /\ (forall k, H < k < i -> znth t k = Some (Some (RtoC 0)))).
  match goal with |- context [for_loop ?n ?i ?b t3] => destruct (for_loop_inv Q b n i t3) as (t4 & E4 & P4) end.
  { unfold Q. splits; auto. intros k Hk. lia. }
  { intros j t Hj (Lj & Uj & Vj). rewrite set_in_range by lia. eexists. split; [reflexivity|].
    unfold Q. rewrite zlen_zupd. splits; auto.
    - intros k Hk. rewrite znth_zupd_ne by lia. apply Uj. lia.
    - intros k Hk. destruct (Z.eq_dec k j) as [->|Hne]; [apply znth_zupd_eq; lia|]. rewrite znth_zupd_ne by lia. apply Vj. lia. }
  change (cplx R) with C in *. rewrite E4. cbn [bind]. clear E4.
  destruct P4 as (L4 & U4 & V4). replace (H + 1 + Z.of_nat (Z.to_nat (INPUT - (H + 1)))) with INPUT in U4, V4 by lia.
  assert (VT : forall k, 0 <= k < OUTPUT -> znth t4 k = Some (Some (Tv h v y O (Z.to_nat k)))).
  { intros k Hk. unfold Tv. destruct (Nat.ltb_spec (Z.to_nat k) h).
    { rewrite U4, U3 by lia. unfold t2. rewrite !znth_zupd_ne by lia. rewrite V by lia. reflexivity. }
    destruct (Nat.eqb_spec (Z.to_nat k) h).
    { replace k with H by lia. rewrite U4, U3 by lia. unfold t2. rewrite znth_zupd_ne by lia. apply G. }
    destruct (Nat.ltb_spec (Z.to_nat k) (O - h)).
    { destruct (Z_lt_le_dec k INPUT); [apply V4; lia|]. rewrite U4, U3 by lia. unfold t2. rewrite !znth_zupd_ne by lia. rewrite U1 by lia. apply Zt. lia. }
    destruct (Nat.eqb_spec (Z.to_nat k) (O - h)).
    { replace k with (OUTPUT - H) by lia. rewrite U4, U3 by lia. unfold t2. apply znth_zupd_eq. rewrite zlen_zupd. lia. }
    rewrite U4 by lia. rewrite V3 by lia. do 3 f_equal. lia. }
  assert (IT : inited t4 = Ok (map (Tv h v y O) (seq 0 O))).
  { rewrite (cells_eq t4 O (Tv h v y O)) by (intros; try apply VT; lia). apply inited_map. }
  change (cplx R) with C in *. rewrite IT. cbn [bind]. rewrite E5. cbn [bind]. clear E5.
  set (SC := ndiv N (nofZ N 1) (nofZ N INPUT)).
  pose (S := fun (i : Z) (t : list (option C)) => zlen t = zlen output /\
     (forall k, ~ (0 <= k < i) -> znth t k = znth o1 k) /\ (forall k, 0 <= k < i -> znth t k = Some (Some (cscale_eq N (w (Z.to_nat k)) SC)))).
  match goal with |- context [for_loop ?n ?i ?b o1] => destruct (for_loop_inv S b n i o1) as (o2 & E6 & P6) end.
  { unfold S. splits; auto. intros k Hk. lia. }
  { intros j t Hj (Lj & Uj & Vj). assert (Gj := V5 (Z.to_nat j) ltac:(lia)). rewrite Z2Nat.id in Gj by lia. rewrite <- Uj in Gj by lia.
    rewrite (geti_Some _ _ _ Gj). cbn [bind]. rewrite set_in_range by lia. eexists. split; [reflexivity|].
    unfold S. rewrite zlen_zupd. splits; auto.
    - intros k Hk. rewrite znth_zupd_ne by lia. apply Uj. lia.
    - intros k Hk. destruct (Z.eq_dec k j) as [->|Hne]; [|rewrite znth_zupd_ne by lia; apply Vj; lia].
      rewrite znth_zupd_eq by lia. reflexivity. }
  change (cplx R) with C in *. rewrite E6. cbn [bind]. destruct P6 as (L6 & U6 & V6). replace (0 + Z.of_nat (Z.to_nat OUTPUT)) with OUTPUT in U6, V6 by lia.
  exists t4, o2. splits; auto.
  - split; auto. intros k Hk. fold H in Hk. rewrite VT by lia. unfold Tv. destruct (Nat.ltb_spec (Z.to_nat k) h); [lia|]. destruct (Nat.eqb_spec (Z.to_nat k) h); [lia|]. destruct (Nat.ltb_spec (Z.to_nat k) (O - h)); [reflexivity|lia].
  - intros m Hm. rewrite U6 by lia. apply U5. lia.
  - intros m Hm. rewrite V6 by (unfold O in Hm; lia). rewrite Nat2Z.id. reflexivity.
Qed.
End Run.

(** ** the error *)
Section Err.
Context (hn O d1 d2 : nat) (h X sc : R) (x v w z : nat -> C) (y : C).
Notation I := (2 * hn)%nat.
Notation P := (pow (1 + h)).
Notation Xh := (DFT (-1) I x).
Notation T0 := (Tv hn Xh (RtoC (1/2) * Xh hn)%C O).
Notation T1 := (Tv hn v y O).
Notation a := (nr I (fun k => Cmod (x k))).
Hypothesis Hn : (0 < hn)%nat.
Hypothesis HO : (3 * hn <= O)%nat.
Hypothesis Hh : 0 <= h.
Hypothesis HX : 0 < X.
Hypothesis B1 : nr I (fun k => Cmod (v k - Xh k)%C) <= (P d1 - 1) * (sqrt (INR I) * a + INR I * X).
Hypothesis By : Cmod (y - RtoC (1/2) * v hn)%C <= h * (Cmod (RtoC (1/2) * v hn)%C + X).
Hypothesis B2 : nr O (fun k => Cmod (w k - DFT 1 O T1 k)%C) <= (P d2 - 1) * (sqrt (INR O) * nr O (fun k => Cmod (T1 k)) + INR O * X).
Hypothesis Bz : forall m, (m < O)%nat -> Cmod (z m - RtoC sc * w m)%C <= h * (Cmod (RtoC sc * w m)%C + X).
Hypothesis Bs : Rabs (sc - / INR I) <= h * / INR I.

Lemma I_pos : 2 <= INR I. Proof. change 2 with (INR 2). apply le_INR. lia. Qed.
Lemma P_1 d : 1 <= P d. Proof. apply pow_R1_Rle. lra. Qed.
Notation S := (sqrt (INR I) * a + 2 * INR I * X).

Lemma Xh_norm : nr I (fun k => Cmod (Xh k)) = sqrt (INR I) * a.
Proof. apply (cn_parseval (-1) I x); [auto|lia]. Qed.

Lemma pad_diff : nr O (fun j => Cmod (T1 j - T0 j)%C) <= (P (d1 + 1) - 1) * S.
Proof.
  set (g := fun k => Cmod (v k - Xh k)%C + h * (Cmod (v k) + 2 * X)).
  set (p := fun j => if (j =? hn)%nat then g hn / 2 else if (j =? O - hn)%nat then g hn / 2 else if (j <? hn)%nat then g j else if (j <? O - hn)%nat then 0 else g (j - (O - 2 * hn))%nat).
  assert (G0 : forall k, 0 <= g k).
  { intros k. unfold g. pose proof (Cmod_ge_0 (v k - Xh k)%C). pose proof (Cmod_ge_0 (v k)). assert (0 <= h * (Cmod (v k) + 2 * X)) by (apply Rmult_le_pos; lra). lra. }
  assert (G1 : forall k, Cmod (v k - Xh k)%C <= g k).
  { intros k. unfold g. pose proof (Cmod_ge_0 (v k)). assert (0 <= h * (Cmod (v k) + 2 * X)) by (apply Rmult_le_pos; lra). lra. }
  assert (Gh : Cmod (y - RtoC (1/2) * Xh hn)%C <= g hn / 2).
  { eapply Rle_trans; [apply (Cmod_sub_le _ (RtoC (1/2) * v hn)%C)|].
    replace (RtoC (1/2) * v hn - RtoC (1/2) * Xh hn)%C with (RtoC (1/2) * (v hn - Xh hn))%C by ring. rewrite Cmod_mult in By. rewrite Cmod_mult. replace (Cmod (RtoC (1 / 2))) with (1/2) in * by (rewrite Cmod_R, Rabs_pos_eq; lra). unfold g. nra. }
  eapply Rle_trans; [apply (nr_le' O _ p)|eapply Rle_trans; [apply (pad_norm hn O g p)|]]; try lia.
  - intros k Hk. split; [apply Cmod_ge_0|]. unfold p, Tv. destruct (Nat.eqb_spec k hn) as [->|].
    { rewrite Nat.ltb_irrefl. exact Gh. }
    destruct (Nat.ltb_spec k hn).
    { destruct (Nat.eqb_spec k (O - hn)); [lia|]. apply G1. }
    destruct (Nat.eqb_spec k (O - hn)) as [E|].
    { destruct (Nat.ltb_spec k (O - hn)); [lia|]. exact Gh. }
    destruct (Nat.ltb_spec k (O - hn)). { replace (RtoC 0 - RtoC 0)%C with (RtoC 0) by ring. rewrite Cmod_0. apply Rle_refl. } apply G1.
  - intros j Hj. unfold p. destruct (Nat.eqb_spec j hn); [lia|]. destruct (Nat.eqb_spec j (O - hn)); [lia|]. destruct (Nat.ltb_spec j hn); [auto|lia].
  - intros j Hj. unfold p. destruct (Nat.eqb_spec j hn); [lia|]. destruct (Nat.eqb_spec j (O - hn)); [lia|]. destruct (Nat.ltb_spec j hn); [lia|]. destruct (Nat.ltb_spec j (O - hn)); [auto|lia].
  - intros j Hj. unfold p. destruct (Nat.eqb_spec j hn); [lia|]. destruct (Nat.eqb_spec j (O - hn)); [lia|]. destruct (Nat.ltb_spec j hn); [lia|]. destruct (Nat.ltb_spec j (O - hn)); [lia|auto].
  - unfold p. rewrite !Nat.eqb_refl. destruct (Nat.eqb_spec (O - hn) hn); pose proof (G0 hn); nra.
  - unfold g. eapply Rle_trans; [apply (nr_plus I (fun k => Cmod (v k - Xh k)%C) (fun k => h * (Cmod (v k) + 2 * X)))|]. rewrite nr_scal by auto.
    pose proof (nr_plus I (fun k => Cmod (v k)) (fun _ => 2 * X)) as Q1. rewrite nr_const in Q1 by lra.
    assert (Q2 : nr I (fun k => Cmod (v k)) <= nr I (fun k => Cmod (v k - Xh k)%C) + sqrt (INR I) * a).
    { rewrite <- Xh_norm. eapply Rle_trans; [|apply (nr_plus I (fun k => Cmod (v k - Xh k)%C) (fun k => Cmod (Xh k)))]. apply nr_le'. intros k Hk. split; [apply Cmod_ge_0|apply Cmod_of_sub]. }
    pose proof I_pos as I2. pose proof (sqrt_le_id (INR I) ltac:(lra)) as Q3. pose proof (P_1 d1) as Q4. rewrite pow_add, pow_1.
    set (D := nr I (fun k => Cmod (v k - Xh k)%C)) in *. set (r := sqrt (INR I) * a) in *. assert (0 <= r) by (apply Rmult_le_pos; [apply sqrt_pos|apply nr_nn]).
    assert (Q5 : sqrt (INR I) * (2 * X) <= INR I * (2 * X)) by (apply Rmult_le_compat_r; lra). assert (IX : 0 <= INR I * X) by (apply Rmult_le_pos; lra).
    assert (Q6 : h * nr I (fun k => Cmod (v k) + 2 * X) <= h * (D + r + 2 * (INR I * X))) by (apply Rmult_le_compat_l; lra).
    assert (Q7 : D * (1 + h) <= (P d1 - 1) * (r + 2 * (INR I * X)) * (1 + h)). { apply Rmult_le_compat_r; [lra|]. eapply Rle_trans; [exact B1|]. apply Rmult_le_compat_l; lra. }
    lra.
Qed.
Lemma T0_norm : nr O (fun j => Cmod (T0 j)) <= S.
Proof.
  apply Rle_trans with (sqrt (INR I) * a).
  2:{ pose proof I_pos. assert (0 <= INR I * X) by (apply Rmult_le_pos; lra). lra. }
  rewrite <- Xh_norm. apply (pad_norm hn O (fun k => Cmod (Xh k)) (fun j => Cmod (T0 j))); try lia; unfold Tv.
  - intros j Hj. destruct (Nat.ltb_spec j hn); [auto|lia].
  - intros j Hj. destruct (Nat.ltb_spec j hn); [lia|]. destruct (Nat.eqb_spec j hn); [lia|]. destruct (Nat.ltb_spec j (O - hn)); [apply Cmod_0|lia].
  - intros j Hj. destruct (Nat.ltb_spec j hn); [lia|]. destruct (Nat.eqb_spec j hn); [lia|]. destruct (Nat.ltb_spec j (O - hn)); [lia|]. destruct (Nat.eqb_spec j (O - hn)); [lia|auto].
  - rewrite !Nat.ltb_irrefl, !Nat.eqb_refl. destruct (Nat.ltb_spec (O - hn) hn); [lia|]. destruct (Nat.eqb_spec (O - hn) hn); [lia|].
    rewrite Cmod_mult. replace (Cmod (RtoC (1 / 2))) with (1/2) by (rewrite Cmod_R, Rabs_pos_eq; lra). pose proof (Cmod_ge_0 (Xh hn)). nra.
Qed.

Notation Q := (sqrt (INR O) * S + INR O * X).
Lemma S_nn : 0 <= S.
Proof. pose proof I_pos. pose proof (nr_nn I (fun k => Cmod (x k))). pose proof (sqrt_pos (INR I)). assert (0 <= INR I * X) by (apply Rmult_le_pos; lra). assert (0 <= sqrt (INR I) * a) by (apply Rmult_le_pos; auto). lra. Qed.
Lemma O_pos : 1 <= INR O. Proof. change 1 with (INR 1). apply le_INR. lia. Qed.

Lemma back_diff : nr O (fun k => Cmod (w k - DFT 1 O T0 k)%C) <= (P (d1 + 1 + d2) - 1) * Q.
Proof.
  assert (DI : nr O (fun k => Cmod (DFT 1 O T1 k - DFT 1 O T0 k)%C) = sqrt (INR O) * nr O (fun j => Cmod (T1 j - T0 j)%C)).
  { pose proof (cn_parseval 1 O (fun j => T1 j - T0 j)%C ltac:(auto) ltac:(lia)) as E. etransitivity; [|exact E]. apply nr_ext. intros k Hk. f_equal. unfold DFT. rewrite <- Csum_minus. apply Csum_ext. intros j Hj. ring. }
  assert (N1 : nr O (fun k => Cmod (T1 k)) <= nr O (fun j => Cmod (T1 j - T0 j)%C) + S).
  { eapply Rle_trans; [|apply Rplus_le_compat_l, T0_norm]. eapply Rle_trans; [|apply nr_plus]. apply nr_le'. intros k Hk. split; [apply Cmod_ge_0|apply Cmod_of_sub]. }
  assert (TR : nr O (fun k => Cmod (w k - DFT 1 O T0 k)%C) <= nr O (fun k => Cmod (w k - DFT 1 O T1 k)%C) + nr O (fun k => Cmod (DFT 1 O T1 k - DFT 1 O T0 k)%C)).
  { eapply Rle_trans; [|apply nr_plus]. apply nr_le'. intros k Hk. split; [apply Cmod_ge_0|apply Cmod_sub_le]. }
  rewrite DI in TR. pose proof pad_diff as PD. rewrite (pow_add _ (d1 + 1) d2). pose proof (P_1 (d1 + 1)). pose proof (P_1 d2). pose proof S_nn. pose proof O_pos. pose proof (sqrt_pos (INR O)).
  set (D := nr O (fun j => Cmod (T1 j - T0 j)%C)) in *. set (s := sqrt (INR O)) in *. set (p1 := P (d1 + 1)) in *. set (p2 := P d2) in *. set (t1 := nr O (fun k => Cmod (T1 k))) in *.
  assert (s * D <= s * ((p1 - 1) * S)) by (apply Rmult_le_compat_l; auto).
  assert (s * t1 <= s * (D + S)) by (apply Rmult_le_compat_l; auto).
  assert ((p2 - 1) * (s * t1 + INR O * X) <= (p2 - 1) * (s * (p1 * S) + INR O * X)) by (apply Rmult_le_compat_l; lra).
  assert (0 <= INR O * X) by (apply Rmult_le_pos; lra). assert (p2 * (INR O * X) <= p1 * p2 * (INR O * X)) by (apply Rmult_le_compat_r; [auto|nra]). lra.
Qed.

Lemma fdzp_err : nr O (fun k => Cmod (z k - RtoC (/ INR I) * DFT 1 O T0 k)%C) <= (P (d1 + d2 + 3) - 1) * (sqrt (INR O) / sqrt (INR I) * a + 4 * INR O * X).
Proof.
  pose proof I_pos as I2. pose proof O_pos as O1. pose proof S_nn as S0. pose proof back_diff as BD. pose proof (sqrt_pos (INR O)) as so. pose proof (sqrt_le_id (INR O) O1) as so1.
  set (i := / INR I) in *. assert (i0 : 0 < i) by (apply Rinv_0_lt_compat; lra). assert (i1 : i <= / 2) by (apply Rinv_le_contravar; lra). assert (iI : i * INR I = 1) by (apply Rinv_l; lra).
  set (D := nr O (fun k => Cmod (w k - DFT 1 O T0 k)%C)) in *.
  assert (sc1 : Rabs sc <= (1 + h) * i). { replace sc with ((sc - i) + i) by ring. eapply Rle_trans; [apply Rabs_triang|]. rewrite (Rabs_pos_eq i) by lra. lra. }
  assert (Z1 : forall m, (m < O)%nat -> Cmod (z m - RtoC i * DFT 1 O T0 m)%C <= (P 2 - 1) * i * Cmod (w m) + (h * X + i * Cmod (w m - DFT 1 O T0 m)%C)).
  { intros m Hm. pose proof (Bz m Hm) as Q1. rewrite Cmod_mult, Cmod_R in Q1. pose proof (Cmod_ge_0 (w m)) as W0.
    eapply Rle_trans; [apply (Cmod_sub_le _ (RtoC sc * w m)%C)|]. eapply Rle_trans; [apply Rplus_le_compat_l, (Cmod_sub_le _ (RtoC i * w m)%C)|].
    replace (RtoC sc * w m - RtoC i * w m)%C with (RtoC (sc - i) * w m)%C by (rewrite RtoC_minus; ring).
    replace (RtoC i * w m - RtoC i * DFT 1 O T0 m)%C with (RtoC i * (w m - DFT 1 O T0 m))%C by ring.
    rewrite !Cmod_mult, !Cmod_R, (Rabs_pos_eq i) by lra.
    assert (Rabs sc * Cmod (w m) <= (1 + h) * i * Cmod (w m)) by (apply Rmult_le_compat_r; auto).
    assert (Rabs (sc - i) * Cmod (w m) <= h * i * Cmod (w m)) by (apply Rmult_le_compat_r; auto).
    assert (h * (Rabs sc * Cmod (w m) + X) <= h * ((1 + h) * i * Cmod (w m) + X)) by (apply Rmult_le_compat_l; lra). cbn [pow]. lra. }
  assert (WN : nr O (fun k => Cmod (w k)) <= D + sqrt (INR O) * S).
  { eapply Rle_trans; [|apply Rplus_le_compat_l, Rmult_le_compat_l; [auto|apply T0_norm]]. rewrite <- (cn_parseval 1 O T0) by (auto; lia). eapply Rle_trans; [|apply nr_plus]. apply nr_le'. intros k Hk. split; [apply Cmod_ge_0|apply Cmod_of_sub]. }
  eapply Rle_trans; [apply nr_le'; intros k Hk; split; [apply Cmod_ge_0|apply Z1; auto]|]. eapply Rle_trans; [apply nr_plus|].
  eapply Rle_trans; [apply Rplus_le_compat_l, nr_plus|]. pose proof (P_1 2) as p2. assert (hX : 0 <= h * X) by (apply Rmult_le_pos; lra). rewrite nr_const by auto. rewrite !nr_scal by (try apply Rmult_le_pos; lra). fold D.
  set (W := nr O (fun k => Cmod (w k))) in *.
  assert (Es : INR I = sqrt (INR I) * sqrt (INR I)) by (rewrite sqrt_sqrt; lra). assert (si : 0 < sqrt (INR I)) by (apply sqrt_lt_R0; lra).
  assert (E1 : i * Q = sqrt (INR O) / sqrt (INR I) * a + 2 * sqrt (INR O) * X + i * INR O * X).
  { replace (i * Q) with (i * sqrt (INR I) * sqrt (INR O) * a + 2 * (i * INR I) * sqrt (INR O) * X + i * INR O * X) by ring. rewrite iI. replace (i * sqrt (INR I)) with (/ sqrt (INR I)) by (apply (Rmult_eq_reg_r (sqrt (INR I))); [rewrite Rinv_l, Rmult_assoc, <- Es by lra; auto|lra]). unfold Rdiv. ring. }
  assert (OX : 0 <= INR O * X) by (apply Rmult_le_pos; lra). assert (sX : sqrt (INR O) * X <= INR O * X) by (apply Rmult_le_compat_r; lra).
  assert (iX : i * INR O * X <= / 2 * (INR O * X)). { rewrite Rmult_assoc. apply Rmult_le_compat_r; lra. }
  replace (d1 + d2 + 3)%nat with (2 + (d1 + 1 + d2))%nat by lia. rewrite pow_add. set (pd := P (d1 + 1 + d2)) in *. pose proof (P_1 (d1 + 1 + d2)) as pd1. fold pd in pd1.
  set (A := sqrt (INR O) / sqrt (INR I) * a) in *. set (q := i * Q) in *.
  assert (q0 : 0 <= i * Q). { apply Rmult_le_pos; [lra|]. apply Rplus_le_le_0_compat; [apply Rmult_le_pos|]; auto. }
  assert (K1 : i * D <= (pd - 1) * q). { replace ((pd - 1) * q) with (i * ((pd - 1) * Q)) by (unfold q; ring). apply Rmult_le_compat_l; lra. }
  assert (K2 : i * W <= pd * q). { apply Rle_trans with (i * (D + sqrt (INR O) * S)); [apply Rmult_le_compat_l; lra|]. assert (i * (sqrt (INR O) * S) <= q) by (apply Rmult_le_compat_l; lra). lra. }
  assert (K3 : (P 2 - 1) * (i * W) <= (P 2 - 1) * (pd * q)) by (apply Rmult_le_compat_l; lra).
  assert (K4 : sqrt (INR O) * (h * X) <= (P 2 * pd - 1) * (INR O * X)).
  { replace (sqrt (INR O) * (h * X)) with (h * (sqrt (INR O) * X)) by ring. apply Rle_trans with (h * (INR O * X)); [apply Rmult_le_compat_l; lra|]. apply Rmult_le_compat_r; auto. cbn [pow]. nra. }
  assert (K5 : (P 2 * pd - 1) * q <= (P 2 * pd - 1) * (A + 3 * (INR O * X))). { apply Rmult_le_compat_l; [nra|]. fold q in E1. rewrite E1. lra. }
  lra.
Qed.
End Err.
