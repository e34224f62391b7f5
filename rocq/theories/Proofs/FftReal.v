(* The transform of real input through a half length complex transform *)
From Coq Require Import Reals ZArith Lia Lra List.
From Coquelicot Require Import Complex.
From Verif Require Import Proofs.BaseLemmas Spec.Dft Model.Fft Proofs.FftAlg Proofs.FftSplit Proofs.FftKernels Proofs.FftGen Proofs.FftProofs Proofs.FftInverse.
Import ListNotations.
Open Scope R_scope.
Open Scope C_scope.

Lemma pairup_nth (l : list R) : forall n, (2 * n + 1 < length l)%nat -> nth n (pairup l : list C) 0 = (nth (2 * n) l 0%R, nth (2 * n + 1) l 0%R).
Proof.
  intros n. revert l. induction n as [|n IH]; intros l H; destruct l as [|x [|y l]]; cbn [length] in H; try lia.
  - reflexivity.
  - change (pairup (x :: y :: l)) with ((x, y) :: pairup l). cbn [nth]. rewrite IH by lia.
    replace (2 * S n)%nat with (S (S (2 * n))) by lia. cbn [nth]. replace (S (S (2 * n)) + 1)%nat with (S (S (2 * n + 1))) by lia. reflexivity.
Qed.
Lemma pairup_len {T} : forall n (l : list T), length l = (2 * n)%nat -> length (pairup l) = n.
Proof.
  induction n as [|n IH]; intros l H; destruct l as [|x [|y l]]; cbn [length] in H; try lia; auto.
  change (pairup (x :: y :: l)) with ((x, y) :: pairup l). cbn [length]. f_equal. apply IH. lia.
Qed.

Lemma rfactors_root BINS : (0 < BINS / 2)%Z ->
  zlen (rhct_factors Rn exact_trig BINS) = (BINS / 2)%Z /\
  forall m, (0 <= m < BINS / 2)%Z -> znth (rhct_factors Rn exact_trig BINS) m = Some (root (-1) (BINS / 2) m).
Proof.
  intros HB. destruct (factors_root (BINS / 2) (-1) HB (or_intror eq_refl)) as [L F].
  assert (E : rhct_factors Rn exact_trig BINS = fft_factors Rn exact_trig (BINS / 2) (-1)).
  { unfold rhct_factors, fft_factors. apply map_ext. intros n. f_equal. cbn [tsin exact_trig nopp nmul nofZ Rn]. ring. }
  rewrite E. auto.
Qed.

Section Real.
Context (M : nat) (HM : (0 < M)%nat) (x : nat -> R).
Let X k := DFT (-1) (2 * M) (fun n => RtoC (x n)) k.
Let Zk k := DFT (-1) M (fun n => (x (2 * n)%nat, x (2 * n + 1)%nat)) k.
Let Ev k := DFT (-1) M (fun n => RtoC (x (2 * n)%nat)) k.
Let Od k := DFT (-1) M (fun n => RtoC (x (2 * n + 1)%nat)) k.
Let w k := root (-1) (Z.of_nat (2 * M)) (Z.of_nat k).

Lemma X_split k : X k = Ev k + w k * Od k.
Proof.
  unfold X, Ev, Od, w. rewrite !DFT_root by lia. rewrite Csum_mul. cbn [Csum]. rewrite Cplus_0_l. f_equal.
  - apply Csum_ext. intros n Hn. rewrite Nat.add_0_r. f_equal.
    replace (Z.of_nat (2 * n) * Z.of_nat k)%Z with (2 * (Z.of_nat n * Z.of_nat k))%Z by lia.
    replace (Z.of_nat (2 * M)) with (2 * Z.of_nat M)%Z by lia. apply root_scale; lia.
  - rewrite <- Csum_scal. apply Csum_ext. intros n Hn.
    replace (Z.of_nat (2 * n + 1) * Z.of_nat k)%Z with (Z.of_nat k + 2 * (Z.of_nat n * Z.of_nat k))%Z by lia. rewrite root_add.
    replace (Z.of_nat (2 * M)) with (2 * Z.of_nat M)%Z by lia. rewrite (root_scale _ 2) by lia. ring.
Qed.
Lemma Z_split k : Zk k = Ev k + Ci * Od k.
Proof.
  unfold Zk, Ev, Od. rewrite !DFT_root by lia. rewrite <- Csum_scal, <- Csum_plus. apply Csum_ext. intros n Hn.
  apply C_eq; cbn; ring.
Qed.
Lemma E_conj (y : nat -> R) k : (k <= M)%nat -> Cconj (DFT (-1) M (fun n => RtoC (y n)) (M - k)) = DFT (-1) M (fun n => RtoC (y n)) k.
Proof.
  intros Hk. rewrite Cconj_DFT by auto. rewrite !DFT_root by lia. apply Csum_ext. intros n Hn. f_equal.
  - apply C_eq; cbn; ring.
  - rewrite root_sign. apply root_mod; [lia|]. rewrite Nat2Z.inj_sub by lia.
    replace (- (Z.of_nat n * (Z.of_nat M - Z.of_nat k)) - Z.of_nat n * Z.of_nat k)%Z with ((- Z.of_nat n) * Z.of_nat M)%Z by ring. apply Z.mod_mul. lia.
Qed.
Lemma Z_conj k : (k <= M)%nat -> Cconj (Zk (M - k)) = Ev k - Ci * Od k.
Proof.
  intros Hk. rewrite Z_split. unfold Ev, Od. rewrite <- !(E_conj _ k) by auto. apply C_eq; cbn; ring.
Qed.
Lemma combine_bins k : (k <= M)%nat ->
  Zk k * (RtoC (1/2) * (1 - Ci * w k)) + Cconj (Zk (M - k)) * (RtoC (1/2) * (1 + Ci * w k)) = X k.
Proof.
  intros Hk. rewrite Z_conj, Z_split, X_split by auto. set (e := Ev k). set (o := Od k). set (ww := w k). clearbody e o ww.
  apply C_eq; destruct e, o, ww; cbn; field.
Qed.
Lemma bin_0 : X 0 = RtoC (fst (Zk 0) + snd (Zk 0)).
Proof.
  rewrite X_split. assert (E := E_conj (fun n => x (2 * n)%nat) 0 ltac:(lia)). assert (O := E_conj (fun n => x (2 * n + 1)%nat) 0 ltac:(lia)).
  assert (PE : forall y, DFT (-1) M (fun n => RtoC (y n)) (M - 0) = DFT (-1) M (fun n => RtoC (y n)) 0).
  { intros y. rewrite !DFT_root by lia. apply Csum_ext. intros n Hn. f_equal. apply root_mod; [lia|]. rewrite Nat.sub_0_r.
    replace (Z.of_nat n * Z.of_nat M - Z.of_nat n * Z.of_nat 0)%Z with (Z.of_nat n * Z.of_nat M)%Z by lia. apply Z.mod_mul. lia. }
  rewrite PE in E, O. unfold w. rewrite root_0, Z_split. unfold Ev, Od in *.
  set (e := DFT _ _ _ _) in *. set (o := DFT _ _ (fun n => RtoC (x (2 * n + 1)%nat)) _) in *. clearbody e o.
  destruct e as [e1 e2], o as [o1 o2]. injection E as E. injection O as O. apply C_eq; cbn; lra.
Qed.
Lemma bin_M : X M = RtoC (fst (Zk 0) - snd (Zk 0)).
Proof.
  rewrite X_split. assert (E := E_conj (fun n => x (2 * n)%nat) 0 ltac:(lia)). assert (O := E_conj (fun n => x (2 * n + 1)%nat) 0 ltac:(lia)).
  assert (PE : forall y, DFT (-1) M (fun n => RtoC (y n)) M = DFT (-1) M (fun n => RtoC (y n)) 0).
  { intros y. rewrite !DFT_root by lia. apply Csum_ext. intros n Hn. f_equal. apply root_mod; [lia|].
    replace (Z.of_nat n * Z.of_nat M - Z.of_nat n * Z.of_nat 0)%Z with (Z.of_nat n * Z.of_nat M)%Z by lia. apply Z.mod_mul. lia. }
  rewrite Nat.sub_0_r in E, O. rewrite PE in E, O. rewrite Z_split. unfold Ev, Od in *. rewrite !PE.
  assert (W : w M = - (1)).
  { unfold w, root, cis. replace (IZR (-1) * 2 * PI * IZR (Z.of_nat M) / IZR (Z.of_nat (2 * M)))%R with (- PI)%R.
    - rewrite cos_neg, sin_neg, cos_PI, sin_PI. apply C_eq; cbn; ring.
    - rewrite <- !INR_IZR_INZ, mult_INR. cbn [INR]. field. apply not_0_INR. lia. }
  rewrite W.
  set (e := DFT _ _ _ _) in *. set (o := DFT _ _ (fun n => RtoC (x (2 * n + 1)%nat)) _) in *. clearbody e o.
  destruct e as [e1 e2], o as [o1 o2]. injection E as E. injection O as O. apply C_eq; cbn; lra.
Qed.
End Real.

Lemma rhct_exact (BINS : Z) (out : list (option C)) (inp : list R) : 
  (0 < BINS)%Z -> (BINS mod 2 = 0)%Z -> smooth31 (BINS / 2) -> zlen inp = BINS -> (BINS / 2 + 1 <= zlen out)%Z ->
  let X k := DFT (-1) (Z.to_nat BINS) (fun n => RtoC (nth n inp 0%R)) (Z.to_nat k) in
  exists out' : list (option C), rhct Rn exact_trig BINS out inp = Ok out' /\ zlen out' = zlen out /\
    (forall m, (BINS / 2 < m)%Z -> znth out' m = znth out m) /\
    (forall k, (0 < k < BINS / 2)%Z -> znth out' k = Some (Some (X k))) /\
    znth out' 0 = Some (Some (RtoC (1/2) * X 0%Z)) /\ znth out' (BINS / 2) = Some (Some (RtoC (1/2) * X (BINS / 2)%Z)).
Proof.
  intros HB Ev2 Hsm Li Lo X.
  set (M := (BINS / 2)%Z) in *. assert (EB : (BINS = 2 * M)%Z) by (unfold M; apply Z_div_exact_full_2; lia).
  assert (HM : (0 < M)%Z) by lia.
  destruct (rfactors_root BINS HM) as [Lz Vz]. fold M in Lz, Vz.
  set (m := Z.to_nat M). assert (Em : Z.of_nat m = M) by lia.
  assert (Lp : zlen (pairup inp : list C) = M). { pose proof (pairup_len m inp ltac:(unfold zlen in *; lia)) as LP. change (zlen (pairup inp) = M). unfold zlen. rewrite LP. exact Em. }
  set (Zf := fun k : Z => DFT (-1) m (fun n => (nth (2 * n) inp 0%R, nth (2 * n + 1) inp 0%R)) (Z.to_nat k)).
  destruct (dit_exact (-1) M (or_intror eq_refl) (pairup inp : list C) m M 1 out 0 0 (rhct_factors Rn exact_trig BINS))
    as (o1 & E1 & L1 & U1 & V1); auto; try lia. 
  unfold rhct. fold M. fold m. rewrite E1. cbn [bind]. cplxC.
  assert (V : forall k, (0 <= k < M)%Z -> znth o1 k = Some (Some (Zf k))).
  { intros k Hk. specialize (V1 k Hk). rewrite Z.add_0_l in V1. rewrite V1. do 2 f_equal. unfold Zf. apply DFT_ext. intros n Hn.
    replace (0 + Z.of_nat n * 1)%Z with (Z.of_nat n) by lia. rewrite at_nth. apply pairup_nth. unfold zlen in Li. lia. }
  clear V1. rewrite (geti_Some _ _ _ (V 0%Z ltac:(lia))). cbn [bind].
  rewrite set_in_range by lia. cbn [bind]. rewrite (geti_Some _ 0%Z (Zf 0%Z)) by (rewrite znth_zupd_ne by lia; apply V; lia). cbn [bind].
  rewrite set_in_range by (rewrite zlen_zupd; lia). cbn [bind].
  assert (XM : forall k, X k = DFT (-1) (2 * m) (fun n => RtoC (nth n inp 0%R)) (Z.to_nat k)).
  { intros k. unfold X. replace (Z.to_nat BINS) with (2 * m)%nat by lia. reflexivity. }
  assert (AB : forall k, (0 <= k < M)%Z ->
    znth (rhct_A Rn exact_trig BINS) k = Some (RtoC (1/2) * (1 - Ci * root (-1) (Z.of_nat (2 * m)) k)) /\
    znth (rhct_B Rn exact_trig BINS) k = Some (RtoC (1/2) * (1 + Ci * root (-1) (Z.of_nat (2 * m)) k))).
  { intros k Hk. unfold rhct_A, rhct_B. rewrite !znth_nonneg by lia. rewrite !nth_error_map, !(nth_error_nth' _ 0%nat) by (rewrite seq_length; lia).
    rewrite seq_nth by lia. cbn [option_map Nat.add]. rewrite Z2Nat.id by lia. replace (Z.of_nat (2 * m)) with BINS by lia.
    unfold root, cis. replace (IZR (-1) * 2 * PI * IZR k / IZR BINS)%R with (- (2 * PI * IZR k / IZR BINS))%R by (unfold Rdiv; ring).
    rewrite cos_neg, sin_neg. split; f_equal; apply C_eq; cbn; unfold Rdiv; ring. }
  assert (XZ : forall k, (0 < k < M)%Z -> Zf k * (RtoC (1/2) * (1 - Ci * root (-1) (Z.of_nat (2 * m)) k)) + Cconj (Zf (M - k)%Z) * (RtoC (1/2) * (1 + Ci * root (-1) (Z.of_nat (2 * m)) k)) = X k).
  { intros k Hk. rewrite XM. rewrite <- (combine_bins m ltac:(lia) (fun n => nth n inp 0%R)) by lia. rewrite Z2Nat.id by lia. unfold Zf.
    rewrite Z2Nat.inj_sub by lia. reflexivity. }
  assert (X0 : RtoC (1/2) * X 0%Z = (1/2 * (fst (Zf 0%Z) + snd (Zf 0%Z)), 0)%R).
  { rewrite XM. change (Z.to_nat 0) with 0%nat. rewrite (bin_0 m ltac:(lia) (fun n => nth n inp 0%R)). change (DFT (-1) m _ 0) with (Zf 0%Z). set (z0 := Zf 0%Z). clearbody z0. apply C_eq; cbn; ring. }
  assert (XX : RtoC (1/2) * X M = (1/2 * (fst (Zf 0%Z) - snd (Zf 0%Z)), 0)%R).
  { rewrite XM. fold m. rewrite (bin_M m ltac:(lia) (fun n => nth n inp 0%R)). change (DFT (-1) m _ 0) with (Zf 0%Z). set (z0 := Zf 0%Z). clearbody z0. apply C_eq; cbn; ring. }
  clear XM. clearbody X Zf. cplxC.
  pose (P := fun (i : Z) (o : list (option C)) => zlen o = zlen out /\ (forall k, (M < k)%Z -> znth o k = znth out k) /\
    znth o 0 = Some (Some (RtoC (1/2) * X 0%Z)) /\ znth o M = Some (Some (RtoC (1/2) * X M)) /\
    (forall k, (0 < k < i)%Z -> (k < M)%Z -> znth o k = Some (Some (X k)) /\ znth o (M - k) = Some (Some (X (M - k)%Z))) /\
    (forall k, (i <= k <= M - i)%Z -> znth o k = Some (Some (Zf k)))).
  match goal with |- context [for_loop ?n ?i ?b ?s] => destruct (for_loop_inv P b n i s) as (o3 & E3 & P3) end.
  - unfold P. rewrite !zlen_zupd. splits.
    + exact L1.
    + intros k Hk. rewrite !znth_zupd_ne by lia. apply U1. lia.
    + rewrite znth_zupd_eq by (rewrite zlen_zupd; lia). do 2 f_equal. symmetry. exact X0.
    + rewrite znth_zupd_ne by lia. rewrite znth_zupd_eq by lia. do 2 f_equal. symmetry. exact XX.
    + intros k Hk. lia.
    + intros k Hk. rewrite !znth_zupd_ne by lia. apply V. lia.
  - intros j o Hj (Lo' & Uo & V0 & VM & VX & VZ).
    assert (HJ : (1 <= j /\ 2 * j <= M)%Z) by (pose proof (Z.div_mod M 2); pose proof (Z.mod_pos_bound M 2); lia).
    rewrite (geti_Some _ _ _ (VZ j ltac:(lia))), (geti_Some _ _ _ (VZ (M - j)%Z ltac:(lia))).
    rewrite (get_Some _ _ _ (proj1 (AB j ltac:(lia)))), (get_Some _ _ _ (proj2 (AB j ltac:(lia)))),
      (get_Some _ _ _ (proj1 (AB (M - j)%Z ltac:(lia)))), (get_Some _ _ _ (proj2 (AB (M - j)%Z ltac:(lia)))). cbn [bind].
    rewrite set_in_range by lia. cbn [bind]. rewrite set_in_range by (rewrite zlen_zupd; lia). eexists. split; [reflexivity|].
    change (cadd Rn) with Cplus. change (cmul Rn) with Cmult. change (cconj Rn) with Cconj.
    rewrite XZ by lia. pose proof (XZ (M - j)%Z ltac:(lia)) as XJ. replace (M - (M - j))%Z with j in XJ by lia.
    assert (XJ' : forall a, a = X (M - j)%Z -> P (j + 1)%Z (zupd (zupd o (M - j) (Some a)) j (Some (X j)))).
    { intros a ->. unfold P. rewrite !zlen_zupd. splits; auto.
      - intros k Hk. rewrite !znth_zupd_ne by lia. apply Uo. lia.
      - rewrite !znth_zupd_ne by lia. auto.
      - rewrite !znth_zupd_ne by lia. auto.
      - intros k Hk Hk'. destruct (Z.eq_dec k j) as [->|Hne].
        + split; [apply znth_zupd_eq; rewrite zlen_zupd; lia|]. destruct (Z.eq_dec (M - j) j) as [E|Hne'].
          * rewrite E. apply znth_zupd_eq. rewrite zlen_zupd. lia.
          * rewrite znth_zupd_ne by lia. apply znth_zupd_eq. lia.
        + rewrite !znth_zupd_ne by lia. apply VX; lia.
      - intros k Hk. rewrite !znth_zupd_ne by lia. apply VZ. lia. }
    apply XJ'. exact XJ.
  - cbn beta in E3. exists o3. split; [exact E3|]. destruct P3 as (L3 & U3 & V30 & V3M & V3X & _).
    splits; auto. intros k Hk. rewrite Z2Nat.id in V3X by (apply Z.div_pos; lia).
    pose proof (Z.div_mod M 2 ltac:(lia)). pose proof (Z.mod_pos_bound M 2 ltac:(lia)).
    destruct (Z_lt_le_dec k (1 + M / 2)).
    + apply V3X; lia.
    + destruct (V3X (M - k)%Z) as [_ H']; [lia|lia|]. replace (M - (M - k))%Z with k in H' by lia. exact H'.
Qed.
