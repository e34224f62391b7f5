(* The FFT in the IEEE formats: finite results are those of unbounded exponents, and bounded input gives finite results *)
From Coq Require Import ZArith Reals Lia Lra List Bool.
From Flocq Require Import Core BinarySingleNaN.
From Coquelicot Require Import Complex.
From Verif Require Import Model.Base Proofs.BaseLemmas Model.Num Model.Complex Model.NumIeee Spec.Rounding Proofs.IeeeProofs Proofs.IeeeFun Spec.Dft Model.Fft Model.UnitCircle Proofs.FftSplit Proofs.FftGen Proofs.FftKernels Proofs.FftProofs Proofs.FftRound Proofs.UcRound Proofs.Param.
Import ListNotations.
Open Scope R_scope.

(** ** magnitudes *)
Definition Mn : num R := {|
  n0 := 1; n1 := 1; nadd := fun a b => 1.001 * (a + b); nsub := fun a b => 1.001 * (a + b); nmul := fun a b => 1.001 * (a * b); ndiv := Rdiv;
  nopp := fun a => a; nabs := fun a => a; nsqrt := fun a => a; nofZ := fun _ => 1; nlit := fun _ => 1; nltb := Rlt_bool; nleb := Rle_bool; neqb := Req_bool |}.
Definition Mtr : trig R := {| tcos := fun _ _ => 1.001; tsin := fun _ _ => 1.001; trsqrt2 := 1 |}.
Definition bnd (m : R) (z : R * R) : Prop := 0 <= fst z <= m /\ 0 <= snd z <= m.
Lemma bnd_le m m' z : m <= m' -> bnd m z -> bnd m' z. Proof. intros ? [? ?]. split; lra. Qed.
Lemma bnd_pos m z : bnd m z -> 0 <= m. Proof. intros [? ?]. lra. Qed.
Lemma b_add p q a b : bnd p a -> bnd q b -> bnd (1.001 * (p + q)) (cadd Mn a b). Proof. intros [] []. split; cbn in *; unfold creal, cimag in *; lra. Qed.
Lemma b_sub p q a b : bnd p a -> bnd q b -> bnd (1.001 * (p + q)) (csub Mn a b). Proof. intros [] []. split; cbn in *; unfold creal, cimag in *; lra. Qed.
Lemma b_tw p q a b : bnd p a -> bnd q b -> bnd (1.001 * (p + q)) (twiddle Mn a b). Proof. intros [] []. split; cbn in *; unfold creal, cimag in *; lra. Qed.
Lemma b_fid p q a b : bnd p a -> bnd q b -> bnd (1.001 * (1.001 * (p + q) + 1.001 * (p + q))) (fiddle Mn a b). Proof. intros [] []. split; cbn in *; unfold creal, cimag in *; lra. Qed.
Lemma b_rs p a : bnd p a -> bnd (1.001 * p) (rsqrt2 Mn Mtr a). Proof. intros []. split; cbn in *; unfold creal, cimag in *; lra. Qed.
Lemma b_cx p n M a : bnd p a -> bnd (1.002001 * p) (cx Mn Mtr n M a). Proof. intros []. split; cbn in *; unfold creal, cimag in *; lra. Qed.
Lemma b_sx p n M a : bnd p a -> bnd (1.002001 * p) (sx Mn Mtr n M a). Proof. intros []. split; cbn in *; unfold creal, cimag in *; lra. Qed.
Lemma b_cmul p w a : bnd 1.002001 w -> bnd p a -> bnd (2.1 * p) (cmul Mn w a).
Proof.
  intros [A1 A2] [B1 B2]. split; cbn; unfold creal, cimag in *.
  - assert (0 <= fst w * fst a <= 1.002001 * p) by nra. assert (0 <= snd w * snd a <= 1.002001 * p) by nra. lra.
  - assert (0 <= fst w * snd a <= 1.002001 * p) by nra. assert (0 <= snd w * fst a <= 1.002001 * p) by nra. lra.
Qed.

Lemma fold_bnd {A} (f : R * R -> A -> R * R) (t : R) (l : list A) : 0 <= t -> (forall a x q, In x l -> bnd q a -> bnd (1.001 * (q + t)) (f a x)) ->
  forall a q, bnd q a -> bnd ((q + INR (length l) * t) * 1.001 ^ length l) (fold_left f l a).
Proof.
  intros T0. induction l as [|x l IH]; intros F a q H.
  - cbn. eapply bnd_le; [|exact H]. lra.
  - cbn [fold_left]. pose proof (bnd_pos _ _ H) as Q0. eapply bnd_le; [|apply IH; [intros; apply F; [right|]; auto|apply F; [left; auto|exact H]]].
    cbn [length]. rewrite S_INR. cbn [pow]. pose proof (pos_INR (length l)) as P. assert (0 < 1.001 ^ length l) by (apply pow_lt; lra).
    replace ((q + (INR (length l) + 1) * t) * (1.001 * 1.001 ^ length l)) with ((1.001 * (q + t) + 1.001 * INR (length l) * t) * 1.001 ^ length l) by ring.
    apply Rmult_le_compat_r; [lra|]. assert (0 <= INR (length l) * t) by (apply Rmult_le_pos; auto). lra.
Qed.
Lemma pow15 n : (n <= 15)%nat -> 1 <= 1.001 ^ n <= 1.02.
Proof. intros H. split; [apply pow_R1_Rle; lra|]. apply Rle_trans with (1.001 ^ 15); [apply Rle_pow; [lra|auto]|]. cbn [pow]. lra. Qed.
Lemma length_combine_le {A B} (l : list A) (m : list B) : (length (combine l m) <= length m)%nat. Proof. rewrite combine_length. apply Nat.le_min_r. Qed.

Lemma fold_bnd15 {A} (f : R * R -> A -> R * R) (t : R) (l : list A) (h : nat) : 0 <= t -> (length l < h <= 15)%nat -> (forall a x q, In x l -> bnd q a -> bnd (1.001 * (q + t)) (f a x)) ->
  forall a, bnd t a -> bnd (INR h * (1.02 * t)) (fold_left f l a).
Proof.
  intros T0 L F a H. eapply bnd_le; [|apply (fold_bnd f t l T0 F a t H)]. pose proof (pow15 (length l) ltac:(lia)) as P. pose proof (pos_INR (length l)) as P0.
  assert (INR (length l) + 1 <= INR h) by (rewrite <- S_INR; apply le_INR; lia).
  replace (INR h * (1.02 * t)) with ((INR h * t) * 1.02) by ring. replace (t + INR (length l) * t) with ((INR (length l) + 1) * t) by ring. apply Rmult_le_compat; nra.
Qed.
Lemma hq_ge h q : 1 <= h -> 1 <= q -> 1 <= h * (1.0221 * q).
Proof. intros. replace 1 with (1 * 1) by ring. apply Rmult_le_compat; lra. Qed.
Lemma crow_bnd p idx (a : list (cplx R)) (h : nat) q : 1 <= q -> (length a <= h <= 15)%nat -> (0 < h)%nat -> (forall x, In x a -> bnd q x) -> bnd (INR h * (1.0221 * q)) (crow Mn Mtr p idx a).
Proof.
  intros Q L H0 H. assert (H1 : 1 <= INR h) by (change 1 with (INR 1); apply le_INR; lia). unfold crow. pose proof (length_combine_le idx a) as LC.
  assert (G : forall i (x : cplx R), In (i, x) (combine idx a) -> bnd q x) by (intros i x I; apply in_combine_r in I; auto).
  destruct (combine idx a) as [|[i a1] l]; [split; cbn; split; try lra; apply hq_ge; auto|]. cbn [length] in LC.
  eapply bnd_le; [|apply (fold_bnd15 _ (1.002001 * q) l h); [lra|lia| |]].
  - apply Rmult_le_compat_l; lra.
  - intros b [i' x] r I Hb. apply b_add; auto. apply b_cx. apply (G i'). right; auto.
  - apply b_cx. apply (G i). left; auto.
Qed.
Lemma srow_bnd p idx (a : list (cplx R)) (h : nat) q : 1 <= q -> (length a <= h <= 15)%nat -> (0 < h)%nat -> (forall x, In x a -> bnd q x) -> bnd (INR h * (1.0221 * q)) (srow Mn Mtr p idx a).
Proof.
  intros Q L H0 H. assert (H1 : 1 <= INR h) by (change 1 with (INR 1); apply le_INR; lia). unfold srow. pose proof (length_combine_le idx a) as LC.
  assert (G : forall i (x : cplx R), In (i, x) (combine idx a) -> bnd q x) by (intros i x I; apply in_combine_r in I; auto).
  destruct (combine idx a) as [|[i a1] l]; [split; cbn; split; try lra; apply hq_ge; auto|]. cbn [length] in LC.
  eapply bnd_le; [|apply (fold_bnd15 _ (1.002001 * q) l h); [lra|lia| |]].
  - apply Rmult_le_compat_l; lra.
  - intros b [i' x] r I Hb. destruct (i' <? 0)%Z; [apply b_sub|apply b_add]; auto; apply b_sx; apply (G i'); right; auto.
  - apply b_sx. apply (G i). left; auto.
Qed.
Lemma kernel_odd_bnd p tab (ins : list (cplx R)) m : (0 < length tab <= 15)%nat -> 1 <= m -> (forall x, In x ins -> bnd m x) -> forall x, In x (kernel_odd Mn Mtr p tab ins) -> bnd (2.1 * (2 * INR (length tab) + 1) * m) x.
Proof.
  intros L M H x. unfold kernel_odd. destruct ins as [|in0 rest]; [intros []|]. set (h := length tab) in *. assert (H1 : 1 <= INR h) by (change 1 with (INR 1); apply le_INR; lia).
  set (pa := firstn h (combine rest (rev rest))). assert (LP : (length pa <= h)%nat) by (unfold pa; rewrite firstn_length; lia).
  assert (GP : forall y z, In (y, z) pa -> bnd m y /\ bnd m z).
  { intros y z I. assert (I' : In (y, z) (combine rest (rev rest))) by (rewrite <- (firstn_skipn h); apply in_or_app; left; auto). split; apply H; right; [eapply in_combine_l; eauto|apply in_rev; eapply in_combine_r; eauto]. }
  set (a := map (fun '(x, y) => cadd Mn x y) pa). set (t := map (fun '(x, y) => twiddle Mn x y) pa).
  assert (GA : forall y, In y a -> bnd (2.002 * m) y) by (intros y I; apply in_map_iff in I; destruct I as ((y1, y2) & <- & I); destruct (GP _ _ I); eapply bnd_le; [|apply b_add; eauto]; lra).
  assert (GT : forall y, In y t -> bnd (2.002 * m) y) by (intros y I; apply in_map_iff in I; destruct I as ((y1, y2) & <- & I); destruct (GP _ _ I); eapply bnd_le; [|apply b_tw; eauto]; lra).
  assert (I0 : bnd m in0) by (apply H; left; auto). assert (Hm : 0 <= INR h * m) by nra.
  assert (GC : forall c s, In (c, s) (map (fun '(ci, si) => (crow Mn Mtr p ci a, srow Mn Mtr p si t)) tab) -> bnd (INR h * m * 2.0463) c /\ bnd (INR h * m * 2.0463) s).
  { intros c s I. apply in_map_iff in I. destruct I as ((ci, si) & E & I). inversion E. subst c s.
    assert (W : INR h * (1.0221 * (2.002 * m)) <= INR h * m * 2.0463) by lra.
    split; (eapply bnd_le; [exact W|]); [apply crow_bnd|apply srow_bnd]; auto; try lra; try lia; unfold a, t; rewrite map_length; lia. }
  intros [<-|I].
  - eapply bnd_le; [|apply (fold_bnd (fun acc x => cadd Mn acc x) (2.002 * m) a); [lra| |exact I0]; intros; apply b_add; auto].
    assert (LA : (length a <= h)%nat) by (unfold a; rewrite map_length; auto). pose proof (pow15 (length a) ltac:(lia)) as P. assert (INR (length a) <= INR h) by (apply le_INR; auto). pose proof (pos_INR (length a)).
    apply Rle_trans with ((m + INR h * (2.002 * m)) * 1.02); [apply Rmult_le_compat; nra|]. nra.
  - apply in_app_or in I. destruct I as [I|I]; [|apply in_rev in I]; apply in_map_iff in I; destruct I as ((c, s) & <- & I); destruct (GC _ _ I) as [Gc Gs].
    + eapply bnd_le; [|apply b_sub; [apply b_add; eauto|eauto]]. lra.
    + eapply bnd_le; [|apply b_add; [apply b_add; eauto|eauto]]. lra.
Qed.

Ltac inb H := cbn [In] in H; repeat (destruct H as [<-|H]); [..|contradiction].
Lemma kernel2_bnd i0 i1 m x : bnd m i0 -> bnd m i1 -> In x (kernel2 Mn i0 i1) -> bnd (2.1 * m) x.
Proof. intros A B H. pose proof (bnd_pos _ _ A). unfold kernel2 in H. inb H; (eapply bnd_le; [|first [apply b_add|apply b_sub]; eassumption]); lra. Qed.
Lemma kernel4_bnd i0 i1 i2 i3 m x : bnd m i0 -> bnd m i1 -> bnd m i2 -> bnd m i3 -> In x (kernel4 Mn i0 i1 i2 i3) -> bnd (4.1 * m) x.
Proof.
  intros A B C D H. pose proof (bnd_pos _ _ A). pose proof (b_add _ _ _ _ A C) as a. pose proof (b_sub _ _ _ _ A C) as b. pose proof (b_add _ _ _ _ B D) as c. pose proof (b_tw _ _ _ _ B D) as d.
  unfold kernel4 in H. inb H; (eapply bnd_le; [|first [apply b_add|apply b_sub]; eassumption]); lra.
Qed.
Lemma kernel8_bnd i0 i1 i2 i3 i4 i5 i6 i7 m x : bnd m i0 -> bnd m i1 -> bnd m i2 -> bnd m i3 -> bnd m i4 -> bnd m i5 -> bnd m i6 -> bnd m i7 -> In x (kernel8 Mn Mtr i0 i1 i2 i3 i4 i5 i6 i7) -> bnd (12.2 * m) x.
Proof.
  intros A0 A1 A2 A3 A4 A5 A6 A7 H. pose proof (bnd_pos _ _ A0).
  pose proof (b_add _ _ _ _ A0 A4) as a. pose proof (b_sub _ _ _ _ A0 A4) as b. pose proof (b_add _ _ _ _ A1 A5) as c. pose proof (b_sub _ _ _ _ A1 A5) as d.
  pose proof (b_add _ _ _ _ A2 A6) as e. pose proof (b_tw _ _ _ _ A2 A6) as f. pose proof (b_add _ _ _ _ A3 A7) as g. pose proof (b_sub _ _ _ _ A3 A7) as h.
  pose proof (b_add _ _ _ _ c g) as cpg. pose proof (b_tw _ _ _ _ c g) as tcg. pose proof (b_rs _ _ (b_fid _ _ _ _ d h)) as fdh. pose proof (b_rs _ _ (b_fid _ _ _ _ h d)) as fhd.
  pose proof (b_add _ _ _ _ a e) as ae. pose proof (b_sub _ _ _ _ a e) as ae'. pose proof (b_add _ _ _ _ b f) as bf. pose proof (b_sub _ _ _ _ b f) as bf'.
  unfold kernel8 in H. inb H; (eapply bnd_le; [|first [apply b_add|apply b_sub]; eassumption]); lra.
Qed.
Lemma Ok_inj {A} (a b : A) : Ok a = Ok b -> a = b. Proof. congruence. Qed.
Lemma kernel_bnd Rx (ins l : list (cplx R)) m : In Rx radices -> zlen ins = Rx -> 1 <= m -> (forall x, In x ins -> bnd m x) -> kernel Mn Mtr Rx ins = Ok l -> forall x, In x l -> bnd (IZR Rx ^ 3 / 2.1 * m) x.
Proof.
  intros I L M H E.
  assert (ODD : forall tab, odd_table Rx = Some tab -> (0 < length tab)%nat -> l = kernel_odd Mn Mtr Rx tab ins -> forall x, In x l -> bnd (IZR Rx ^ 3 / 2.1 * m) x).
  { intros tab Et LT -> x Ix. destruct (odd_range _ _ Et) as [_ P31]. apply odd_tables in Et. unfold table_ok in Et. apply andb_prop in Et as [Et _]. apply Z.eqb_eq in Et.
    assert (ER : IZR Rx = 2 * INR (length tab) + 1). { rewrite INR_IZR_INZ, <- mult_IZR, <- plus_IZR. f_equal. lia. }
    assert (H1 : 1 <= INR (length tab)) by (change 1 with (INR 1); apply le_INR; lia).
    eapply bnd_le; [|apply (kernel_odd_bnd Rx tab ins m); auto; lia]. apply Rmult_le_compat_r; [lra|]. rewrite <- ER. assert (H3 : 3 <= IZR Rx) by lra. assert (H9 : 9 <= IZR Rx * IZR Rx) by nra.
    assert (HH : 9 * IZR Rx <= IZR Rx * IZR Rx * IZR Rx) by (apply Rmult_le_compat_r; lra). cbn [pow]. lra. }
  assert (K : forall b x, b <= IZR Rx ^ 3 / 2.1 -> bnd (b * m) x -> bnd (IZR Rx ^ 3 / 2.1 * m) x) by (intros b x Hb Hx; eapply bnd_le; [|exact Hx]; apply Rmult_le_compat_r; lra).
  unfold radices in I. cbn in I. unfold zlen in L.
  repeat (destruct I as [<-|I]; [
    do 32 (destruct ins as [|?x ins]; [try (exfalso; clear - L; cbn in L; discriminate L);
      first [eapply ODD; [reflexivity|cbn; lia|symmetry; apply Ok_inj; exact E]
            | apply Ok_inj in E; subst l; intros yy Iyy;
              first [apply (K 2.1); [cbn [pow]; lra|idtac; eapply kernel2_bnd; [..|exact Iyy]; apply H; cbn; tauto]
                    |apply (K 4.1); [cbn [pow]; lra|idtac; eapply kernel4_bnd; [..|exact Iyy]; apply H; cbn; tauto]
                    |apply (K 12.2); [cbn [pow]; lra|idtac; eapply kernel8_bnd; [..|exact Iyy]; apply H; cbn; tauto]]]|]); exfalso; clear - L; cbn [length] in L; lia|]).
  contradiction.
Qed.
Lemma dft_bnd SIGN Rx (ins l : list (cplx R)) m : In Rx radices -> zlen ins = Rx -> 1 <= m -> (forall x, In x ins -> bnd m x) -> dft Mn Mtr SIGN Rx ins = Ok l -> forall x, In x l -> bnd (IZR Rx ^ 3 / 2.1 * m) x.
Proof.
  intros I L M H E x Ix. unfold dft in E. destruct (kernel Mn Mtr Rx ins) as [k| | |] eqn:EK; try discriminate E. cbn [bind] in E. apply (kernel_bnd Rx ins k m I L M H EK).
  destruct (SIGN =? 1)%Z; [injection E as <-; auto|]. destruct k as [|k0 k]; injection E as <-; auto. destruct Ix as [<-|Ix]; [left; auto|right; apply in_rev; auto].
Qed.

Lemma znth_In {A} (l : list A) i v : znth l i = Some v -> In v l.
Proof. intros H. pose proof (znth_Some_range _ _ _ H). rewrite znth_nonneg in H by lia. eapply nth_error_In; eauto. Qed.
Lemma In_znth {A} (l : list A) v : In v l -> exists i, znth l i = Some v.
Proof. intros H. apply In_nth_error in H. destruct H as (n & H). exists (Z.of_nat n). rewrite znth_nonneg by lia. rewrite Nat2Z.id. auto. Qed.
Lemma dit_bnd BINS SIGN (z : list (cplx R)) (out : list (option (cplx R))) (inp : list (cplx R)) m : zlen z = BINS -> (forall w, In w z -> bnd 1.002001 w) -> (0 < BINS)%Z -> smooth31 BINS -> (BINS <= zlen inp)%Z -> (BINS <= zlen out)%Z -> 1 <= m -> (forall x, In x inp -> bnd m x) ->
  exists out', dit Mn Mtr (Z.to_nat BINS) SIGN (split BINS) BINS 1 out 0 inp 0 z = Ok out' /\ zlen out' = zlen out /\ (forall k, (BINS <= k)%Z -> znth out' k = znth out k) /\
  forall k, (0 <= k < BINS)%Z -> exists v, znth out' k = Some (Some v) /\ bnd (IZR BINS ^ 3 * m) v.
Proof.
  intros Lz Bz HB Hsm Li Lo M Hin.
  destruct (dit_gen Mn Mtr SIGN BINS inp z (fun n _ _ _ v => bnd (IZR n ^ 3 * m) v)) with (fuel := Z.to_nat BINS) (n := BINS) (s := 1%Z) (out := out) (o := 0%Z) (i := 0%Z)
    as (out' & E & L & U & B); auto; try lia.
  - intros s i v Hv. apply znth_In in Hv. eapply bnd_le; [|apply Hin; exact Hv]. cbn [pow]. lra.
  - intros Rx s i ins IR _ _ _ _ _ Lins Hi. destruct (dft_len Mn Mtr SIGN Rx ins IR Lins) as (outs & E & LO). exists outs. splits; auto. intros l v Hv. apply znth_In in Hv.
    pose proof (radices_bound Rx IR) as HR. assert (0 <= IZR Rx ^ 3 * m) by (apply Rmult_le_pos; [apply pow_le, IZR_le; lia|lra]).
    eapply bnd_le; [|eapply (dft_bnd SIGN Rx ins outs m); eauto]; [lra|].
    intros x Ix. apply In_znth in Ix. destruct Ix as (j & Hj). pose proof (znth_Some_range _ _ _ Hj). rewrite Hi in Hj by lia. apply Hin. eapply znth_In; eauto.
  - intros Rx q s i k0 xs ins IR _ Hq Hs HRq _ _ Hk Lxs Hxs Lins H0 Hj. destruct (dft_len Mn Mtr SIGN Rx ins IR Lins) as (outs & E & LO). exists outs. splits; auto. intros l v Hv. apply znth_In in Hv.
    pose proof (radices_bound Rx IR) as HR. assert (Q1 : 1 <= IZR q ^ 3) by (apply pow_R1_Rle; apply IZR_le; lia). assert (QM : 1 <= IZR q ^ 3 * m) by (replace 1 with (1 * 1) by ring; apply Rmult_le_compat; lra).
    eapply bnd_le; [|eapply (dft_bnd SIGN Rx ins outs (2.1 * (IZR q ^ 3 * m))); eauto]; [rewrite mult_IZR, Rpow_mult_distr; lra|lra|].
    intros x Ix. apply In_znth in Ix. destruct Ix as (j & Ej). pose proof (znth_Some_range _ _ _ Ej) as Rj. destruct (Z.eq_dec j 0) as [->|NJ].
    + rewrite H0 in Ej. eapply bnd_le; [|eapply Hxs; exact Ej]. lra.
    + destruct (znth_in_range xs j) as (y & Hy); [lia|]. assert (Rz : exists w, znth z (j * (k0 * s)) = Some w).
      { apply znth_in_range. rewrite Lz. split; [nia|]. rewrite <- HRq. apply Z.le_lt_trans with (j * (q * s))%Z; [nia|]. nia. }
     
      destruct Rz as (w & Hw). rewrite (Hj j y w ltac:(lia) Hy Hw) in Ej. injection Ej as <-. apply b_cmul; [|eapply Hxs; eauto].
      apply Bz. eapply znth_In; eauto.
  - exists out'. splits; auto. { intros k Hk. apply U. lia. }
Qed.
Lemma fft_bnd BINS SIGN (out : list (option (cplx R))) (inp : list (cplx R)) m : (0 < BINS)%Z -> smooth31 BINS -> (BINS <= zlen inp)%Z -> (BINS <= zlen out)%Z -> 1 <= m -> (forall x, In x inp -> bnd m x) ->
  exists out', fft Mn Mtr BINS SIGN out inp = Ok out' /\ zlen out' = zlen out /\ (forall k, (BINS <= k)%Z -> znth out' k = znth out k) /\
  forall k, (0 <= k < BINS)%Z -> exists v, znth out' k = Some (Some v) /\ bnd (IZR BINS ^ 3 * m) v.
Proof.
  intros HB. apply dit_bnd; auto.
  - unfold fft_factors, zlen. rewrite map_length, seq_length. lia.
  - intros w Hw. unfold fft_factors in Hw. apply in_map_iff in Hw. destruct Hw as (n & <- & _). split; cbn; lra.
Qed.

(** ** two relations *)
Section Rel.
Context (prec emax : Z) {Hp : Prec_gt_0 prec} {Hpe : Prec_lt_emax prec emax}.
Context (P24 : (24 <= prec)%Z) (E128 : (128 <= emax)%Z).
Notation bf := (binary_float prec emax).
Notation B := (Bn prec emax).
Notation rnd := (brnd prec emax).
Notation F := (Fn rnd).

(** a finite result is the rounded one *)
Definition relF (b : bf) (x : R) : Prop := is_finite b = true -> B2R b = x.
Lemma inf_nf (z : bf) s : B2SF z = binary_overflow prec emax mode_NE s -> is_finite z = false.
Proof. unfold binary_overflow, overflow_to_inf. destruct z; cbn; intros H; try discriminate H; auto. Qed.
Lemma relF_add a b x y : relF a x -> relF b y -> relF (nadd B a b) (nadd F x y).
Proof.
  intros Ha Hb H. cbn [nadd Bn Fn] in *. assert (Fa : is_finite a = true) by (destruct a, b; try discriminate H; try reflexivity; cbn in H; destruct (Bool.eqb _ _); discriminate H).
  assert (Fb : is_finite b = true) by (destruct a, b; try discriminate H; try reflexivity; discriminate Fa).
  rewrite <- (Ha Fa), <- (Hb Fb). pose proof (Bplus_correct prec emax _ _ mode_NE a b Fa Fb) as P. cbn [round_mode] in P. destruct (Rlt_bool _ _); [apply P|]. destruct P as [P _]. apply inf_nf in P. congruence.
Qed.
Lemma relF_sub a b x y : relF a x -> relF b y -> relF (nsub B a b) (nsub F x y).
Proof.
  intros Ha Hb H. cbn [nsub Bn Fn] in *. assert (Fa : is_finite a = true) by (destruct a, b; try discriminate H; try reflexivity; cbn in H; destruct (Bool.eqb _ _); discriminate H).
  assert (Fb : is_finite b = true) by (destruct a, b; try discriminate H; try reflexivity; discriminate Fa).
  rewrite <- (Ha Fa), <- (Hb Fb). pose proof (Bminus_correct prec emax _ _ mode_NE a b Fa Fb) as P. cbn [round_mode] in P. destruct (Rlt_bool _ _); [apply P|]. destruct P as [P _]. apply inf_nf in P. congruence.
Qed.
Lemma relF_mul a b x y : relF a x -> relF b y -> relF (nmul B a b) (nmul F x y).
Proof.
  intros Ha Hb H. cbn [nmul Bn Fn] in *. assert (Fa : is_finite a = true) by (destruct a, b; try discriminate H; reflexivity).
  assert (Fb : is_finite b = true) by (destruct a, b; try discriminate H; try reflexivity; discriminate Fa).
  rewrite <- (Ha Fa), <- (Hb Fb). pose proof (Bmult_correct prec emax _ _ mode_NE a b) as P. cbn [round_mode] in P. destruct (Rlt_bool _ _); [apply P|]. apply inf_nf in P. congruence.
Qed.
Lemma relF_opp a x : relF a x -> relF (nopp B a) (nopp F x).
Proof. intros Ha H. cbn [nopp Bn Fn] in *. rewrite is_finite_Bopp in H. rewrite B2R_Bopp, (Ha H). reflexivity. Qed.
Lemma rep_relF b x : rep prec emax b x -> relF b x. Proof. intros [_ H] _. exact H. Qed.

(** a bound below the overflow threshold implies finiteness *)
Definition relM (b : bf) (m : R) : Prop := 1 <= m /\ (m < bpow radix2 emax -> is_finite b = true /\ Rabs (B2R b) <= m).
Lemma rnd_M z M : Rabs z <= M -> 1 <= M -> Rabs (rnd z) <= 1.001 * M.
Proof.
  intros H M1. pose proof (rnd_ok prec emax P24 E128 z) as Q. pose proof (uu_range prec P24). pose proof (ee_range6 prec emax P24 E128).
  assert (uu prec * Rabs z <= uu prec * M) by (apply Rmult_le_compat_l; lra). assert (uu prec * M <= 0.0001 * M) by (apply Rmult_le_compat_r; lra).
  replace (rnd z) with (z + (rnd z - z)) by ring. eapply Rle_trans; [apply Rabs_triang|]. lra.
Qed.
Lemma relM_add a b x y : relM a x -> relM b y -> relM (nadd B a b) (nadd Mn x y).
Proof.
  intros [X Ha] [Y Hb]. cbn [nadd Mn]. split; [lra|]. intros L. destruct Ha as [Fa Ba]; [lra|]. destruct Hb as [Fb Bb]; [lra|].
  assert (Z : Rabs (B2R a + B2R b) <= x + y) by (eapply Rle_trans; [apply Rabs_triang|lra]). pose proof (rnd_M _ _ Z ltac:(lra)) as Q.
  destruct (rep_add prec emax a b (B2R a) (B2R b)) as [F1 R1]; [split; auto|split; auto|unfold fits, small; lra|]. split; auto. rewrite R1. exact Q.
Qed.
Lemma relM_sub a b x y : relM a x -> relM b y -> relM (nsub B a b) (nsub Mn x y).
Proof.
  intros [X Ha] [Y Hb]. cbn [nsub Mn]. split; [lra|]. intros L. destruct Ha as [Fa Ba]; [lra|]. destruct Hb as [Fb Bb]; [lra|].
  assert (Z : Rabs (B2R a - B2R b) <= x + y) by (unfold Rminus; eapply Rle_trans; [apply Rabs_triang|rewrite Rabs_Ropp; lra]). pose proof (rnd_M _ _ Z ltac:(lra)) as Q.
  destruct (rep_sub prec emax a b (B2R a) (B2R b)) as [F1 R1]; [split; auto|split; auto|unfold fits, small; lra|]. split; auto. rewrite R1. exact Q.
Qed.
Lemma relM_mul a b x y : relM a x -> relM b y -> relM (nmul B a b) (nmul Mn x y).
Proof.
  intros [X Ha] [Y Hb]. cbn [nmul Mn]. assert (x <= x * y) by nra. assert (y <= x * y) by nra. split; [lra|]. intros L. destruct Ha as [Fa Ba]; [lra|]. destruct Hb as [Fb Bb]; [lra|].
  assert (Z : Rabs (B2R a * B2R b) <= x * y) by (rewrite Rabs_mult; apply Rmult_le_compat; auto; apply Rabs_pos). pose proof (rnd_M _ _ Z ltac:(lra)) as Q.
  destruct (rep_mul prec emax a b (B2R a) (B2R b)) as [F1 R1]; [split; auto|split; auto|unfold fits, small; lra|]. split; auto. rewrite R1. exact Q.
Qed.
Lemma rk_relM b x k m : rk prec emax b x k -> bpow radix2 k <= m -> 1 <= m -> relM b m.
Proof. intros [[F1 R1] K] L M. split; auto. intros _. split; auto. rewrite R1. lra. Qed.

Definition cR (z : cplx bf) : C := (B2R (fst z), B2R (snd z)).
Definition cfin (z : cplx bf) : Prop := is_finite (fst z) = true /\ is_finite (snd z) = true.

Lemma trig_F n M : (0 <= n < M)%Z -> (8 * M <= INT_MAX)%Z -> relF (tcos (uc_trig B) n M) (tcos (uc_trig F) n M) /\ relF (tsin (uc_trig B) n M) (tsin (uc_trig F) n M).
Proof.
  intros H1 H2. destruct (uc_rep prec emax P24 E128 n M) as (bc & bs & c & s & E1 & E2 & E3 & E4 & R1 & R2); try lia. cbn [tcos tsin uc_trig]. rewrite E1, E2, E3, E4. split; apply rep_relF; auto.
Qed.
Lemma trig_M n M : (0 <= n < M)%Z -> (8 * M <= INT_MAX)%Z -> relM (tcos (uc_trig B) n M) (tcos Mtr n M) /\ relM (tsin (uc_trig B) n M) (tsin Mtr n M).
Proof.
  intros H1 H2. destruct (uc_rep prec emax P24 E128 n M) as (bc & bs & c & s & E1 & E2 & E3 & E4 & [F1 R1] & [F2 R2]); try lia. cbn [tcos tsin uc_trig Mtr]. rewrite E1, E2.
  pose proof (uu_range prec P24) as U. destruct (uc_round (uu prec) (ee prec emax) rnd ltac:(lra) (ee_range6 prec emax P24 E128) (rnd_ok prec emax P24 E128) n M) as (c' & s' & E5 & E6 & A & A'); try lia.
  rewrite E3 in E5. rewrite E4 in E6. injection E5 as <-. injection E6 as <-. set (t := 2 * PI * IZR n / IZR M) in *. pose proof (COS_bound t). pose proof (SIN_bound t). apply Rabs_le_inv in A, A'.
  split; (split; [lra|intros _; split; auto; rewrite ?R1, ?R2; apply Rabs_le; lra]).
Qed.
Lemma rs_lit : rk prec emax (InvSqrtTwo B) (InvSqrtTwo F) 0.
Proof. unfold InvSqrtTwo, InvSqrtTwo_lit. apply rk_lit; auto; [lia|]. apply Rabs_le. change (bpow radix2 0) with 1. lra. Qed.
Lemma sign_lit SIGN : SIGN = 1%Z \/ SIGN = (-1)%Z -> rk prec emax (nofZ B SIGN) (nofZ F SIGN) 0.
Proof. intros H. apply rk_ofZ; auto; [lia|]. destruct H as [-> | ->]; cbn; lia. Qed.

(** every finite component of the result is that of the transform with unbounded exponents *)
Lemma ieee_fft_F BINS SIGN out inp : (0 < BINS)%Z -> (8 * BINS <= INT_MAX)%Z -> SIGN = 1%Z \/ SIGN = (-1)%Z ->
  orel (Forall2 (oprel (crel relF))) (fft B (uc_trig B) BINS SIGN out inp) (fft F (uc_trig F) BINS SIGN (map (option_map cR) out) (map cR inp)).
Proof.
  intros HB HI HS. apply (fft_rel B F (uc_trig B) (uc_trig F) relF (Z.max 31 BINS)); try lia.
  - exact relF_add. - exact relF_sub. - exact relF_mul. - apply rep_relF, rep_0.
  - intros n M H1 H2. apply trig_F; auto. unfold INT_MAX in *. lia.
  - intros n M H1 H2. apply trig_F; auto. unfold INT_MAX in *. lia.
  - apply rep_relF, rs_lit.
  - apply rep_relF, sign_lit; auto.
  - clear. induction out as [|[z|] out IH]; cbn; constructor; auto; cbn; auto. split; intros _; reflexivity.
  - clear. induction inp; cbn; constructor; auto. split; intros _; reflexivity.
Qed.
(** components bounded by X with X BINS^3 below the largest number: every component of the result is finite *)
Lemma ieee_fft_M BINS SIGN out inp X : (0 < BINS)%Z -> smooth31 BINS -> (8 * BINS <= INT_MAX)%Z -> SIGN = 1%Z \/ SIGN = (-1)%Z -> (BINS <= zlen inp)%Z -> (BINS <= zlen out)%Z ->
  1 <= X -> X * IZR BINS ^ 3 < bpow radix2 emax -> (forall z, In z inp -> cfin z /\ Rabs (B2R (fst z)) <= X /\ Rabs (B2R (snd z)) <= X) ->
  exists out', fft B (uc_trig B) BINS SIGN out inp = Ok out' /\ zlen out' = zlen out /\ (forall k, (BINS <= k)%Z -> znth out' k = znth out k) /\
  forall k, (0 <= k < BINS)%Z -> exists v, znth out' k = Some (Some v) /\ cfin v.
Proof.
  intros HB Hsm HI HS Li Lo X1 HX Hin. set (mo := map (option_map (fun _ : cplx bf => (bpow radix2 emax, bpow radix2 emax))) out). set (mi := map (fun _ : cplx bf => (X, X)) inp).
  destruct (fft_safe B (uc_trig B) BINS SIGN out inp HB Hsm Li Lo) as (out' & E & L & U & V). exists out'. splits; auto.
  destruct (fft_bnd BINS SIGN mo mi X) as (om & Em & Lm & Um & Vm); auto.
  { unfold mi, zlen. rewrite map_length. auto. } { unfold mo, zlen. rewrite map_length. auto. } { intros x Ix. unfold mi in Ix. apply in_map_iff in Ix. destruct Ix as (y & <- & _). split; cbn; lra. }
  assert (RR : orel (Forall2 (oprel (crel relM))) (fft B (uc_trig B) BINS SIGN out inp) (fft Mn Mtr BINS SIGN mo mi)).
  { apply (fft_rel B Mn (uc_trig B) Mtr relM (Z.max 31 BINS)); try lia.
    - exact relM_add. - exact relM_sub. - exact relM_mul.
    - split; [cbn; lra|]. intros _. split; [reflexivity|]. cbn. rewrite Rabs_R0. lra.
    - intros n M H1 H2. apply trig_M; auto. unfold INT_MAX in *. lia.
    - intros n M H1 H2. apply trig_M; auto. unfold INT_MAX in *. lia.
    - eapply rk_relM; [exact rs_lit| |]; cbn; lra.
    - eapply rk_relM; [apply sign_lit; exact HS| |]; cbn; lra.
    - unfold mo. clear - E128. assert (1 <= bpow radix2 emax) by (change 1 with (bpow radix2 0); apply bpow_le; lia). induction out as [|[z|] out IH]; cbn; constructor; auto; cbn; auto. split; split; cbn; auto; lra.
    - unfold mi. clear - Hin X1. induction inp as [|z inp IH]; cbn; constructor; [|apply IH; intros; apply Hin; right; auto]. destruct (Hin z ltac:(left; auto)) as ([F1 F2] & B1 & B2). split; split; cbn; auto. }
  rewrite E, Em in RR. cbn in RR. intros k Hk. destruct (V k Hk) as (v & Ev). exists v. split; auto. destruct (Vm k Hk) as (w & Ew & [Bw1 Bw2]).
  pose proof (znth_rel _ _ _ k RR) as Q. rewrite Ev, Ew in Q. destruct Q as [[_ Q1] [_ Q2]]. split; [apply Q1|apply Q2]; lra.
Qed.

Lemma ieee_fft BINS SIGN out inp X : (0 < BINS)%Z -> smooth31 BINS -> (8 * BINS <= INT_MAX)%Z -> SIGN = 1%Z \/ SIGN = (-1)%Z -> (BINS <= zlen inp)%Z -> (BINS <= zlen out)%Z ->
  X * IZR BINS ^ 3 < bpow radix2 emax -> (forall z, In z inp -> cfin z /\ Rabs (B2R (fst z)) <= X /\ Rabs (B2R (snd z)) <= X) ->
  exists out' outF, fft B (uc_trig B) BINS SIGN out inp = Ok out' /\ zlen out' = zlen out /\ (forall k, (BINS <= k)%Z -> znth out' k = znth out k) /\
  fft F (uc_trig F) BINS SIGN (map (option_map cR) out) (map cR inp) = Ok outF /\
  forall k, (0 <= k < BINS)%Z -> exists v, znth out' k = Some (Some v) /\ cfin v /\ znth outF k = Some (Some (cR v)).
Proof.
  intros HB Hsm HI HS Li Lo HX Hin.
  destruct (ieee_fft_M BINS SIGN out inp (Rmax 1 X)) as (out' & E & L & U & V); auto.
  { apply Rmax_l. }
  { unfold Rmax. destruct (Rle_dec 1 X); auto. rewrite Rmult_1_l, pow_IZR. change (Z.of_nat 3) with 3%Z. apply Rle_lt_trans with (IZR (2 ^ 84)).
    - apply IZR_le. replace 84%Z with (28 * 3)%Z by lia. rewrite Z.pow_mul_r by lia. apply Z.pow_le_mono_l. unfold INT_MAX in HI. change (2 ^ 28)%Z with 268435456%Z. lia.
    - change (IZR (2 ^ 84)) with (bpow radix2 84). apply bpow_lt. lia. }
  { intros z Hz. destruct (Hin z Hz) as (Fz & B1 & B2). pose proof (Rmax_r 1 X). splits; auto; lra. }
  pose proof (ieee_fft_F BINS SIGN out inp HB HI HS) as RR. rewrite E in RR. destruct (fft F (uc_trig F) BINS SIGN (map (option_map cR) out) (map cR inp)) as [outF| | |] eqn:EF; try contradiction RR.
  exists out', outF. splits; auto. intros k Hk. destruct (V k Hk) as (v & Ev & [F1 F2]). exists v. splits; auto; [split; auto|]. cbn in RR. pose proof (znth_rel _ _ _ k RR) as Q. rewrite Ev in Q.
  destruct (znth outF k) as [[w|]|]; try contradiction Q. destruct Q as [Q1 Q2]. do 2 f_equal. destruct w as [w1 w2]. unfold cR. cbn in Q1, Q2. rewrite (Q1 F1), (Q2 F2). reflexivity.
Qed.
End Rel.
