(* The transform with exact arithmetic, and its memory safety with any arithmetic *)
From Coq Require Import Reals ZArith Lia Lra List.
From Coquelicot Require Import Complex.
From Verif Require Import Proofs.BaseLemmas Spec.Dft Model.Fft Proofs.FftAlg Proofs.FftSplit Proofs.FftKernels Proofs.FftGen.
Import ListNotations.
Open Scope Z_scope.

Ltac cplxC := change (cplx RbaseSymbolsImpl.R) with C in *.

Lemma nth_error_ext' {A} : forall l m : list A, (forall k, nth_error l k = nth_error m k) -> l = m.
Proof.
  induction l as [|a l IH]; intros [|b m] H; auto.
  - discriminate (H 0%nat).
  - discriminate (H 0%nat).
  - pose proof (H 0%nat) as H0. injection H0 as ->. f_equal. apply IH. intros k. exact (H (S k)).
Qed.

(** value of a cell (0 outside) *)
Definition at_ (l : list C) (i : Z) : C := match znth l i with Some v => v | None => RtoC 0 end.

Lemma at_znth l i v : znth l i = Some v -> at_ l i = v.
Proof. unfold at_. now intros ->. Qed.
Lemma at_nth (l : list C) (j : nat) : at_ l (Z.of_nat j) = nth j l (RtoC 0).
Proof.
  unfold at_. rewrite znth_nth_error. destruct (nth_error l j) eqn:E.
  - symmetry. now apply nth_error_nth.
  - symmetry. apply nth_overflow. now apply nth_error_None.
Qed.
Lemma znth_at l i : 0 <= i < zlen l -> znth l i = Some (at_ l i).
Proof. intros H. destruct (znth_in_range l i H) as (v & Hv). now rewrite (at_znth _ _ _ Hv). Qed.

Section Exact.
Context (SIGN NT : Z) (HS : SIGN = 1 \/ SIGN = -1) (inp : list C).

Definition Vx (n s i k : Z) (v : C) : Prop := v = DFT SIGN (Z.to_nat n) (fun m => at_ inp (i + Z.of_nat m * s)) (Z.to_nat k).

Lemma dit_exact fuel n s (out : list (option C)) o i (z : list C) : 0 < n -> 0 < s -> n * s = NT -> smooth31 n -> n <= Z.of_nat fuel ->
  0 <= o -> o + n <= zlen out -> 0 <= i -> i + (n - 1) * s < zlen inp ->
  zlen z = NT -> (forall m, 0 <= m < NT -> znth z m = Some (root SIGN NT m)) ->
  exists out' : list (option C), dit Rn exact_trig fuel SIGN (split n) n s out o inp i z = Ok out' /\ zlen out' = zlen out /\
    (forall m, ~ (o <= m < o + n) -> znth out' m = znth out m) /\
    forall k, 0 <= k < n -> znth out' (o + k) = Some (Some (DFT SIGN (Z.to_nat n) (fun m => at_ inp (i + Z.of_nat m * s)) (Z.to_nat k))).
Proof.
  intros Hn Hs HNT Hsm Hf Ho Hlo Hi Hli Lz Vz.
  destruct (dit_gen Rn exact_trig SIGN NT inp z Vx) with (fuel := fuel) (n := n) (s := s) (out := out) (o := o) (i := i) as (out' & E & L & U & B); auto.
  - intros s' i' v Hv. unfold Vx. change (Z.to_nat 1) with 1%nat. unfold DFT. cbn [Csum].
    change (Z.of_nat 0) with 0. rewrite Z.mul_0_l, Z.add_0_r, (at_znth _ _ _ Hv).
    replace (IZR SIGN * 2 * PI * (INR 0 * INR (Z.to_nat 0)) / INR 1)%R with 0%R by (cbn; field). rewrite cis_0, Cplus_0_l, Cmult_1_r. reflexivity.
  - intros R s' i' ins IR _ Hs' HR Hi' Hl Lins Pins. cplxC. pose proof (radices_bound R IR) as BR.
    destruct (dft_ok SIGN R ins HS IR Lins) as (outs & E & LO & V). exists outs. splits; auto. { unfold zlen in *. lia. }
    intros l v Hl'. pose proof (znth_Some_range _ _ _ Hl') as Rl. unfold Vx.
    rewrite DFT_root by lia. rewrite Z2Nat.id by lia.
    assert (Ev : v = nth (Z.to_nat l) outs (RtoC 0)). { rewrite znth_nonneg in Hl' by lia. symmetry. now apply nth_error_nth. }
    rewrite Ev, V by (unfold zlen in *; lia). replace (length ins) with (Z.to_nat R) by (unfold zlen in *; lia). apply Csum_ext. intros j Hj. rewrite Z2Nat.id by lia. f_equal.
    rewrite <- at_nth. unfold at_. rewrite Pins by lia. reflexivity.
  - intros R q s' i' k0 xs ins IR _ Hq Hs' HR Hi' Hl' Hk Lxs Vxs Lins I0 Ij. cplxC. pose proof (radices_bound R IR) as BR.
    destruct (dft_ok SIGN R ins HS IR Lins) as (outs & E & LO & V). exists outs. splits; auto. { unfold zlen in *. lia. }
    intros l v Hl. pose proof (znth_Some_range _ _ _ Hl) as Rl. unfold Vx.
    assert (Ev : v = nth (Z.to_nat l) outs (RtoC 0)). { rewrite znth_nonneg in Hl by lia. symmetry. now apply nth_error_nth. }
    assert (RL : 0 <= l < R) by (unfold zlen in *; lia).
    rewrite Z2Nat.inj_mul by lia. replace (Z.to_nat (k0 + l * q)) with (Z.to_nat k0 + Z.to_nat l * Z.to_nat q)%nat by nia.
    rewrite DFT_decimate by lia. rewrite Ev, V by (unfold zlen in *; lia). replace (length ins) with (Z.to_nat R) by (unfold zlen in *; lia).
    apply Csum_ext. intros j Hj. rewrite !Z2Nat.id by lia. f_equal. rewrite <- at_nth.
    assert (DQ : DFT SIGN (Z.to_nat q) (fun q0 => at_ inp (i' + Z.of_nat (Z.to_nat R * q0 + j) * s')) (Z.to_nat k0) = at_ xs (Z.of_nat j)).
    { rewrite (Vxs (Z.of_nat j) (at_ xs (Z.of_nat j))) by (apply znth_at; lia). unfold DFT. apply Csum_ext. intros m Hm. f_equal. f_equal. nia. }
    rewrite DQ. rewrite Nat2Z.inj_mul, !Z2Nat.id by lia.
    destruct j as [|j].
    + unfold at_. change (Z.of_nat 0) with 0. rewrite I0, Z.mul_0_l, root_0, Cmult_1_l. reflexivity.
    + rewrite (at_znth ins _ (cmul Rn (root SIGN NT (Z.of_nat (S j) * (k0 * s'))) (at_ xs (Z.of_nat (S j))))).
      * change (cmul Rn) with Cmult. f_equal. rewrite <- HR.
        replace (Z.of_nat (S j) * (k0 * s')) with (s' * (Z.of_nat (S j) * k0)) by ring. rewrite (Z.mul_comm (R * q) s'). apply root_scale; nia.
      * apply Ij; [lia|apply znth_at; lia|]. apply Vz. assert (0 <= Z.of_nat (S j) * k0 < R * q) by nia. nia.
  - exists out'. splits; auto. intros k Hk. destruct (B k Hk) as (v & Hv & ->). exact Hv.
Qed.
End Exact.

Lemma factors_root BINS SIGN : 0 < BINS -> SIGN = 1 \/ SIGN = -1 ->
  zlen (fft_factors Rn exact_trig BINS SIGN) = BINS /\
  forall m, 0 <= m < BINS -> znth (fft_factors Rn exact_trig BINS SIGN) m = Some (root SIGN BINS m).
Proof.
  intros HB HS. unfold fft_factors. split. { unfold zlen. rewrite map_length, seq_length. lia. }
  intros m Hm. rewrite znth_nonneg by lia. rewrite nth_error_map, (nth_error_nth' _ 0%nat) by (rewrite seq_length; lia).
  rewrite seq_nth by lia. cbn [option_map Nat.add]. rewrite Z2Nat.id by lia. f_equal. cbn [tcos tsin exact_trig nmul nofZ Rn].
  unfold root, cis. destruct HS as [-> | ->].
  - f_equal; [f_equal; unfold Rdiv; ring|]. rewrite Rmult_1_l. f_equal. unfold Rdiv; ring.
  - replace (-1 * 2 * PI * IZR m / IZR BINS)%R with (- (2 * PI * IZR m / IZR BINS))%R by (unfold Rdiv; ring).
    rewrite cos_neg, sin_neg. f_equal. ring.
Qed.

Lemma DFT_ext s n x y k : (forall m, (m < n)%nat -> x m = y m) -> DFT s n x k = DFT s n y k.
Proof. intros H. apply Csum_ext. intros m Hm. now rewrite H. Qed.

Lemma fft_exact BINS SIGN (out : list (option C)) (inp : list C) : 0 < BINS -> smooth31 BINS -> SIGN = 1 \/ SIGN = -1 -> BINS <= zlen out -> BINS <= zlen inp ->
  exists out' : list (option C), fft Rn exact_trig BINS SIGN out inp = Ok out' /\ zlen out' = zlen out /\
    (forall m, BINS <= m -> znth out' m = znth out m) /\
    forall k, 0 <= k < BINS -> znth out' k = Some (Some (DFT SIGN (Z.to_nat BINS) (fun n => nth n inp (RtoC 0)) (Z.to_nat k))).
Proof.
  intros HB Hsm HS Lo Li. destruct (factors_root BINS SIGN HB HS) as [Lz Vz]. unfold fft.
  destruct (dit_exact SIGN BINS HS inp (Z.to_nat BINS) BINS 1 out 0 0 (fft_factors Rn exact_trig BINS SIGN)) as (out' & E & L & U & V); auto; try lia.
  exists out'. splits; auto. { intros m Hm. apply U. lia. }
  intros k Hk. specialize (V k Hk). rewrite Z.add_0_l in V. rewrite V. do 2 f_equal. apply DFT_ext. intros m Hm.
  rewrite <- at_nth. f_equal. lia.
Qed.

(** ** safety with arbitrary arithmetic *)
Section Safe.
Context {T : Type} (N : num T) (tr : trig T).

Lemma kernel_odd_len p tab (ins : list (cplx T)) : ins <> [] -> length (kernel_odd N tr p tab ins) = S (2 * length tab).
Proof.
  intros H. destruct ins as [|i0 rest]; [congruence|]. cbn [kernel_odd length]. rewrite app_length, rev_length, !map_length. lia.
Qed.

Lemma dft_len SIGN R (ins : list (cplx T)) : In R radices -> zlen ins = R -> exists outs, dft N tr SIGN R ins = Ok outs /\ zlen outs = R.
Proof.
  intros I L.
  assert (K : exists outs, kernel N tr R ins = Ok outs /\ zlen outs = R).
  { assert (D : forall tab, odd_table R = Some tab -> kernel N tr R ins = Ok (kernel_odd N tr R tab ins) -> exists outs, kernel N tr R ins = Ok outs /\ zlen outs = R).
    { intros tab Et Ek. eexists. split; [exact Ek|]. apply odd_tables in Et. unfold table_ok in Et. apply andb_prop in Et as [Et _]. apply Z.eqb_eq in Et.
      unfold zlen. rewrite kernel_odd_len; [lia|]. intros ->. pose proof (radices_bound R I). unfold zlen in L. cbn in L. lia. }
    unfold radices in I. cbn in I. unfold zlen in L.
    repeat (destruct I as [<-|I]; [
      do 32 (destruct ins as [|?x ins]; [try (exfalso; clear - L; cbn in L; discriminate L); first [eapply D; reflexivity | eexists; split; reflexivity]|]); exfalso; clear - L; cbn [length] in L; lia|]).
    contradiction. }
  destruct K as (outs & E & LO). unfold dft. rewrite E. cbn [bind]. destruct (SIGN =? 1); [eauto|].
  destruct outs as [|o outs]; [eauto|]. eexists. split; [reflexivity|]. unfold zlen in *. cbn [length] in *. rewrite rev_length. auto.
Qed.

Lemma fft_safe BINS SIGN out (inp : list (cplx T)) : 0 < BINS -> smooth31 BINS -> BINS <= zlen inp -> BINS <= zlen out ->
  exists out', fft N tr BINS SIGN out inp = Ok out' /\ zlen out' = zlen out /\
    (forall m, BINS <= m -> znth out' m = znth out m) /\ forall k, 0 <= k < BINS -> exists v, znth out' k = Some (Some v).
Proof.
  intros HB Hsm Li Lo. unfold fft.
  destruct (dit_gen N tr SIGN BINS inp (fft_factors N tr BINS SIGN) (fun _ _ _ _ _ => True)) with (fuel := Z.to_nat BINS) (n := BINS) (s := 1) (out := out) (o := 0) (i := 0)
    as (out' & E & L & U & B); auto; try lia.
  - unfold fft_factors, zlen. rewrite map_length, seq_length. lia.
  - intros R s i ins IR _ _ _ _ _ Lins _. destruct (dft_len SIGN R ins IR Lins) as (outs & E & LO). exists outs. auto.
  - intros R q s i k0 xs ins IR _ _ _ _ _ _ _ _ _ Lins _ _. destruct (dft_len SIGN R ins IR Lins) as (outs & E & LO). exists outs. auto.
  - exists out'. splits; auto. { intros m Hm. apply U. lia. }
    intros k Hk. destruct (B k Hk) as (v & Hv & _). exists v. auto.
Qed.
End Safe.

(** ** a size with a prime factor above 31 has no instantiation *)
Lemma dit_not_smooth {T} (N : num T) (tr : trig T) SIGN inp z : forall fuel n s out o i, 0 < n -> ~ smooth31 n -> n <= Z.of_nat fuel ->
  dit N tr fuel SIGN (split n) n s out o inp i z = Undefined.
Proof.
  induction fuel as [|fuel IH]; intros n s out o i Hn Hsm Hf; [lia|]. cbn [dit].
  destruct (split_spec n Hn) as [[E _]|[I (q & D)]].
  - rewrite E. cbn [Z.eqb Pos.eqb andb]. destruct (Z.eqb_spec n 1) as [->|]; auto. destruct Hsm. apply smooth_1.
  - pose proof (radices_bound _ I) as B. set (R := split n) in *. clearbody R.
    destruct (Z.eqb_spec R 1) as [|_]; [lia|]. cbn [andb].
    destruct (Z.eqb_spec n R) as [->|Hne]. { destruct Hsm. now apply smooth_radix. }
    assert (Q : n / R = q) by (rewrite D; apply Z.div_mul; lia). rewrite Q. assert (0 < q < n) by nia.
    assert (NI : (n + q - 1) / q = R) by (symmetry; apply (Z.div_unique (n + q - 1) q R (q - 1)); nia). rewrite NI.
    destruct (Z.to_nat R) as [|m] eqn:ER; [lia|]. cbn [for_loop]. rewrite IH; auto; try lia.
    intros Hq. apply Hsm. rewrite D. apply smooth_mul; auto. now apply smooth_radix.
Qed.
