(* Frequency domain zero padding *)
From Coq Require Import Reals ZArith Lia Lra List.
From Coquelicot Require Import Complex.
From Verif Require Import Proofs.BaseLemmas Spec.Dft Model.Fft Model.Fdzp Proofs.FftAlg Proofs.FftSplit Proofs.FftKernels Proofs.FftGen Proofs.FftProofs Proofs.FftInverse.
Import ListNotations.
Open Scope R_scope.
Open Scope C_scope.

Section Math.
Context (h : nat) (Hh : (0 < h)%nat) (x : nat -> C).
Local Notation N := (2 * h)%nat.

(** bin of the possibly negative frequency k *)
Definition Xs (k : Z) : C := Csum N (fun n => x n * root (-1) (Z.of_nat N) (Z.of_nat n * k)).
Definition Dk (k : Z) : C := if (Z.abs k =? Z.of_nat h)%Z then RtoC (1/2) * Xs k else Xs k.
Definition ck (k : Z) : C := RtoC (/ INR N) * Dk k.

Lemma Xs_mod a b : ((a - b) mod Z.of_nat N = 0)%Z -> Xs a = Xs b.
Proof.
  intros H. apply Csum_ext. intros n Hn. f_equal. apply root_mod; [lia|].
  replace (Z.of_nat n * a - Z.of_nat n * b)%Z with ((a - b) * Z.of_nat n)%Z by ring.
  rewrite Z.mul_mod, H by lia. now rewrite Z.mul_0_l, Z.mod_0_l by lia.
Qed.
Lemma Xs_DFT k : DFT (-1) N x k = Xs (Z.of_nat k).
Proof. rewrite DFT_root by lia. reflexivity. Qed.
Lemma Xs_h : Xs (- Z.of_nat h) = Xs (Z.of_nat h).
Proof. apply Xs_mod. replace (- Z.of_nat h - Z.of_nat h)%Z with ((-1) * Z.of_nat N)%Z by lia. apply Z.mod_mul. lia. Qed.
Lemma Dk_h : Dk (- Z.of_nat h) = Dk (Z.of_nat h).
Proof. unfold Dk. rewrite Xs_h, Z.abs_opp. reflexivity. Qed.

(** the padded spectrum *)
Definition Tj (O j : nat) : C :=
  if (j <? h)%nat then Xs (Z.of_nat j) else if (j =? h)%nat then RtoC (1/2) * Xs (Z.of_nat h)
  else if (j <? O - h)%nat then 0 else if (j =? O - h)%nat then RtoC (1/2) * Xs (Z.of_nat h)
  else Xs (Z.of_nat (j - (O - N))).

Lemma Tj_low O j : (3 * h <= O)%nat -> (j <= h)%nat -> Tj O j = Dk (Z.of_nat j).
Proof.
  intros HO Hj. unfold Tj, Dk. destruct (Nat.ltb_spec j h).
  - destruct (Z.eqb_spec (Z.abs (Z.of_nat j)) (Z.of_nat h)); [lia|auto].
  - assert (j = h) by lia. subst j. rewrite Nat.eqb_refl. destruct (Z.eqb_spec (Z.abs (Z.of_nat h)) (Z.of_nat h)); [auto|lia].
Qed.
Lemma Tj_mid O j : (h < j < O - h)%nat -> Tj O j = 0.
Proof.
  intros Hj. unfold Tj. destruct (Nat.ltb_spec j h); [lia|]. destruct (Nat.eqb_spec j h); [lia|]. destruct (Nat.ltb_spec j (O - h)); [auto|lia].
Qed.
Lemma Tj_high O j : (3 * h <= O)%nat -> (j < h)%nat -> Tj O (O - h + j) = Dk (Z.of_nat j - Z.of_nat h).
Proof.
  intros HO Hj. unfold Tj, Dk. destruct (Nat.ltb_spec (O - h + j) h); [lia|]. destruct (Nat.eqb_spec (O - h + j) h); [lia|].
  destruct (Nat.ltb_spec (O - h + j) (O - h)); [lia|]. destruct (Nat.eqb_spec (O - h + j) (O - h)) as [E|E].
  - assert (j = 0)%nat by lia. subst j. replace (Z.of_nat 0 - Z.of_nat h)%Z with (- Z.of_nat h)%Z by lia. rewrite Z.abs_opp.
    destruct (Z.eqb_spec (Z.abs (Z.of_nat h)) (Z.of_nat h)); [|lia]. now rewrite Xs_h.
  - destruct (Z.eqb_spec (Z.abs (Z.of_nat j - Z.of_nat h)) (Z.of_nat h)); [lia|]. apply Xs_mod.
    replace (Z.of_nat (O - h + j - (O - N)) - (Z.of_nat j - Z.of_nat h))%Z with (Z.of_nat N) by lia. apply Z.mod_same. lia.
Qed.

Lemma padded O m : (3 * h <= O)%nat ->
  DFT 1 O (Tj O) m = Csum (2 * h + 1) (fun j => Dk (Z.of_nat j - Z.of_nat h) * root 1 (Z.of_nat O) ((Z.of_nat j - Z.of_nat h) * Z.of_nat m)).
Proof.
  intros HO. rewrite DFT_root by lia.
  replace O with (h + 1 + (O - 2 * h - 1) + h)%nat at 1 by lia. replace (2 * h + 1)%nat with (h + (h + 1))%nat by lia.
  rewrite !(Csum_add _ h), (Csum_add (h + 1)), (Csum_add h (h + 1)). rewrite (Csum_ext (O - 2 * h - 1) _ (fun _ => 0)).
  2:{ intros k Hk. rewrite Tj_mid by lia. ring. }
  rewrite Csum_zero, Cplus_0_r, Cplus_comm. f_equal.
  - apply Csum_ext. intros j Hj. replace (h + 1 + (O - 2 * h - 1) + j)%nat with (O - h + j)%nat by lia. rewrite Tj_high by lia. f_equal.
    apply root_mod; [lia|]. replace (Z.of_nat (O - h + j) * Z.of_nat m - (Z.of_nat j - Z.of_nat h) * Z.of_nat m)%Z with (Z.of_nat m * Z.of_nat O)%Z by nia. apply Z.mod_mul. lia.
  - apply Csum_ext. intros j Hj. rewrite Tj_low by lia. replace (Z.of_nat (h + j) - Z.of_nat h)%Z with (Z.of_nat j) by lia. reflexivity.
Qed.

Lemma trigpoly_root c O m : (0 < O)%nat -> trigpoly h c (INR m / INR O) =
  Csum (2 * h + 1) (fun j => c (Z.of_nat j - Z.of_nat h)%Z * root 1 (Z.of_nat O) ((Z.of_nat j - Z.of_nat h) * Z.of_nat m)).
Proof.
  intros HO. apply Csum_ext. intros j Hj. f_equal. unfold root. f_equal. rewrite mult_IZR, <- !(INR_IZR_INZ m), <- (INR_IZR_INZ O). unfold Rdiv. ring.
Qed.

Lemma invN : RtoC (/ INR N) * RtoC (INR N) = 1.
Proof. rewrite <- RtoC_mult. f_equal. apply Rinv_l. apply not_0_INR. lia. Qed.

Lemma padded_poly O m : (3 * h <= O)%nat -> RtoC (/ INR N) * DFT 1 O (Tj O) m = trigpoly h ck (INR m / INR O).
Proof.
  intros HO. rewrite trigpoly_root, padded by lia. rewrite <- Csum_scal. apply Csum_ext. intros j Hj. unfold ck. ring.
Qed.

Lemma ck_interp n : (n < N)%nat -> trigpoly h ck (INR n / INR N) = x n.
Proof.
  intros Hn. rewrite trigpoly_root by lia.
  assert (I := DFT_inverse (-1) N x n (or_intror eq_refl) Hn). change (- -1)%Z with 1%Z in I.
  rewrite DFT_root in I by lia.
  assert (E : Csum (2 * h + 1) (fun j => Dk (Z.of_nat j - Z.of_nat h) * root 1 (Z.of_nat N) ((Z.of_nat j - Z.of_nat h) * Z.of_nat n)) = RtoC (INR N) * x n).
  { rewrite <- I. rewrite (Csum_ext N _ (fun k => Xs (Z.of_nat k) * root 1 (Z.of_nat N) (Z.of_nat k * Z.of_nat n))) by (intros k Hk; now rewrite Xs_DFT).
    assert (SP : forall f, Csum N f = Csum h f + Csum h (fun k => f (h + k)%nat)) by (intros f; replace N with (h + h)%nat by lia; apply Csum_add).
    assert (SP1 : forall f, Csum (2 * h + 1) f = Csum h f + (Csum h (fun k => f (h + k)%nat) + f (h + h)%nat)).
    { intros f. replace (2 * h + 1)%nat with (h + (h + 1))%nat by lia. rewrite (Csum_add h (h + 1)), (Csum_add h 1). cbn [Csum]. now rewrite Cplus_0_l, Nat.add_0_r. }
    assert (SH : forall f, Csum h f = f 0%nat + Csum (h - 1) (fun k => f (S k))).
    { intros f. replace h with (S (h - 1)) at 1 by lia. apply Csum_S. }
    rewrite SP, SP1.
    rewrite (Csum_ext h (fun k => Dk (Z.of_nat (h + k) - Z.of_nat h) * _) (fun k => Xs (Z.of_nat k) * root 1 (Z.of_nat N) (Z.of_nat k * Z.of_nat n))).
    2:{ intros k Hk. replace (Z.of_nat (h + k) - Z.of_nat h)%Z with (Z.of_nat k) by lia. unfold Dk. destruct (Z.eqb_spec (Z.abs (Z.of_nat k)) (Z.of_nat h)); [lia|auto]. }
    assert (P : forall a, root 1 (Z.of_nat N) ((a - Z.of_nat h) * Z.of_nat n) = root 1 (Z.of_nat N) ((Z.of_nat h + a) * Z.of_nat n)).
    { intros a. apply root_mod; [lia|]. replace ((a - Z.of_nat h) * Z.of_nat n - (Z.of_nat h + a) * Z.of_nat n)%Z with ((- Z.of_nat n) * Z.of_nat N)%Z by lia. apply Z.mod_mul. lia. }
    assert (Q : Csum h (fun k => Dk (Z.of_nat k - Z.of_nat h) * root 1 (Z.of_nat N) ((Z.of_nat k - Z.of_nat h) * Z.of_nat n))
      + RtoC (1/2) * Xs (Z.of_nat h) * root 1 (Z.of_nat N) (Z.of_nat h * Z.of_nat n)
      = Csum h (fun k => Xs (Z.of_nat (h + k)) * root 1 (Z.of_nat N) (Z.of_nat (h + k) * Z.of_nat n))).
    { rewrite !SH. rewrite Nat.add_0_r.
      rewrite (Csum_ext (h - 1) (fun k => Dk (Z.of_nat (S k) - Z.of_nat h) * _) (fun k => Xs (Z.of_nat (h + S k)) * root 1 (Z.of_nat N) (Z.of_nat (h + S k) * Z.of_nat n))).
      - change (Z.of_nat 0) with 0%Z. rewrite P, Z.add_0_r. replace (0 - Z.of_nat h)%Z with (- Z.of_nat h)%Z by lia. rewrite Dk_h. unfold Dk.
        destruct (Z.eqb_spec (Z.abs (Z.of_nat h)) (Z.of_nat h)); [|lia].
        set (S1 := Csum (h - 1) _). set (r := root _ _ _). set (xx := Xs _). clearbody S1 r xx. 
        destruct S1, r, xx; apply C_eq; cbn; field.
      - intros k Hk. rewrite P. rewrite <- Nat2Z.inj_add. f_equal. unfold Dk. destruct (Z.eqb_spec (Z.abs (Z.of_nat (S k) - Z.of_nat h)) (Z.of_nat h)); [lia|].
        apply Xs_mod. replace (Z.of_nat (S k) - Z.of_nat h - Z.of_nat (h + S k))%Z with ((-1) * Z.of_nat N)%Z by lia. apply Z.mod_mul. lia. }
    rewrite <- Q. replace (Z.of_nat (h + h) - Z.of_nat h)%Z with (Z.of_nat h) by lia.
    unfold Dk at 2. destruct (Z.eqb_spec (Z.abs (Z.of_nat h)) (Z.of_nat h)); [|lia]. ring. }
  rewrite <- (Cmult_1_l (x n)), <- invN, <- Cmult_assoc, <- E, <- Csum_scal. apply Csum_ext. intros j Hj. unfold ck. ring.
Qed.

Lemma ck_sym : ck (Z.of_nat h) = ck (- Z.of_nat h).
Proof. unfold ck. now rewrite Dk_h. Qed.

(** any other such polynomial has the same coefficients *)
Lemma ck_unique c : c (Z.of_nat h) = c (- Z.of_nat h)%Z -> (forall n, (n < N)%nat -> trigpoly h c (INR n / INR N) = x n) ->
  forall k, (- Z.of_nat h <= k <= Z.of_nat h)%Z -> c k = ck k.
Proof.
  intros Hs Hx.
  assert (XS : forall k, (- Z.of_nat h <= k <= Z.of_nat h)%Z -> Xs k = Csum (2 * h + 1) (fun j => c (Z.of_nat j - Z.of_nat h)%Z *
     Csum N (fun n => root 1 (Z.of_nat N) (Z.of_nat n * (Z.of_nat j - Z.of_nat h - k))))).
  { intros k Hk. unfold Xs. 
    rewrite (Csum_ext N _ (fun n => Csum (2 * h + 1) (fun j => c (Z.of_nat j - Z.of_nat h)%Z * root 1 (Z.of_nat N) (Z.of_nat n * (Z.of_nat j - Z.of_nat h - k))))).
    - rewrite Csum_swap. apply Csum_ext. intros j Hj. now rewrite Csum_scal.
    - intros n Hn. rewrite <- Hx, trigpoly_root by lia. rewrite <- Csum_scal_r. apply Csum_ext. intros j Hj.
      change (-1)%Z with (- (1))%Z at 1. rewrite root_sign, <- Cmult_assoc, <- root_add. f_equal. f_equal. ring. }
  assert (In : forall k, (- Z.of_nat h < k < Z.of_nat h)%Z -> Xs k = RtoC (INR N) * c k).
  { intros k Hk. rewrite XS by lia. rewrite (Csum_single _ _ (Z.to_nat (k + Z.of_nat h))); [|lia|
      intros j Hj Hne; rewrite Csum_root by lia; destruct (Z.eqb_spec (Z.of_nat j - Z.of_nat h - k) 0); [lia|ring]].
    replace (Z.of_nat (Z.to_nat (k + Z.of_nat h)) - Z.of_nat h)%Z with k by lia. rewrite Csum_root by lia. rewrite Z.sub_diag. cbn [Z.eqb]. ring. }
  assert (Top : Xs (Z.of_nat h) = RtoC (INR N) * (c (Z.of_nat h) + c (Z.of_nat h))).
  { rewrite XS by lia. replace (2 * h + 1)%nat with (S (2 * h)) by lia. rewrite Csum_S.
    change (Z.of_nat 0) with 0%Z. replace (0 - Z.of_nat h)%Z with (- Z.of_nat h)%Z by lia. rewrite <- Hs.
    rewrite (Csum_ext N _ (fun _ => 1)) by (intros n Hn; replace (Z.of_nat n * (- Z.of_nat h - Z.of_nat h))%Z with (Z.of_nat N * - Z.of_nat n)%Z by lia; apply root_period; lia).
    rewrite Csum_const.
    rewrite (Csum_single (2 * h) _ (2 * h - 1)); [|lia|
      intros j Hj Hne; rewrite Csum_root by lia; destruct (Z.eqb_spec (Z.of_nat (S j) - Z.of_nat h - Z.of_nat h) 0); [lia|ring]].
    replace (Z.of_nat (S (2 * h - 1)) - Z.of_nat h)%Z with (Z.of_nat h) by lia. rewrite Csum_root by lia. rewrite Z.sub_diag. cbn [Z.eqb]. ring. }
  assert (Fin : forall z, z = RtoC (/ INR N) * (RtoC (INR N) * z)) by (intros z; rewrite Cmult_assoc, invN; ring).
  intros k Hk. unfold ck, Dk. destruct (Z.eqb_spec (Z.abs k) (Z.of_nat h)) as [E|E].
  - assert (T : Xs k = RtoC (INR N) * (c k + c k)).
    { assert (k = Z.of_nat h \/ k = - Z.of_nat h)%Z as [-> | ->] by lia; [auto|]. rewrite Xs_h, Top, Hs. reflexivity. }
    rewrite T. rewrite (Fin (c k)) at 1. f_equal. 
    replace (RtoC (1/2) * (RtoC (INR N) * (c k + c k))) with (RtoC (INR N) * (RtoC (1/2) * (c k + c k))) by ring. f_equal.
    destruct (c k). apply C_eq; cbn; field.
  - rewrite In by lia. apply Fin.
Qed.
End Math.

Lemma trigpoly_ext h c c' t : (forall k, (- Z.of_nat h <= k <= Z.of_nat h)%Z -> c k = c' k) -> trigpoly h c t = trigpoly h c' t.
Proof. intros H. apply Csum_ext. intros j Hj. rewrite H by lia. reflexivity. Qed.

(** real input gives a real polynomial *)
Lemma ck_real h x t : (0 < h)%nat -> (forall n, (n < 2 * h)%nat -> snd (x n) = 0%R) -> snd (trigpoly h (ck h x) t) = 0%R.
Proof.
  intros Hh Hx.
  assert (XC : forall k, Xs h x (- k) = Cconj (Xs h x k)).
  { intros k. unfold Xs. rewrite Cconj_sum. apply Csum_ext. intros n Hn. replace (Z.of_nat n * - k)%Z with (- (Z.of_nat n * k))%Z by ring.
    rewrite root_opp. specialize (Hx n Hn). destruct (x n) as [a b]. cbn in Hx. subst b. apply C_eq; cbn; ring. }
  assert (CC : forall k, ck h x (- k) = Cconj (ck h x k)).
  { intros k. unfold ck, Dk. rewrite Z.abs_opp, XC. destruct (Z.abs k =? Z.of_nat h)%Z; destruct (Xs h x k); apply C_eq; cbn; ring. }
  assert (E : Cconj (trigpoly h (ck h x) t) = trigpoly h (ck h x) t).
  { unfold trigpoly. rewrite Cconj_sum. rewrite <- (Csum_rev (2 * h + 1) (fun j => ck h x (Z.of_nat j - Z.of_nat h) * _)).
    apply Csum_ext. intros j Hj. replace (Z.of_nat (2 * h + 1 - 1 - j) - Z.of_nat h)%Z with (- (Z.of_nat j - Z.of_nat h))%Z by lia.
    rewrite CC. rewrite opp_IZR. replace (2 * PI * - IZR (Z.of_nat j - Z.of_nat h) * t)%R with (- (2 * PI * IZR (Z.of_nat j - Z.of_nat h) * t))%R by ring.
    rewrite cis_opp. apply C_eq; cbn; ring. }
  set (P := trigpoly h (ck h x) t) in *. clearbody P. apply (f_equal snd) in E. cbn in E. lra.
Qed.

Open Scope Z_scope.

Lemma inited_map (l : list C) : inited (map Some l) = Ok l.
Proof. induction l as [|a l IH]; cbn [inited map]; auto. change (cplx R) with C. rewrite IH. reflexivity. Qed.

(** an array all of whose cells are known *)
Lemma cells_eq (l : list (option C)) (n : nat) (f : nat -> C) : zlen l = Z.of_nat n ->
  (forall k, 0 <= k < Z.of_nat n -> znth l k = Some (Some (f (Z.to_nat k)))) -> l = map Some (map f (seq 0 n)).
Proof.
  intros L V. apply nth_error_ext'. intros k. destruct (Nat.lt_ge_cases k n) as [Hk|Hk].
  - specialize (V (Z.of_nat k) ltac:(lia)). rewrite znth_nth_error, Nat2Z.id in V. rewrite V.
    rewrite map_map, nth_error_map, (nth_error_nth' _ 0%nat), seq_nth by (rewrite ?seq_length; lia). reflexivity.
  - rewrite (proj2 (nth_error_None l k)) by (unfold zlen in L; lia). symmetry. apply nth_error_None. rewrite !map_length, seq_length. lia.
Qed.

Definition zeroed (OUTPUT INPUT : Z) (tmp : list (option C)) : Prop :=
  zlen tmp = OUTPUT /\ forall k, INPUT <= k < OUTPUT - INPUT / 2 -> znth tmp k = Some (Some (RtoC 0)).

Lemma fdzp_even (OUTPUT INPUT : Z) (tmp output : list (option C)) (input : list C) :
  0 < INPUT -> INPUT mod 2 = 0 -> 3 * INPUT <= 2 * OUTPUT -> smooth31 INPUT -> smooth31 OUTPUT ->
  zeroed OUTPUT INPUT tmp -> OUTPUT <= zlen output -> INPUT <= zlen input ->
  let h := Z.to_nat (INPUT / 2) in let x := fun n => nth n input (RtoC 0) in
  exists tmp' output' : list (option C), fdzp Rn exact_trig OUTPUT INPUT tmp output input = Ok (tmp', output') /\
    zeroed OUTPUT INPUT tmp' /\ zlen output' = zlen output /\ (forall m, OUTPUT <= m -> znth output' m = znth output m) /\
    forall m, 0 <= m < OUTPUT -> znth output' m = Some (Some (trigpoly h (ck h x) (IZR m / IZR OUTPUT)%R)).
Proof.
  intros HI Hev H32 SI SO (Lt & Zt) Lo Li h x.
  set (H := INPUT / 2) in *. assert (EI : INPUT = 2 * H) by (unfold H; apply Z_div_exact_full_2; lia).
  assert (HH : 0 < H) by lia. assert (Eh : Z.of_nat h = H) by (unfold h; lia).
  assert (FI : (INPUT + 1) / 2 + 1 = H + 1). { rewrite EI. f_equal. symmetry. apply (Z.div_unique _ 2 H 1); lia. }
  destruct (fft_exact INPUT (-1) tmp input) as (t1 & E1 & L1 & U1 & V1); auto; try lia.
  unfold fdzp. rewrite E1. cbn [bind]. rewrite Hev. cbn [Z.eqb]. cplxC. fold H.
  assert (V : forall k, 0 <= k < INPUT -> znth t1 k = Some (Some (Xs h x k))).
  { intros k Hk. rewrite V1 by auto. do 2 f_equal. replace (Z.to_nat INPUT) with (2 * h)%nat by lia. fold x. rewrite Xs_DFT by lia. f_equal. lia. }
  clear V1. rewrite (geti_Some _ _ _ (V H ltac:(lia))). cbn [bind]. rewrite set_in_range by lia. cbn [bind].
  assert (G : forall v : option C, znth (zupd t1 H v) H = Some v) by (intros v; apply znth_zupd_eq; lia).
  rewrite (geti_Some _ _ _ (G _)). cbn [bind]. rewrite set_in_range by (rewrite zlen_zupd; lia). cbn [bind].
  rewrite FI.
  set (y := cscale_eq Rn (Xs h x H) (nlit Rn (1 / 2))).
  assert (Ey : y = Cmult (RtoC (1/2)) (Xs h x (Z.of_nat h))). { rewrite Eh. unfold y. destruct (Xs h x H). apply C_eq; cbn; ring. }
  clearbody y. subst y. set (y := Cmult (RtoC (1/2)) (Xs h x (Z.of_nat h))) in *.
  set (t2 := zupd (zupd t1 H (Some y)) (OUTPUT - H) (Some y)).
  assert (L2 : zlen t2 = OUTPUT) by (unfold t2; rewrite !zlen_zupd; lia).
  pose (P := fun (i : Z) (t : list (option C)) => zlen t = OUTPUT /\
     (forall k, ~ (OUTPUT - H < k < OUTPUT - INPUT + i) -> znth t k = znth t2 k) /\
     (forall k, OUTPUT - H < k < OUTPUT - INPUT + i -> znth t k = Some (Some (Xs h x (k - (OUTPUT - INPUT)))))).
  match goal with |- context [for_loop ?n ?i ?b t2] => destruct (for_loop_inv P b n i t2) as (t3 & E3 & P3) end.
  { unfold P. splits; auto. intros k Hk. lia. }
  { intros j t Hj (Lj & Uj & Vj). 
    assert (Gj : znth t j = Some (Some (Xs h x j))).
    { rewrite Uj by lia. unfold t2. rewrite !znth_zupd_ne by lia. apply V. lia. }
    rewrite (geti_Some _ _ _ Gj). cbn [bind]. rewrite set_in_range by lia. eexists. split; [reflexivity|].
    unfold P. rewrite zlen_zupd. splits; auto.
    - intros k Hk. rewrite znth_zupd_ne by lia. apply Uj. lia.
    - intros k Hk. destruct (Z.eq_dec k (OUTPUT - INPUT + j)) as [->|Hne].
      + rewrite znth_zupd_eq by lia. do 3 f_equal. lia.
      + rewrite znth_zupd_ne by lia. apply Vj. lia. }
  change (cplx R) with C in *. rewrite E3. cbn [bind]. clear E3.
  destruct P3 as (L3 & U3 & V3). replace (OUTPUT - INPUT + (H + 1 + Z.of_nat (Z.to_nat (INPUT - (H + 1))))) with OUTPUT in U3, V3 by lia.
  pose (Q := fun (i : Z) (t : list (option C)) => zlen t = OUTPUT /\
     (forall k, ~ (H < k < i) -> znth t k = znth t3 k) /\ (forall k, H < k < i -> znth t k = Some (Some (RtoC 0)))).
  match goal with |- context [for_loop ?n ?i ?b t3] => destruct (for_loop_inv Q b n i t3) as (t4 & E4 & P4) end.
  { unfold Q. splits; auto. intros k Hk. lia. }
  { intros j t Hj (Lj & Uj & Vj). rewrite set_in_range by lia. eexists. split; [reflexivity|].
    unfold Q. rewrite zlen_zupd. splits; auto.
    - intros k Hk. rewrite znth_zupd_ne by lia. apply Uj. lia.
    - intros k Hk. destruct (Z.eq_dec k j) as [->|Hne]; [apply znth_zupd_eq; lia|]. rewrite znth_zupd_ne by lia. apply Vj. lia. }
  change (cplx R) with C in *. rewrite E4. cbn [bind]. clear E4.
  destruct P4 as (L4 & U4 & V4). replace (H + 1 + Z.of_nat (Z.to_nat (INPUT - (H + 1)))) with INPUT in U4, V4 by lia.
  set (O := Z.to_nat OUTPUT).
  assert (VT : forall k, 0 <= k < OUTPUT -> znth t4 k = Some (Some (Tj h x O (Z.to_nat k)))).
  { intros k Hk. unfold Tj. destruct (Nat.ltb_spec (Z.to_nat k) h).
    { rewrite U4, U3 by lia. unfold t2. rewrite !znth_zupd_ne by lia. rewrite V by lia. do 3 f_equal. lia. }
    destruct (Nat.eqb_spec (Z.to_nat k) h).
    { replace k with H by lia. rewrite U4, U3 by lia. unfold t2. rewrite znth_zupd_ne by lia. apply G. }
    destruct (Nat.ltb_spec (Z.to_nat k) (O - h)).
    { destruct (Z_lt_le_dec k INPUT); [apply V4; lia|]. rewrite U4, U3 by lia. unfold t2. rewrite !znth_zupd_ne by lia. rewrite U1 by lia. apply Zt. lia. }
    destruct (Nat.eqb_spec (Z.to_nat k) (O - h)).
    { replace k with (OUTPUT - H) by lia. rewrite U4, U3 by lia. unfold t2. apply znth_zupd_eq. rewrite zlen_zupd. lia. }
    rewrite U4 by lia. rewrite V3 by lia. do 3 f_equal. lia. }
  assert (IT : inited t4 = Ok (map (Tj h x O) (seq 0 O))).
  { rewrite (cells_eq t4 O (Tj h x O)) by (intros; try apply VT; lia). apply inited_map. }
  change (cplx R) with C in *. rewrite IT. cbn [bind].
  destruct (fft_exact OUTPUT 1 output (map (Tj h x O) (seq 0 O))) as (o1 & E5 & L5 & U5 & V5); auto; try lia.
  { unfold zlen. rewrite map_length, seq_length. lia. }
  rewrite E5. cbn [bind]. clear E5.
  assert (SC : ndiv Rn (nofZ Rn 1) (nofZ Rn INPUT) = (/ INR (2 * h))%R).
  { cbn [ndiv nofZ Rn]. rewrite INR_IZR_INZ. replace (Z.of_nat (2 * h)) with INPUT by lia. unfold Rdiv. now rewrite Rmult_1_l. }
  pose (S := fun (i : Z) (t : list (option C)) => zlen t = zlen output /\
     (forall k, ~ (0 <= k < i) -> znth t k = znth o1 k) /\ (forall k, 0 <= k < i -> znth t k = Some (Some (trigpoly h (ck h x) (IZR k / IZR OUTPUT)%R)))).
  match goal with |- context [for_loop ?n ?i ?b o1] => destruct (for_loop_inv S b n i o1) as (o2 & E6 & P6) end.
  { unfold S. splits; auto. intros k Hk. lia. }
  { intros j t Hj (Lj & Uj & Vj). assert (Gj := V5 j ltac:(lia)). rewrite <- Uj in Gj by lia.
    rewrite (geti_Some _ _ _ Gj). cbn [bind]. rewrite set_in_range by lia. eexists. split; [reflexivity|].
    unfold S. rewrite zlen_zupd. splits; auto.
    - intros k Hk. rewrite znth_zupd_ne by lia. apply Uj. lia.
    - intros k Hk. destruct (Z.eq_dec k j) as [->|Hne]; [|rewrite znth_zupd_ne by lia; apply Vj; lia].
      rewrite znth_zupd_eq by lia. do 2 f_equal. fold O.
      rewrite (DFT_ext _ _ _ (Tj h x O)).
      + pose proof (padded_poly h ltac:(lia) x O (Z.to_nat j) ltac:(lia)) as PP.
        replace (IZR j / IZR OUTPUT)%R with (INR (Z.to_nat j) / INR O)%R by (rewrite !INR_IZR_INZ; unfold O; rewrite !Z2Nat.id by lia; reflexivity).
        rewrite <- PP. unfold cscale_eq. rewrite SC. destruct (DFT 1 O (Tj h x O) (Z.to_nat j)). apply C_eq; cbn; ring.
      + intros m Hm. rewrite (nth_indep _ _ (Tj h x O 0%nat)) by (rewrite map_length, seq_length; lia). rewrite map_nth, seq_nth by lia. reflexivity. }
  change (cplx R) with C in *. rewrite E6. cbn [bind]. destruct P6 as (L6 & U6 & V6). replace (0 + Z.of_nat O) with OUTPUT in U6, V6 by lia.
  exists t4, o2. splits; auto.
  - split; auto. intros k Hk. fold H in Hk. rewrite VT by lia. rewrite Tj_mid by lia. reflexivity.
  - intros m Hm. rewrite U6 by lia. apply U5. lia.
Qed.

Lemma fdzp_new_zeroed OUTPUT INPUT : 0 <= INPUT -> 0 <= OUTPUT -> zeroed OUTPUT INPUT (fdzp_new Rn OUTPUT).
Proof.
  intros HI HO. unfold zeroed, fdzp_new. split; [unfold zlen; rewrite repeat_length; lia|].
  intros k Hk. assert (0 <= INPUT / 2) by (apply Z.div_pos; lia). rewrite znth_nonneg by lia. rewrite nth_error_repeat by lia. reflexivity.
Qed.

Lemma fdzp_calls_even OUTPUT INPUT : 0 < INPUT -> INPUT mod 2 = 0 -> 3 * INPUT <= 2 * OUTPUT -> smooth31 INPUT -> smooth31 OUTPUT ->
  let h := Z.to_nat (INPUT / 2) in
  forall (calls : list (list (option C) * list C)) (tmp : list (option C)), zeroed OUTPUT INPUT tmp ->
  Forall (fun c => OUTPUT <= zlen (fst c) /\ INPUT <= zlen (snd c)) calls ->
  exists res : list (list (option C)), fdzp_calls Rn exact_trig OUTPUT INPUT tmp calls = Ok res /\
    Forall2 (fun c r => zlen r = zlen (fst c) /\ (forall m, OUTPUT <= m -> znth r m = znth (fst c) m) /\
      forall m, 0 <= m < OUTPUT -> znth r m = Some (Some (trigpoly h (ck h (fun n => nth n (snd c) (RtoC 0))) (IZR m / IZR OUTPUT)%R))) calls res.
Proof.
  intros HI He HR SI SO h. induction calls as [|[o inp] calls IH]; intros tmp Ht HF.
  - exists []. split; auto.
  - inversion HF as [|? ? [H1 H2] HF']; subst. cbn [fst snd] in *. cbn [fdzp_calls].
    destruct (fdzp_even OUTPUT INPUT tmp o inp) as (t' & o' & E & Z' & L' & U' & V'); auto.
    cplxC. rewrite E. cbn [bind]. destruct (IH t' Z' HF') as (res & E' & F). cplxC. rewrite E'. cbn [bind].
    exists (o' :: res). split; auto.
Qed.
