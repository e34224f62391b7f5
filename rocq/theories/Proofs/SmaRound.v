(* Rounding errors of the moving averages *)
From Coq Require Import Reals Lra List Lia ZArith Permutation.
From Verif Require Import Proofs.BaseLemmas Proofs.ContainerProofs Proofs.SwaProofs Proofs.SmaProofs Proofs.KahanFloat
  Model.Sma Spec.Containers Spec.Reduce Spec.Sums.
Import ListNotations.
Open Scope R_scope.

(** runs with a relational specification of the outputs *)
Section RunRel.
Context {S I O : Type} (step : S -> I -> outcome (S * O)) (Inv : list I -> S -> Prop) (P : list I -> O -> Prop) (Q : list I -> Prop).
Hypothesis Hstep : forall h s x, Q (h ++ [x]) -> Inv h s -> exists s' o, step s x = Ok (s', o) /\ P (h ++ [x]) o /\ Inv (h ++ [x]) s'.
Lemma run_rel_gen xs : forall h s, (forall t, (t <= length xs)%nat -> Q (h ++ firstn t xs)) -> Inv h s ->
  exists s' os, run step s xs = Ok (s', os) /\ Forall2 P (map (fun t => h ++ firstn t xs) (seq 1 (length xs))) os /\ Inv (h ++ xs) s'.
Proof.
  induction xs as [|x xs IH]; intros h s HQ H; cbn [run length seq map].
  - exists s, []. rewrite app_nil_r. auto.
  - destruct (Hstep h s x) as (s1 & o & E & HP & H1); auto. { apply (HQ 1%nat). cbn. lia. }
    rewrite E. cbn [bind]. destruct (IH (h ++ [x]) s1) as (s2 & os & E2 & F2 & H2); auto.
    { intros t Ht. rewrite <- app_assoc. apply (HQ (Datatypes.S t)). cbn. lia. }
    rewrite E2. cbn [bind]. exists s2, (o :: os). split; auto. split; [|rewrite <- app_assoc in H2; auto].
    constructor; auto. rewrite <- seq_shift, map_map. 
    erewrite map_ext; [exact F2|]. intros t. cbn. rewrite <- app_assoc. reflexivity.
Qed.
Lemma run_rel s xs : (forall t, (t <= length xs)%nat -> Q (firstn t xs)) -> Inv [] s ->
  exists s' os, run step s xs = Ok (s', os) /\ Forall2 P (prefixes xs) os /\ Inv xs s'.
Proof. intros HQ H. exact (run_rel_gen xs [] s HQ H). Qed.
End RunRel.

Lemma window_Forall {A} (F : A -> Prop) n z xs : F z -> Forall F xs -> Forall F (window n z xs).
Proof.
  intros Hz H. unfold window. apply Forall_forall. intros x Hx.
  assert (Hi : In x (repeat z n ++ xs)). { rewrite <- (firstn_skipn (length xs) (repeat z n ++ xs)). apply in_or_app. auto. }
  apply in_app_or in Hi. destruct Hi as [Hi|Hi]; [apply repeat_spec in Hi; subst; auto|]. rewrite Forall_forall in H. auto.
Qed.
Lemma Rsum_perm l l' : Permutation l l' -> Rsum l = Rsum l'.
Proof. unfold Rsum, gsum. induction 1; cbn [fold_right] in *; lra. Qed.
Lemma absum_perm l l' : Permutation l l' -> absum l = absum l'.
Proof. intros. unfold absum. apply Rsum_perm, Permutation_map. auto. Qed.
Lemma Rsum_bound l X : 0 <= X -> Forall (fun x => Rabs x <= X) l -> Rabs (Rsum l) <= INR (length l) * X.
Proof.
  intros HX H. induction H as [|x l Hx H IH]; unfold Rsum, gsum; cbn [fold_right length]; [cbn; rewrite Rabs_R0; lra|].
  rewrite S_INR. fold (gsum 0 Rplus l). fold (Rsum l). eapply Rle_trans; [apply Rabs_triang|]. lra.
Qed.

Section Approx.
Context (F : R -> Prop) (add sub : R -> R -> R) (u : R) (Hu : 0 <= u).
Hypothesis Hadd : forall x y, F x -> F y -> F (add x y) /\ exists e, Rabs e <= u /\ add x y = (x + y) * (1 + e).
Hypothesis Hsub : forall x y, F x -> F y -> F (sub x y) /\ exists e, Rabs e <= u /\ sub x y = (x - y) * (1 + e).
Hypothesis Hcomm : forall x y, add x y = add y x.
Hypothesis F0 : F 0.
Notation P m := ((1 + u) ^ m).

Lemma P1 m : 1 <= P m.
Proof. apply pow_R1_Rle. lra. Qed.
Lemma Pmono m n : (m <= n)%nat -> P m <= P n.
Proof. intros. apply Rle_pow; [lra|auto]. Qed.

Definition approx (m : nat) (a al A : R) : Prop := F a /\ Rabs al <= A /\ Rabs (a - al) <= (P m - 1) * A.
Lemma approx_refl a : F a -> approx 0 a a (Rabs a).
Proof. intros. split; auto. split; [lra|]. rewrite Rminus_diag_eq by auto. rewrite Rabs_R0. cbn. lra. Qed.
Lemma approx_mono m n a al A : (m <= n)%nat -> approx m a al A -> approx n a al A.
Proof.
  intros H (H1 & H2 & H3). split; auto. split; auto. eapply Rle_trans; [exact H3|]. pose proof (Rabs_pos al). apply Rmult_le_compat_r; [lra|].
  pose proof (Pmono m n H). lra.
Qed.
Lemma approx_add m a b al be A B : approx m a al A -> approx m b be B -> approx (S m) (add a b) (al + be) (A + B).
Proof.
  intros (H1 & H2 & H3) (G1 & G2 & G3). destruct (Hadd a b H1 G1) as (Fa & e & He & E). split; auto.
  split; [eapply Rle_trans; [apply Rabs_triang|]; lra|].
  assert (D : Rabs (a + b - (al + be)) <= (P m - 1) * (A + B)).
  { replace (a + b - (al + be)) with ((a - al) + (b - be)) by ring. eapply Rle_trans; [apply Rabs_triang|]. lra. }
  assert (M : Rabs (a + b) <= P m * (A + B)).
  { replace (a + b) with ((a + b - (al + be)) + (al + be)) by ring. eapply Rle_trans; [apply Rabs_triang|].
    assert (Rabs (al + be) <= A + B) by (eapply Rle_trans; [apply Rabs_triang|]; lra). lra. }
  rewrite E. replace ((a + b) * (1 + e) - (al + be)) with ((a + b) * e + (a + b - (al + be))) by ring.
  eapply Rle_trans; [apply Rabs_triang|]. rewrite Rabs_mult.
  assert (Rabs (a + b) * Rabs e <= (P m * (A + B)) * u) by (apply Rmult_le_compat; auto using Rabs_pos). cbn [pow]. lra.
Qed.

(** ** SMA4: the tree *)
Context (NUM : Z) (Hnum : (0 < NUM)%Z).
Lemma tree_sum (t : list R) d : zlen t = (2 * NUM)%Z -> (forall i, (1 <= i < NUM)%Z -> node_ok add t i) ->
  Forall F (skipn (Z.to_nat NUM) t) ->
  exists f g, (forall i, (1 <= i < NUM)%Z -> f i = f (2 * i)%Z + f (2 * i + 1)%Z /\ g i = g (2 * i)%Z + g (2 * i + 1)%Z) /\
    (forall i, (NUM <= i < 2 * NUM)%Z -> exists v, znth t i = Some v /\ f i = v /\ g i = Rabs v) /\
    forall i, (1 <= i < 2 * NUM)%Z -> (NUM <= i * 2 ^ Z.of_nat d)%Z -> exists v, znth t i = Some v /\ approx d v (f i) (g i).
Proof.
  intros Ht Hn HF.
  set (lf := fun i => match znth t i with Some v => v | None => 0 end).
  set (T := fix T (k : nat) (h : R -> R) (i : Z) := match k with O => h (lf i) | S k' => if (NUM <=? i)%Z then h (lf i) else T k' h (2 * i)%Z + T k' h (2 * i + 1)%Z end).
  (* the values at fuel 2 NUM *)
  assert (TS : forall h k k' i, (1 <= i)%Z -> (NUM <= i * 2 ^ Z.of_nat k)%Z -> (NUM <= i * 2 ^ Z.of_nat k')%Z -> T k h i = T k' h i).
  { intros h. induction k as [|k IH]; intros [|k'] i Hi H1 H2; auto.
    - cbn [T]. destruct (Z.leb_spec NUM i); auto. change (2 ^ Z.of_nat 0)%Z with 1%Z in H1. lia.
    - cbn [T]. destruct (Z.leb_spec NUM i); auto. change (2 ^ Z.of_nat 0)%Z with 1%Z in H2. lia.
    - cbn [T]. destruct (Z.leb_spec NUM i); auto. rewrite Nat2Z.inj_succ, Z.pow_succ_r in * by lia.
      rewrite (IH k' (2 * i)%Z), (IH k' (2 * i + 1)%Z); auto; assert (0 < 2 ^ Z.of_nat k)%Z by (apply Z.pow_pos_nonneg; lia); assert (0 < 2 ^ Z.of_nat k')%Z by (apply Z.pow_pos_nonneg; lia); lia. }
  set (K := Z.to_nat NUM).
  assert (HK : forall i, (1 <= i)%Z -> (NUM <= i * 2 ^ Z.of_nat K)%Z).
  { intros i Hi. unfold K. rewrite Z2Nat.id by lia. pose proof (Z.pow_gt_lin_r 2 NUM ltac:(lia) ltac:(lia)). nia. }
  assert (Rec : forall h i, (1 <= i < NUM)%Z -> T K h i = T K h (2 * i)%Z + T K h (2 * i + 1)%Z).
  { intros h i Hi. rewrite (TS h K (S K) i) by (try apply HK; try lia; rewrite Nat2Z.inj_succ, Z.pow_succ_r by lia; pose proof (HK i ltac:(lia)); nia).
    cbn [T]. destruct (Z.leb_spec NUM i); [lia|]. reflexivity. }
  assert (Leaf : forall h i, (NUM <= i)%Z -> T K h i = h (lf i)) by (intros h i Hi; destruct K; cbn [T]; auto; destruct (Z.leb_spec NUM i); [auto|lia]).
  assert (LF : forall i, (NUM <= i < 2 * NUM)%Z -> znth t i = Some (lf i) /\ F (lf i)).
  { intros i Hi. destruct (get_in_range t i) as (v & Hv & _); [lia|]. unfold lf. rewrite Hv. split; auto.
    rewrite Forall_forall in HF. apply HF. rewrite znth_nonneg in Hv by lia. apply (nth_error_In _ (Z.to_nat i - Z.to_nat NUM)).
    rewrite nth_error_skipn. replace (Z.to_nat NUM + (Z.to_nat i - Z.to_nat NUM))%nat with (Z.to_nat i) by lia. auto. }
  exists (T K (fun v => v)), (T K Rabs). split; [intros i Hi; split; apply Rec; auto|]. split.
  - intros i Hi. exists (lf i). rewrite !Leaf by lia. split; auto. apply LF; auto.
  - clear TS HK. revert Rec Leaf. generalize (T K). clear T K. intros T Rec Leaf.
    induction d as [|d IH]; intros i Hi Hd.
    + change (2 ^ Z.of_nat 0)%Z with 1%Z in Hd. exists (lf i). destruct (LF i ltac:(lia)) as [L1 L2]. split; auto.
      assert (E1 : forall h, T h i = h (lf i)) by (intros; apply (Leaf h); lia). rewrite !E1. apply approx_refl; auto.
    + destruct (Z_lt_le_dec i NUM) as [Hl|Hl].
      * destruct (Hn i ltac:(lia)) as (a & b & E1 & E2 & E3). exists (add a b). split; auto.
        rewrite Nat2Z.inj_succ, Z.pow_succ_r in Hd by lia. assert (0 < 2 ^ Z.of_nat d)%Z by (apply Z.pow_pos_nonneg; lia).
        destruct (IH (2 * i)%Z) as (a' & Ea & Ha); [lia|nia|]. destruct (IH (2 * i + 1)%Z) as (b' & Eb & Hb); [lia|nia|].
        assert (a' = a) by congruence. assert (b' = b) by congruence. subst a' b'.
        rewrite (Rec (fun v => v)), (Rec Rabs) by lia. apply approx_add; auto.
      * exists (lf i). destruct (LF i ltac:(lia)) as [L1 L2]. split; auto.
        assert (E1 : forall h, T h i = h (lf i)) by (intros; apply (Leaf h); lia). rewrite !E1. eapply approx_mono; [|apply approx_refl; auto]. lia.
Qed.

Lemma frontier_sum (f : Z -> R) : (forall i, (1 <= i < NUM)%Z -> f i = f (2 * i)%Z + f (2 * i + 1)%Z) ->
  forall k : nat, (1 <= Z.of_nat k <= NUM)%Z -> Rsum (map (fun j => f (Z.of_nat j)) (seq k k)) = f 1%Z.
Proof.
  intros H k. induction k as [|k IH]; intros Hk; [lia|]. destruct k as [|k].
  - cbn [seq map]. unfold Rsum, gsum. cbn [fold_right]. change (Z.of_nat 1) with 1%Z. lra.
  - rewrite <- IH by lia. clear IH. rewrite (seq_S (S k) (S (S k))). rewrite (seq_S k (S (S k))). rewrite !map_app. cbn [map]. rewrite <- app_assoc. cbn [app].
    cbn [seq map]. rewrite (H (Z.of_nat (S k))) by lia. 
    replace (2 * Z.of_nat (S k))%Z with (Z.of_nat (S (S k) + k)) by lia. replace (Z.of_nat (S (S k) + k) + 1)%Z with (Z.of_nat (S (S k) + S k)) by lia.
    change ([f (Z.of_nat (S (S k) + k)); f (Z.of_nat (S (S k) + S k))]) with ([f (Z.of_nat (S (S k) + k))] ++ [f (Z.of_nat (S (S k) + S k))]). rewrite app_assoc, !Rsum_snoc.
    unfold Rsum at 2. unfold gsum. cbn [fold_right]. fold (gsum 0 Rplus (map (fun j => f (Z.of_nat j)) (seq (S (S k)) k))). fold (Rsum (map (fun j => f (Z.of_nat j)) (seq (S (S k)) k))). lra.
Qed.

Lemma sma4_call_round d div norm (Hd : (NUM <= 2 ^ Z.of_nat d)%Z) xs s x : Forall F (xs ++ [x]) -> swa_inv add NUM 0 xs s ->
  exists s' v, sma4_call add div NUM norm s x = Ok (s', if norm then div v else v) /\
    approx d v (Rsum (window (Z.to_nat NUM) 0 (xs ++ [x]))) (absum (window (Z.to_nat NUM) 0 (xs ++ [x]))) /\ swa_inv add NUM 0 (xs ++ [x]) s'.
Proof.
  intros HF (Ht & Hleaf & Hnode & leaves & HR & Hlv). unfold sma4_call, swa_call.
  rewrite set_in_range by lia. cbn [bind].
  destruct (swa_up_nodes add NUM Hcomm (zupd (w_tree s) (w_leaf s) x) (w_leaf s) (Z.to_nat (w_leaf s)))
    as (t' & -> & Hl' & Hn' & Hlf'); try lia.
  - now rewrite zlen_zupd.
  - intros i Hi Hna. destruct (Hnode i Hi) as (a & b & Ha & Hb & Hc). exists a, b.
    destruct (div2_child i) as [D1 D2].
    assert (2 * i <> w_leaf s)%Z. { intros E. apply Hna. apply anc_one. rewrite <- E. now rewrite D1. }
    assert (2 * i + 1 <> w_leaf s)%Z. { intros E. apply Hna. apply anc_one. rewrite <- E. now rewrite D2. }
    rewrite !znth_zupd by lia.
    destruct (Z.eqb_spec (2 * i) (w_leaf s)); [lia|]. destruct (Z.eqb_spec (2 * i + 1) (w_leaf s)); [lia|].
    destruct (Z.eqb_spec i (w_leaf s)); [lia|]. auto.
  - cbn [bind].
    destruct (ring_push _ _ _ _ x HR) as (_ & HR'). rewrite <- window_snoc in HR' by lia.
    set (leaves' := zupd leaves (w_leaf s - NUM) x) in *.
    assert (Hlv' : forall i, (0 <= i < NUM)%Z -> znth t' (NUM + i) = znth leaves' i).
    { intros i Hi. rewrite Hlf' by lia. unfold leaves'. destruct HR as (_ & Hlen & _).
      rewrite !znth_zupd by lia.
      destruct (Z.eqb_spec (NUM + i) (w_leaf s)), (Z.eqb_spec i (w_leaf s - NUM)); try lia; auto. }
    assert (Hleaf' : ((if 2 * NUM <=? w_leaf s + 1 then NUM else w_leaf s + 1) - NUM = (w_leaf s - NUM + 1) mod NUM)%Z).
    { rewrite <- inc_wrap by lia. destruct (Z.leb_spec (2 * NUM) (w_leaf s + 1)), (Z.leb_spec NUM (w_leaf s - NUM + 1)); lia. }
    assert (Hlen : zlen leaves' = NUM) by apply HR'.
    assert (Sk : skipn (Z.to_nat NUM) t' = leaves').
    { apply list_eq_znth.
      - unfold zlen in *. rewrite skipn_length. lia.
      - intros i Hi. unfold zlen in Hi. rewrite skipn_length in Hi. unfold zlen in *. rewrite <- Hlv' by lia. rewrite !znth_nonneg by lia. rewrite nth_error_skipn. f_equal. lia. }
    assert (FW : Forall F leaves').
    { apply (Permutation_Forall (Permutation_sym (ring_perm _ _ _ _ HR'))). apply window_Forall; auto. }
    destruct (tree_sum t' d Hl' Hn') as (f & g & Hfg & Hlf & Hv). { rewrite Sk. auto. }
    destruct (Hv 1%Z) as (v & Ev & Av); [lia|lia|]. rewrite (get_Some _ _ _ Ev). cbn [bind].
    assert (SumL : forall h (k : R -> R), (forall i, (1 <= i < NUM)%Z -> h i = h (2 * i)%Z + h (2 * i + 1)%Z) ->
       (forall i, (NUM <= i < 2 * NUM)%Z -> exists v, znth t' i = Some v /\ h i = k v) -> h 1%Z = Rsum (map k leaves')).
    { intros h k H1 H2. rewrite <- (frontier_sum h H1 (Z.to_nat NUM)) by lia. f_equal.
      apply nth_ext with (d := 0) (d' := 0). { rewrite !map_length, seq_length. unfold zlen in Hlen. lia. }
      rewrite map_length, seq_length. intros n Hn2. 
      rewrite (nth_indep _ 0 (h (Z.of_nat O))) by (rewrite map_length, seq_length; lia). rewrite (map_nth (fun j => h (Z.of_nat j))), seq_nth by lia.
      rewrite (nth_indep _ 0 (k 0)) by (rewrite map_length; unfold zlen in Hlen; lia). rewrite (map_nth k).
      destruct (H2 (NUM + Z.of_nat n)%Z) as (w & Ew & Eh); [lia|]. replace (Z.of_nat (Z.to_nat NUM + n)) with (NUM + Z.of_nat n)%Z by lia. rewrite Eh. f_equal.
      rewrite Hlv' in Ew by lia. rewrite znth_nonneg, Nat2Z.id in Ew by lia. symmetry. apply nth_error_nth. auto. }
    do 2 eexists. split; [reflexivity|]. split.
    + rewrite <- (Rsum_perm _ _ (ring_perm _ _ _ _ HR')), <- (absum_perm _ _ (ring_perm _ _ _ _ HR')).
      rewrite (SumL f (fun v => v)), (SumL g Rabs) in Av.
      * rewrite map_id in Av. exact Av.
      * intros i Hi. apply Hfg. auto.
      * intros i Hi. destruct (Hlf i Hi) as (w & E1 & E2 & E3). eauto.
      * intros i Hi. apply Hfg. auto.
      * intros i Hi. destruct (Hlf i Hi) as (w & E1 & E2 & E3). eauto.
    + unfold swa_inv; cbn [w_tree w_leaf]. repeat split; auto.
      * destruct (Z.leb_spec (2 * NUM) (w_leaf s + 1)); lia.
      * destruct (Z.leb_spec (2 * NUM) (w_leaf s + 1)); lia.
      * exists leaves'. rewrite Hleaf'. auto.
Qed.

(** ** SMA1: left to right *)
Lemma array_sum_round h : zlen h = NUM -> Forall F h ->
  exists v, (h0 <- get h 0 ;; for_loop (Z.to_nat (NUM - 1)) 1 (fun i sum => v <- get h i ;; Ok (add sum v)) h0) = Ok v /\
    approx (Z.to_nat (NUM - 1)) v (Rsum h) (absum h).
Proof.
  intros Hl HF. destruct h as [|h0 t]; [cbn in Hl; lia|]. rewrite zlen_cons in Hl.
  change (get (h0 :: t) 0) with (Ok h0). cbn [bind]. inversion_clear HF as [|? ? Fh Ft].
  destruct (for_loop_inv (fun i s => approx (Z.to_nat (i - 1)) s (h0 + Rsum (firstn (Z.to_nat (i - 1)) t)) (Rabs h0 + absum (firstn (Z.to_nat (i - 1)) t)))
    (fun i sum => v <- get (h0 :: t) i ;; Ok (add sum v)) (Z.to_nat (NUM - 1)) 1 h0) as (s & -> & Hs).
  - change (Z.to_nat (1 - 1)) with O. cbn [firstn]. unfold absum, Rsum, gsum. cbn [map fold_right]. rewrite !Rplus_0_r. apply approx_refl. auto.
  - intros j s Hj Hs. destruct (get_in_range (h0 :: t) j) as (v & Hv & ->). { rewrite zlen_cons; lia. }
    cbn [bind]. eexists; split; [reflexivity|].
    rewrite znth_cons in Hv. destruct (Z.eqb_spec j 0); [lia|].
    replace (Z.to_nat (j + 1 - 1)) with (Datatypes.S (Z.to_nat (j - 1))) by lia.
    rewrite znth_nonneg in Hv by lia.
    assert (E : forall n, nth_error t n = Some v -> firstn (Datatypes.S n) t = firstn n t ++ [v]).
    { clear. induction t as [|x t IH]; intros [|n] H; simpl in *; try discriminate.
      - congruence. - f_equal. now apply IH. }
    assert (Fv : F v) by (rewrite Forall_forall in Ft; apply Ft; eapply nth_error_In; eauto).
    rewrite (E _ Hv), Rsum_snoc, absum_snoc, <- !Rplus_assoc. apply approx_add; auto.
    eapply approx_mono; [|apply approx_refl; auto]. lia.
  - exists s. split; auto. replace (1 + Z.of_nat (Z.to_nat (NUM - 1)) - 1)%Z with (NUM - 1)%Z in Hs by lia.
    rewrite firstn_all2 in Hs by (unfold zlen in Hl; lia). exact Hs.
Qed.

Lemma sma1_call_round div xs s x : Forall F (xs ++ [x]) -> ring NUM (s1_inp s) (s1_pos s) (window (Z.to_nat NUM) 0 xs) ->
  exists s' v, sma1_call add div NUM s x = Ok (s', div v) /\
    approx (Z.to_nat (NUM - 1)) v (Rsum (window (Z.to_nat NUM) 0 (xs ++ [x]))) (absum (window (Z.to_nat NUM) 0 (xs ++ [x]))) /\
    ring NUM (s1_inp s') (s1_pos s') (window (Z.to_nat NUM) 0 (xs ++ [x])).
Proof.
  intros HF HR. unfold sma1_call.
  destruct (ring_push _ _ _ _ x HR) as (-> & HR'). cbn [bind]. rewrite <- window_snoc in HR' by lia.
  set (h := zupd (s1_inp s) (s1_pos s) x) in *.
  assert (Hl : zlen h = NUM) by apply HR'.
  destruct (array_sum_round h Hl) as (v & E & Av).
  { apply (Permutation_Forall (Permutation_sym (ring_perm _ _ _ _ HR'))). apply window_Forall; auto. }
  destruct (get_in_range h 0) as (h0 & _ & E0); [lia|]. rewrite E0 in *. cbn [bind] in *. rewrite E. cbn [bind].
  do 2 eexists. split; [reflexivity|]. rewrite <- (Rsum_perm _ _ (ring_perm _ _ _ _ HR')), <- (absum_perm _ _ (ring_perm _ _ _ _ HR')). split; auto.
  cbn [s1_inp s1_pos]. destruct HR as (_ & _ & Hp & _). rewrite inc_wrap by lia. auto.
Qed.

(** ** SMA2: the error grows at most linearly with the number of calls *)
Lemma sma2_call_round X div norm xs s x : 0 <= X -> u <= / 2 -> Forall F (xs ++ [x]) -> Forall (fun v => Rabs v <= X) (xs ++ [x]) ->
  delay_inv NUM 0 xs (s2_delay s) -> F (s2_sum s) -> Rabs (s2_sum s - Rsum (window (Z.to_nat NUM) 0 xs)) <= (P (length xs) - 1) * ((IZR NUM + 3) * X) ->
  exists s' v, sma2_call add sub div NUM norm s x = Ok (s', if norm then div v else v) /\
    delay_inv NUM 0 (xs ++ [x]) (s2_delay s') /\ s2_sum s' = v /\ F v /\
    Rabs (v - Rsum (window (Z.to_nat NUM) 0 (xs ++ [x]))) <= (P (length (xs ++ [x])) - 1) * ((IZR NUM + 3) * X).
Proof.
  intros HX Hu2 HF HB HD Fs He. unfold sma2_call.
  destruct (delay_old 0 Hnum xs _ x HD) as (d' & old & -> & HD' & Ew) || destruct (delay_old 0 NUM Hnum xs _ x HD) as (d' & old & -> & HD' & Ew). cbn [bind].
  do 2 eexists. split; [reflexivity|]. cbn [s2_delay s2_sum]. split; auto. split; auto.
  pose proof (proj1 (Forall_app _ _ _) HF) as [Fx Fx']. inversion_clear Fx' as [|? ? FX _].
  pose proof (proj1 (Forall_app _ _ _) HB) as [Bx Bx']. inversion_clear Bx' as [|? ? BX _].
  assert (Fo : F old). { pose proof (window_Forall F (Z.to_nat NUM) 0 xs F0 Fx) as W. rewrite Ew in W. inversion W. auto. }
  assert (B0 : Rabs 0 <= X) by (rewrite Rabs_R0; auto).
  assert (Bo : Rabs old <= X). { pose proof (window_Forall _ (Z.to_nat NUM) 0 xs B0 Bx) as W. rewrite Ew in W. inversion W. auto. }
  destruct (Hsub x old FX Fo) as (F1 & e1 & G1 & E1). destruct (Hadd (s2_sum s) _ Fs F1) as (F2 & e2 & G2 & E2). split; auto.
  set (S' := Rsum (window (Z.to_nat NUM) 0 (xs ++ [x]))).
  assert (ES : S' = Rsum (window (Z.to_nat NUM) 0 xs) + (x - old)).
  { unfold S'. rewrite window_snoc by lia. rewrite Ew. cbn [tl]. rewrite Rsum_snoc. unfold Rsum, gsum. cbn [fold_right]. lra. }
  assert (BS : Rabs S' <= IZR NUM * X).
  { unfold S'. eapply Rle_trans; [apply (Rsum_bound _ X); auto; apply window_Forall; auto|]. rewrite window_length, INR_IZR_INZ, Z2Nat.id by lia. lra. }
  set (Er := s2_sum s - Rsum (window (Z.to_nat NUM) 0 xs)) in *. set (D := x - old) in *.
  assert (BD : Rabs D <= 2 * X) by (unfold D; eapply Rle_trans; [apply rabm; eauto|lra]).
  rewrite app_length. cbn [length]. rewrite Nat.add_1_r. cbn [pow]. set (p := P (length xs)) in *. pose proof (P1 (length xs)) as P1'. fold p in P1'.
  rewrite E2, E1. replace ((s2_sum s + D * (1 + e1)) * (1 + e2) - S') with (Er + D * e1 + (S' + (Er + D * e1)) * e2) by (rewrite ES; unfold Er, D; ring).
  assert (B1 : Rabs (D * e1) <= u * (2 * X)) by (apply mulb; auto).
  assert (B2 : Rabs (Er + D * e1) <= (p - 1) * ((IZR NUM + 3) * X) + u * (2 * X)) by (apply rab; auto).
  assert (B3 : Rabs ((S' + (Er + D * e1)) * e2) <= u * (IZR NUM * X + ((p - 1) * ((IZR NUM + 3) * X) + u * (2 * X)))) by (apply mulb; auto; apply rab; auto).
  eapply Rle_trans; [apply rab; eauto|]. assert (0 <= u * X) by nra. assert (u * (u * X) <= / 2 * (u * X)) by (apply Rmult_le_compat_r; auto). lra.
Qed.
End Approx.
