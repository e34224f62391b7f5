From Coq Require Import Permutation Reals Lra.
From Verif Require Import Proofs.BaseLemmas Proofs.ContainerProofs Proofs.SwaProofs
  Model.Sma Spec.Containers Spec.Reduce Spec.Sums.
Open Scope Z_scope.

Section Group.
Context {A : Type} (zero : A) (add sub : A -> A -> A) (opp : A -> A).
Hypothesis add_assoc : forall a b c, add a (add b c) = add (add a b) c.
Hypothesis add_comm : forall a b, add a b = add b a.
Hypothesis add_0 : forall a, add a zero = a.
Hypothesis add_opp : forall a, add a (opp a) = zero.
Hypothesis sub_def : forall a b, sub a b = add a (opp b).

Notation S := (gsum zero add).

Lemma add_0_l a : add zero a = a. Proof. now rewrite add_comm. Qed.

Lemma gsum_app l l' : S (l ++ l') = add (S l) (S l').
Proof. induction l as [|x l IH]; simpl. - now rewrite add_0_l. - rewrite IH. apply add_assoc. Qed.

Lemma gsum_perm l l' : Permutation l l' -> S l = S l'.
Proof.
  induction 1; simpl.
  - reflexivity.
  - now rewrite IHPermutation.
  - rewrite !add_assoc. f_equal. apply add_comm.
  - now rewrite IHPermutation1.
Qed.

Lemma fold_left_gsum l : forall a, fold_left add l a = add a (S l).
Proof. induction l as [|x l IH]; intros a; simpl. - auto. - rewrite IH. now rewrite add_assoc. Qed.

Lemma reduce_gsum d l : l <> [] -> reduce add d l = S l.
Proof. destruct l; [congruence|]. intros _. simpl. apply fold_left_gsum. Qed.

Lemma opp_0 : opp zero = zero.
Proof. rewrite <- (add_0_l (opp zero)). apply add_opp. Qed.

(** ** Kahan in exact arithmetic *)
Lemma kahan_call_exact k x : k_low k = zero ->
  kahan_call add sub k x = (mkKahan (add (k_high k) x) zero, add (k_high k) x).
Proof.
  intros H. unfold kahan_call. rewrite H.
  assert (E : sub x zero = x) by (rewrite sub_def, opp_0; auto). rewrite E.
  assert (E2 : sub (sub (add (k_high k) x) (k_high k)) x = zero).
  { rewrite !sub_def. rewrite (add_comm (k_high k) x), <- (add_assoc x), add_opp, add_0. apply add_opp. }
  now rewrite E2.
Qed.

Lemma kahan_fold_exact xs : forall k, k_low k = zero ->
  fold_left (fun k x => fst (kahan_call add sub k x)) xs k = mkKahan (add (k_high k) (S xs)) zero.
Proof.
  induction xs as [|x xs IH]; intros k H; cbn [fold_left].
  - simpl. rewrite add_0. destruct k; simpl in *; congruence.
  - rewrite kahan_call_exact by auto. cbn [fst]. rewrite IH by auto. cbn [k_high]. simpl. now rewrite add_assoc.
Qed.

Lemma kahan_sum_exact xs init : kahan_sum zero add sub xs init = add init (S xs).
Proof. unfold kahan_sum. rewrite kahan_fold_exact by reflexivity. reflexivity. Qed.

(** ** SMA *)
Context (div_num : A -> A) (NUM : Z) (Hnum : 0 < NUM).
Notation W := (window (Z.to_nat NUM) zero).

Lemma window_ne xs : W xs <> [].
Proof. intros E. apply (f_equal (@length A)) in E. rewrite window_length in E. simpl in E. lia. Qed.

(** sum of an array by the loop of SMA1 *)
Lemma array_sum (f : A -> A) h : zlen h = NUM ->
  (h0 <- get h 0 ;;
   for_loop (Z.to_nat (NUM - 1)) 1 (fun i sum => v <- get h i ;; Ok (add sum (f v))) (f h0))
  = Ok (S (map f h)).
Proof.
  intros Hl. destruct h as [|h0 t]; [cbn in Hl; lia|]. rewrite zlen_cons in Hl.
  cbn [get znth bind nth_error Z.ltb Z.compare Z.to_nat].
  change (get (h0 :: t) 0) with (Ok h0). cbn [bind].
  destruct (for_loop_inv (fun i s => s = add (f h0) (S (map f (firstn (Z.to_nat (i - 1)) t))))
    (fun i sum => v <- get (h0 :: t) i ;; Ok (add sum (f v))) (Z.to_nat (NUM - 1)) 1 (f h0)) as (s & -> & Hs).
  - simpl. now rewrite add_0.
  - intros j s Hj ->. destruct (get_in_range (h0 :: t) j) as (v & Hv & ->). { rewrite zlen_cons; lia. }
    cbn [bind]. eexists; split; [reflexivity|].
    rewrite znth_cons in Hv. destruct (Z.eqb_spec j 0); [lia|].
    rewrite <- add_assoc. f_equal.
    replace (Z.to_nat (j + 1 - 1)) with (Datatypes.S (Z.to_nat (j - 1))) by lia.
    rewrite znth_nonneg in Hv by lia.
    assert (E : forall n, nth_error t n = Some v -> firstn (Datatypes.S n) t = firstn n t ++ [v]).
    { clear. induction t as [|x t IH]; intros [|n] H; simpl in *; try discriminate.
      - congruence. - f_equal. now apply IH. }
    rewrite (E _ Hv), map_app, gsum_app. simpl. rewrite add_0. reflexivity.
  - rewrite Hs, firstn_all2; [reflexivity|]. unfold zlen in Hl. lia.
Qed.

Definition sma1_inv (xs : list A) (s : sma1) : Prop :=
  ring NUM (s1_inp s) (s1_pos s) (W xs) /\ (xs <> [] -> s1_avg s = div_num (S (W xs))).

Lemma sma1_call_inv xs s x : sma1_inv xs s ->
  exists s', sma1_call add div_num NUM s x = Ok (s', div_num (S (W (xs ++ [x])))) /\ sma1_inv (xs ++ [x]) s'.
Proof.
  intros (HR & _). unfold sma1_call.
  destruct (ring_push _ _ _ _ x HR) as (-> & HR'). cbn [bind]. rewrite <- window_snoc in HR' by lia.
  set (h := zupd (s1_inp s) (s1_pos s) x) in *.
  assert (Hl : zlen h = NUM) by apply HR'.
  pose proof (array_sum (fun v => v) h Hl) as E. rewrite map_id in E. cbn beta in E.
  destruct (get_in_range h 0) as (h0 & _ & E0); [lia|]. rewrite E0 in *. cbn [bind] in *. rewrite E. cbn [bind].
  rewrite (gsum_perm _ _ (ring_perm _ _ _ _ HR')). eexists; split; [reflexivity|].
  unfold sma1_inv; cbn [s1_inp s1_avg s1_pos]. destruct HR as (_ & _ & Hp & _).
  rewrite inc_wrap by lia. auto.
Qed.

Lemma sma1_run xs : exists s, run (sma1_call add div_num NUM) (sma1_new zero NUM) xs
   = Ok (s, map (fun h => div_num (S (W h))) (prefixes xs)) /\ sma1_inv xs s.
Proof.
  apply run_inv.
  - intros h s x H. apply sma1_call_inv; auto.
  - split; [|congruence]. unfold sma1_new; cbn [s1_inp s1_pos]. rewrite window_nil. now apply ring_init.
Qed.

Lemma sma1_abs_dev_ok abs xs s : sma1_inv xs s -> xs <> [] ->
  sma1_abs_dev add sub div_num NUM abs s =
  Ok (div_num (S (map (fun v => abs (sub v (div_num (S (W xs))))) (W xs)))).
Proof.
  intros (HR & Ha) Hne. unfold sma1_abs_dev.
  pose proof (array_sum (fun v => abs (sub v (s1_avg s))) (s1_inp s) ltac:(apply HR)) as E. cbn beta in E.
  destruct (get_in_range (s1_inp s) 0) as (h0 & _ & E0). { destruct HR as (_ & ? & _); lia. }
  rewrite E0 in *. cbn [bind] in *. rewrite E. cbn [bind]. rewrite Ha by auto. do 2 f_equal.
  apply gsum_perm. apply Permutation_map. apply (ring_perm _ _ _ _ HR).
Qed.

Definition sma2_inv (xs : list A) (s : sma2) : Prop :=
  delay_inv NUM zero xs (s2_delay s) /\ s2_sum s = S (W xs).

Lemma delay_old xs d x : delay_inv NUM zero xs d ->
  exists d' old, delay_call NUM d x = Ok (d', old) /\ delay_inv NUM zero (xs ++ [x]) d' /\
    W xs = old :: tl (W xs).
Proof.
  intros H. destruct (delay_call_inv NUM Hnum zero xs d x H) as (d' & old & E & Ho & H').
  exists d', old. splits; auto.
  pose proof (window_nth (Z.to_nat NUM) zero xs 0) as E2. rewrite Nat.add_0_r, Ho in E2.
  destruct (W xs) as [|y t]; simpl in E2; [discriminate|]. injection E2 as ->. reflexivity.
Qed.

Lemma gsum_shift w old x : add (add old (S w)) (add x (opp old)) = S (w ++ [x]).
Proof.
  rewrite gsum_app. simpl. rewrite add_0.
  rewrite (add_comm old), <- add_assoc. f_equal. rewrite (add_comm x), add_assoc, add_opp. apply add_0_l.
Qed.

Lemma sma2_call_inv norm xs s x : sma2_inv xs s ->
  exists s', sma2_call add sub div_num NUM norm s x =
    Ok (s', (if norm then div_num else (fun v => v)) (S (W (xs ++ [x])))) /\ sma2_inv (xs ++ [x]) s'.
Proof.
  intros (HD & HS). unfold sma2_call. destruct (delay_old xs _ x HD) as (d' & old & -> & HD' & Ew). cbn [bind].
  assert (E : add (s2_sum s) (sub x old) = S (W (xs ++ [x]))).
  { rewrite HS, sub_def, Ew. change (S (old :: tl (W xs))) with (add old (S (tl (W xs)))). rewrite gsum_shift.
    rewrite window_snoc by lia. reflexivity. }
  rewrite E. eexists; split; [destruct norm; reflexivity|]. split; cbn; auto.
Qed.

Lemma gsum_zeros n : S (repeat zero n) = zero.
Proof. induction n; simpl; auto. now rewrite IHn. Qed.

Lemma sma2_run norm xs : exists s, run (sma2_call add sub div_num NUM norm) (sma2_new zero NUM) xs
   = Ok (s, map (fun h => (if norm then div_num else (fun v => v)) (S (W h))) (prefixes xs)) /\ sma2_inv xs s.
Proof.
  apply run_inv.
  - intros h s x H. apply sma2_call_inv; auto.
  - split; cbn [sma2_new s2_delay s2_sum]; [now apply delay_new_inv|]. rewrite window_nil, gsum_zeros. reflexivity.
Qed.

Definition sma3_inv (xs : list A) (s : sma3) : Prop :=
  delay_inv NUM zero xs (s3_delay s) /\ s3_sum s = mkKahan (S (W xs)) zero.

Lemma sma3_call_inv norm xs s x : sma3_inv xs s ->
  exists s', sma3_call add sub opp div_num NUM norm s x =
    Ok (s', (if norm then div_num else (fun v => v)) (S (W (xs ++ [x])))) /\ sma3_inv (xs ++ [x]) s'.
Proof.
  intros (HD & HS). unfold sma3_call. destruct (delay_old xs _ x HD) as (d' & old & -> & HD' & Ew). cbn [bind].
  rewrite HS. rewrite kahan_call_exact by reflexivity. rewrite kahan_call_exact by reflexivity. cbn [k_high].
  assert (E : add (add (S (W xs)) (opp old)) x = S (W (xs ++ [x]))).
  { rewrite Ew. change (S (old :: tl (W xs))) with (add old (S (tl (W xs)))).
    rewrite <- add_assoc, (add_comm (opp old)). rewrite gsum_shift.
    rewrite window_snoc by lia. reflexivity. }
  rewrite E. eexists; split; [destruct norm; reflexivity|]. split; cbn; auto.
Qed.

Lemma sma3_run norm xs : exists s, run (sma3_call add sub opp div_num NUM norm) (sma3_new zero NUM) xs
   = Ok (s, map (fun h => (if norm then div_num else (fun v => v)) (S (W h))) (prefixes xs)) /\ sma3_inv xs s.
Proof.
  apply run_inv.
  - intros h s x H. apply sma3_call_inv; auto.
  - split; cbn [sma3_new s3_delay s3_sum]; [now apply delay_new_inv|]. rewrite window_nil, gsum_zeros. reflexivity.
Qed.

Lemma sma4_run norm xs : exists s, run (sma4_call add div_num NUM norm) (sma4_new zero NUM) xs
   = Ok (s, map (fun h => (if norm then div_num else (fun v => v)) (S (W h))) (prefixes xs)).
Proof.
  destruct (run_inv (sma4_call add div_num NUM norm)
     (swa_inv add NUM zero)
     (fun h => (if norm then div_num else (fun v => v)) (S (W h)))) with (s0 := sma4_new zero NUM) (xs := xs) as (s & E & _); eauto.
  - intros h s x H. unfold sma4_call.
    destruct (swa_call_inv add NUM Hnum add_assoc add_comm zero h s x H) as (s' & -> & H').
    cbn [bind]. exists s'. split; auto. rewrite reduce_gsum by apply window_ne. destruct norm; reflexivity.
  - apply swa_new_inv; auto.
Qed.
End Group.

(** ** signed 32 bit version of SMA2, NORM = false *)
Section IntSma2.
Context (NUM : Z) (Hnum : 0 < NUM).
Notation W := (window (Z.to_nat NUM) 0).

Lemma sma2_int_run xs :
  (forall h x, (exists r, xs = h ++ x :: r) ->
     INT_MIN <= x - hd 0 (W h) <= INT_MAX /\ INT_MIN <= Zsum (W (h ++ [x])) <= INT_MAX) ->
  observe (run (sma2_int_call NUM) (sma2_new 0 NUM) xs) = Ok (map (fun h => Zsum (W h)) (prefixes xs)).
Proof.
  intros H.
  assert (G : forall ys h s, xs = h ++ ys -> sma2_inv 0 Z.add NUM h s ->
     exists s', run (sma2_int_call NUM) s ys = Ok (s', map (fun t => Zsum (W (h ++ firstn t ys))) (seq 1 (length ys)))).
  { induction ys as [|y ys IH]; intros h s Hx Hs.
    - exists s. reflexivity.
    - cbn [run length seq map]. 
      pose proof Hs as (HD & HS).
      assert (Hc : exists s1, sma2_int_call NUM s y = Ok (s1, Zsum (W (h ++ [y]))) /\ sma2_inv 0 Z.add NUM (h ++ [y]) s1).
      { unfold sma2_int_call. destruct (delay_old 0 NUM Hnum h _ y HD) as (d' & old & -> & HD' & Ew). cbn [bind].
        destruct (H h y) as [H1 H2]; [eauto|]. rewrite Ew in H1. cbn [hd] in H1.
        rewrite ichk_ok by lia. cbn [bind].
        assert (E : s2_sum s + (y - old) = Zsum (W (h ++ [y]))).
        { rewrite HS, window_snoc by lia. unfold Zsum. rewrite Ew. cbn [tl].
          pose proof (gsum_shift 0 Z.add Z.opp Z.add_assoc Z.add_comm Z.add_0_r Z.add_opp_diag_r (tl (W h)) old y) as G.
          rewrite <- G. reflexivity. }
        rewrite E, ichk_ok by lia. cbn [bind]. eexists; split; [reflexivity|]. split; cbn; auto. }
      destruct Hc as (s1 & -> & Hs1). cbn [bind].
      destruct (IH (h ++ [y]) s1) as (s2 & E2); auto. { rewrite <- app_assoc. exact Hx. }
      rewrite E2. cbn [bind]. exists s2. do 2 f_equal. cbn [firstn]. f_equal.
      rewrite <- (seq_shift (length ys) 1), map_map. apply map_ext. intros t. rewrite <- app_assoc. reflexivity. }
  destruct (G xs [] (sma2_new 0 NUM)) as (s & E); auto.
  { split; cbn [sma2_new s2_delay s2_sum]; [now apply delay_new_inv|]. rewrite window_nil.
    symmetry. apply (gsum_zeros 0 Z.add Z.add_0_r). }
  rewrite E. unfold prefixes. rewrite map_map. reflexivity.
Qed.
End IntSma2.

(** ** wrap-around arithmetic: quotient group Z / 2^w represented by uwrap *)
Section Wrap.
Context (w : Z) (Hw : 0 < w).
Lemma uwrap_add a b : uwrap w (uwrap w a + uwrap w b) = uwrap w (a + b).
Proof. unfold uwrap. now rewrite <- Zplus_mod. Qed.
Lemma uwrap_id a : uwrap w (uwrap w a) = uwrap w a.
Proof. unfold uwrap. apply Zmod_mod. Qed.
Lemma uwrap_sub a b : uwrap w (uwrap w a - uwrap w b) = uwrap w (a - b).
Proof. unfold uwrap. now rewrite <- Zminus_mod. Qed.
Lemma swrap_uwrap z : uwrap w (swrap w z) = uwrap w z.
Proof.
  unfold uwrap, swrap. rewrite Zminus_mod_idemp_l. f_equal. lia.
Qed.
Lemma swrap_of_uwrap z : swrap w (uwrap w z) = swrap w z.
Proof. unfold swrap, uwrap. now rewrite Zplus_mod_idemp_l. Qed.
Lemma swrap_congr a b : uwrap w a = uwrap w b -> swrap w a = swrap w b.
Proof. intros H. rewrite <- (swrap_of_uwrap a), <- (swrap_of_uwrap b). now rewrite H. Qed.
Lemma uwrap_of_swrap_sum a b : uwrap w (swrap w a + b) = uwrap w (a + b).
Proof. rewrite <- uwrap_add, swrap_uwrap, uwrap_add. reflexivity. Qed.

(** wrapped sum *)
Context (NUM : Z) (Hnum : 0 < NUM) (wr : Z -> Z).
Hypothesis wr_spec : forall z, uwrap w (wr z) = uwrap w z.
Hypothesis wr_congr : forall a b, uwrap w a = uwrap w b -> wr a = wr b.
Notation W := (window (Z.to_nat NUM) 0).

Lemma sma2_wrap_run xs :
  exists s, run (sma2_call (fun a b => wr (a + b)) (fun a b => wr (a - b)) (fun v => v) NUM false)
    (sma2_new 0 NUM) xs = Ok (s, map (fun h => wr (Zsum (W h))) (prefixes xs)).
Proof.
  destruct (run_inv (sma2_call (fun a b => wr (a + b)) (fun a b => wr (a - b)) (fun v => v) NUM false)
    (fun h s => delay_inv NUM 0 h (s2_delay s) /\ uwrap w (s2_sum s) = uwrap w (Zsum (W h)))
    (fun h => wr (Zsum (W h)))) with (s0 := sma2_new 0 NUM) (xs := xs) as (s & E & _); eauto.
  - intros h s x (HD & HS). unfold sma2_call.
    destruct (delay_old 0 NUM Hnum h _ x HD) as (d' & old & -> & HD' & Ew). cbn [bind].
    assert (E : uwrap w (s2_sum s + wr (x - old)) = uwrap w (Zsum (W (h ++ [x])))).
    { rewrite <- uwrap_add, HS, wr_spec, uwrap_add. f_equal. rewrite window_snoc by lia. unfold Zsum. rewrite Ew. cbn [tl].
      pose proof (gsum_shift 0 Z.add Z.opp Z.add_assoc Z.add_comm Z.add_0_r Z.add_opp_diag_r (tl (W h)) old x) as G.
      rewrite <- G. reflexivity. }
    exists (mkSma2 d' (wr (s2_sum s + wr (x - old)))). cbn [s2_delay s2_sum]. split; [|split; [exact HD'|]].
    + do 2 f_equal. apply wr_congr. exact E.
    + rewrite wr_spec. exact E.
  - split; cbn [sma2_new s2_delay s2_sum]; [now apply delay_new_inv|]. rewrite window_nil. f_equal.
    symmetry. apply (gsum_zeros 0 Z.add Z.add_0_r).
Qed.
End Wrap.

(** ** real instances *)
Lemma kahan_same_iff {A} (eqb : A -> A -> bool) (add sub : A -> A -> A) :
  (forall a b, eqb a b = true <-> a = b) ->
  forall k x, let '(k', b) := kahan_same add sub eqb k x in
    k' = fst (kahan_call add sub k x) /\ (b = true <-> k' = k).
Proof.
  intros He k x. unfold kahan_same. split; auto. unfold kahan_eq.
  rewrite andb_true_iff, !He. destruct k as [h l]. set (k' := fst _). destruct k' as [h' l']. cbn.
  split; [intros [-> ->]; auto|]. intros E. injection E as -> ->. auto.
Qed.
