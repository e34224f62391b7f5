(* Medians of slopes over the real numbers *)
From Coq Require Import Reals ZArith List Lia Lra Bool Psatz.
From Flocq Require Import Core.
From Verif Require Import Model.RobustLine Spec.Sorting Spec.LeastSquares Spec.RobustFit Proofs.BaseLemmas Proofs.RobustLineProofs.
Import ListNotations.
Open Scope R_scope.

Lemma Rlt_swo : strict_weak_order Rlt_bool.
Proof.
  split.
  - intros a. apply Rlt_bool_false. lra.
  - intros a b c H1 H2. destruct (Rlt_bool_spec a b); [|discriminate]. destruct (Rlt_bool_spec b c); [|discriminate]. apply Rlt_bool_true. lra.
  - intros a b c H. destruct (Rlt_bool_spec a b); [|discriminate]. destruct (Rlt_bool_spec a c); [left; reflexivity|right]. apply Rlt_bool_true. lra.
Qed.
Lemma Rlt_irr v : nltb Rn v v = false.
Proof. apply (swo_irrefl _ Rlt_swo). Qed.

Lemma filter_times (P : R -> bool) b l :
  (P b = false -> (length (filter P l) + times b l <= length l)%nat) /\ (P b = true -> (times b l <= length (filter P l))%nat).
Proof.
  unfold times. induction l as [|h t [I1 I2]]; cbn [filter count_occ length]; [split; intros; lia|].
  destruct (Req_EM_T h b) as [->|N]; split; intros H; try rewrite H; cbn [length].
  - specialize (I1 H). lia.
  - specialize (I2 H). lia.
  - specialize (I1 H). destruct (P h); cbn [length]; lia.
  - specialize (I2 H). destruct (P h); cbn [length]; lia.
Qed.
Lemma majority k l v b : kth_smallest Rlt_bool k l v -> (k < times b l)%nat -> (length l - times b l <= k)%nat -> v = b.
Proof.
  intros (_ & A & B) H1 H2. destruct (Rtotal_order v b) as [L|[E|G]]; [exfalso|exact E|exfalso].
  - destruct (filter_times (fun x => negb (Rlt_bool v x)) b l) as [F _]. rewrite Rlt_bool_true in F by auto. specialize (F eq_refl). lia.
  - destruct (filter_times (fun x => Rlt_bool x v) b l) as [_ F]. rewrite Rlt_bool_true in F by auto. specialize (F eq_refl). lia.
Qed.
Lemma majority_half l v b : kth_smallest Rlt_bool (length l / 2) l v -> (length l < 2 * times b l)%nat -> v = b.
Proof.
  intros K H. apply (majority _ _ _ _ K).
  - apply Nat.div_lt_upper_bound; lia.
  - apply Nat.div_le_lower_bound; lia.
Qed.

Section Data.
Variables (x y : list R).
Notation X := (el x). Notation Y := (el y).
Lemma eln_el l i : eln Rn l i = el l i. Proof. reflexivity. Qed.
Lemma pt_slope i j : pt Rn x y (slope_of Rn) i j = if Req_EM_T (X j) (X i) then [] else [(Y j - Y i) / (X j - X i)].
Proof. unfold pt, eln, el. cbn [neqb Rn n0]. destruct (Req_bool_spec (nth j x 0) (nth i x 0)), (Req_EM_T (nth j x 0) (nth i x 0)); try contradiction; reflexivity. Qed.
Lemma pt_icept i j : pt Rn x y (icept_of Rn) i j = if Req_EM_T (X j) (X i) then [] else [(X j * Y i - X i * Y j) / (X j - X i)].
Proof. unfold pt, eln, el. cbn [neqb Rn n0]. destruct (Req_bool_spec (nth j x 0) (nth i x 0)), (Req_EM_T (nth j x 0) (nth i x 0)); try contradiction; reflexivity. Qed.
Lemma col_slope n i : colL Rn x y (slope_of Rn) n i = slopes_at n X Y i.
Proof. apply flat_map_ext. intros j. apply pt_slope. Qed.
Lemma col_icept n i : colL Rn x y (icept_of Rn) n i = icepts_at n X Y i.
Proof. apply flat_map_ext. intros j. apply pt_icept. Qed.
Lemma pair_eq n : pairL Rn x y n = pair_slopes n X Y.
Proof. apply flat_map_ext. intros i. apply flat_map_ext. intros j. apply pt_slope. Qed.
End Data.

Definition slp (x y : nat -> R) (i j : nat) : R := (y j - y i) / (x j - x i).
Section Counts.
Variables (x y : nat -> R) (n : nat) (good : nat -> bool) (a b : R).
Definition cell (g : nat -> nat -> R) (i j : nat) : list R := if Req_EM_T (x j) (x i) then [] else [g i j].
Lemma row_len g i s k : (forall j, (s <= j < s + k)%nat -> x j <> x i) -> length (flat_map (cell g i) (seq s k)) = k.
Proof.
  revert s. induction k as [|k IH]; intros s H; [reflexivity|]. cbn [seq flat_map]. rewrite app_length, IH by (intros; apply H; lia).
  unfold cell. destruct (Req_EM_T (x s) (x i)) as [E|]; [exfalso; apply (H s); auto; lia|reflexivity].
Qed.
Lemma row_len_le g i s k : (length (flat_map (cell g i) (seq s k)) <= k)%nat.
Proof. revert s. induction k as [|k IH]; intros s; [cbn; lia|]. cbn [seq flat_map]. rewrite app_length. specialize (IH (S s)). unfold cell at 1. destruct (Req_EM_T (x s) (x i)); cbn [length]; lia. Qed.
Lemma row_times g i s k v : (forall j, (s <= j < s + k)%nat -> good j = true -> x j <> x i /\ g i j = v) ->
  (length (filter good (seq s k)) <= times v (flat_map (cell g i) (seq s k)))%nat.
Proof.
  revert s. induction k as [|k IH]; intros s H; [cbn; lia|]. cbn [seq flat_map filter]. unfold times in *. rewrite count_occ_app.
  assert (I : (length (filter good (seq (S s) k)) <= count_occ Req_EM_T (flat_map (cell g i) (seq (S s) k)) v)%nat) by (apply IH; intros; apply H; auto; lia).
  destruct (good s) eqn:G; [|lia]. destruct (H s ltac:(lia) G) as (N & E). unfold cell at 1. destruct (Req_EM_T (x s) (x i)) as [|]; [contradiction|].
  cbn [length count_occ]. rewrite E. destruct (Req_EM_T v v); [lia|contradiction].
Qed.
Lemma filter_split i : (i < n)%nat -> (many n good = length (filter good (seq 0 i)) + (if good i then 1 else 0) + length (filter good (seq (S i) (n - S i))))%nat.
Proof.
  intros H. unfold many. replace n with (i + S (n - S i))%nat at 1 by lia. rewrite seq_app, filter_app, app_length. cbn [Nat.add seq filter].
  destruct (good i); cbn [length]; lia.
Qed.
Lemma times_app v l l' : times v (l ++ l') = (times v l + times v l')%nat.
Proof. apply count_occ_app. Qed.
Lemma many_le : (many n good <= n)%nat.
Proof. unfold many. rewrite <- (seq_length n 0) at 2. generalize (seq 0 n). induction l as [|h t IH]; cbn; [lia|]. destruct (good h); cbn; lia. Qed.

Hypothesis distinct : forall i j, (i < n)%nat -> (j < n)%nat -> i <> j -> x i <> x j.
Lemma full_split g i : (i < n)%nat -> flat_map (cell g i) (seq 0 n) = flat_map (cell g i) (seq 0 i) ++ flat_map (cell g i) (seq (S i) (n - S i)).
Proof.
  intros H. replace n with (i + S (n - S i))%nat at 1 by lia. rewrite seq_app, flat_map_app. cbn [Nat.add seq flat_map]. unfold cell at 2.
  destruct (Req_EM_T (x i) (x i)); [reflexivity|contradiction].
Qed.
Lemma full_len g i : (i < n)%nat -> length (flat_map (cell g i) (seq 0 n)) = (n - 1)%nat.
Proof. intros H. rewrite full_split, app_length, !row_len by (auto; intros; apply distinct; lia). lia. Qed.
Lemma full_times g i v : (i < n)%nat -> good i = true -> (forall j, (j < n)%nat -> j <> i -> good j = true -> g i j = v) ->
  (many n good - 1 <= times v (flat_map (cell g i) (seq 0 n)))%nat.
Proof.
  intros H G E. rewrite (filter_split i H), G, full_split, times_app by auto.
  assert ((length (filter good (seq 0 i)) <= times v (flat_map (cell g i) (seq 0 i)))%nat) by (apply row_times; intros; split; [apply distinct|apply E]; auto; lia).
  assert ((length (filter good (seq (S i) (n - S i))) <= times v (flat_map (cell g i) (seq (S i) (n - S i))))%nat) by (apply row_times; intros; split; [apply distinct|apply E]; auto; lia).
  lia.
Qed.

Hypothesis on_line : forall i, (i < n)%nat -> good i = true -> y i = a + b * x i.
Lemma slope_good i j : (i < n)%nat -> (j < n)%nat -> i <> j -> good i = true -> good j = true -> (y j - y i) / (x j - x i) = b.
Proof. intros. rewrite !on_line by auto. field. assert (x j <> x i) by (apply distinct; auto). lra. Qed.
Lemma icept_good i j : (i < n)%nat -> (j < n)%nat -> i <> j -> good i = true -> good j = true -> (x j * y i - x i * y j) / (x j - x i) = a.
Proof. intros. rewrite !on_line by auto. field. assert (x j <> x i) by (apply distinct; auto). lra. Qed.

(** all pairs *)
Lemma pairs_count k : (k <= n)%nat ->
  (length (filter good (seq (n - k) k)) * (length (filter good (seq (n - k) k)) - 1) <=
   2 * times b (flat_map (fun i => flat_map (cell (slp x y) i) (seq (S i) (n - S i))) (seq (n - k) k)))%nat.
Proof.
  induction k as [|k IH]; intros Hk; [cbn; lia|]. replace (n - k)%nat with (S (n - S k)) in IH by lia. set (i := (n - S k)%nat) in *.
  cbn [seq flat_map filter]. rewrite times_app. specialize (IH ltac:(lia)). replace (n - S i)%nat with k by lia.
  replace (n - S i)%nat with k in IH by lia. destruct (good i) eqn:G; [|lia].
  assert (R : (length (filter good (seq (S i) k)) <= times b (flat_map (cell (slp x y) i) (seq (S i) k)))%nat).
  { apply row_times. intros j Hj Gj. split; [apply distinct; lia|]. apply slope_good; auto; lia. }
  cbn [length]. set (f := length (filter good (seq (S i) k))) in *. nia.
Qed.
End Counts.

Lemma pairs_len x y n k : (k <= n)%nat ->
  (2 * length (flat_map (fun i => flat_map (cell x (slp x y) i) (seq (S i) (n - S i))) (seq (n - k) k)) <= k * (k - 1))%nat.
Proof.
  induction k as [|k IH]; intros Hk; [cbn; lia|]. replace (n - k)%nat with (S (n - S k)) in IH by lia. set (i := (n - S k)%nat) in *.
  cbn [seq flat_map]. rewrite app_length. specialize (IH ltac:(lia)). replace (n - S i)%nat with k by lia.
  pose proof (row_len_le x (slp x y) i (S i) k). nia.
Qed.
Lemma pair_slopes_len x y n : (2 * length (pair_slopes n x y) <= n * (n - 1))%nat.
Proof. pose proof (pairs_len x y n n (le_n n)) as H. rewrite Nat.sub_diag in H. exact H. Qed.
Lemma pair_slopes_nonempty x y n i j : (i < n)%nat -> (j < n)%nat -> x i <> x j -> (1 <= length (pair_slopes n x y))%nat.
Proof.
  assert (Q : forall i j, (i < j < n)%nat -> x j <> x i -> (1 <= length (pair_slopes n x y))%nat).
  { clear. intros i j H N. assert (I : In ((y j - y i) / (x j - x i)) (pair_slopes n x y)).
    { apply in_flat_map. exists i. split; [apply in_seq; lia|]. apply in_flat_map. exists j. split; [apply in_seq; lia|].
      destruct (Req_EM_T (x j) (x i)); [contradiction|left; reflexivity]. }
    destruct (pair_slopes n x y); [contradiction|cbn; lia]. }
  intros Hi Hj N. destruct (Nat.lt_total i j) as [L|[->|L]]; [|contradiction|]; eapply Q; eauto.
Qed.
Lemma residual_times n x y good a b : (forall i, (i < n)%nat -> good i = true -> y i = a + b * x i) -> (many n good <= times a (residuals n x y b))%nat.
Proof.
  intros H. unfold many, residuals, times. assert (Q : forall s k, (s + k <= n)%nat -> (length (filter good (seq s k)) <= count_occ Req_EM_T (map (fun i => (y i - b * x i)%R) (seq s k)) a)%nat); [|apply Q; lia].
  intros s k. revert s. induction k as [|k IH]; intros s Hs; [cbn; lia|]. cbn [seq filter map count_occ]. specialize (IH (S s) ltac:(lia)).
  destruct (good s) eqn:G; cbn [length]; destruct (Req_EM_T (y s - b * x s) a) as [|N]; try lia.
  exfalso. apply N. rewrite (H s) by (auto; lia). ring.
Qed.
Lemma residuals_len n x y b : length (residuals n x y b) = n.
Proof. unfold residuals. now rewrite map_length, seq_length. Qed.
Lemma times_map (n : nat) (L : list R) good b : length L = n -> (forall i, (i < n)%nat -> good i = true -> el L i = b) -> (many n good <= times b L)%nat.
Proof.
  intros <-. unfold many, times. assert (Q : forall s, (forall i, (i < length L)%nat -> good (s + i)%nat = true -> el L i = b) -> (length (filter good (seq s (length L))) <= count_occ Req_EM_T L b)%nat); [|apply (Q O)].
  induction L as [|h t IH]; intros s H; [cbn; lia|]. cbn [length seq filter count_occ].
  assert (I : (length (filter good (seq (S s) (length t))) <= count_occ Req_EM_T t b)%nat).
  { apply IH. intros i Hi G. apply (H (S i)); [cbn; lia|]. now rewrite <- plus_n_Sm. }
  destruct (good s) eqn:G; cbn [length]; destruct (Req_EM_T h b) as [|N]; try lia. exfalso. apply N. apply (H O); [cbn; lia|now rewrite Nat.add_0_r].
Qed.
