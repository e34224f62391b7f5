From Verif Require Export Model.Base Spec.Window.
From Coq Require Import Permutation.

Open Scope Z_scope.
Ltac splits := repeat match goal with |- _ /\ _ => split end.

Section Lists.
Context {A : Type}.
Implicit Types l : list A.

Lemma length_upd l i v : length (upd l i v) = length l.
Proof. revert i; induction l as [|h t IH]; intros [|i]; simpl; auto. Qed.

Lemma zlen_zupd l i v : zlen (zupd l i v) = zlen l.
Proof. unfold zlen, zupd. now rewrite length_upd. Qed.

Lemma zlen_nonneg l : 0 <= zlen l.
Proof. unfold zlen; lia. Qed.

Lemma nth_error_upd_eq l i v : (i < length l)%nat -> nth_error (upd l i v) i = Some v.
Proof. revert i; induction l as [|h t IH]; intros [|i] H; simpl in *; try lia; auto. apply IH; lia. Qed.

Lemma nth_error_upd_ne l i j v : i <> j -> nth_error (upd l i v) j = nth_error l j.
Proof. revert i j; induction l as [|h t IH]; intros [|i] [|j] H; simpl; auto; try lia. Qed.

Lemma znth_zupd_eq l i v : 0 <= i < zlen l -> znth (zupd l i v) i = Some v.
Proof.
  unfold znth, zupd, zlen. intros H. destruct (Z.ltb_spec i 0); [lia|].
  apply nth_error_upd_eq. lia.
Qed.

Lemma znth_zupd_ne l i j v : 0 <= i -> i <> j -> znth (zupd l i v) j = znth l j.
Proof.
  unfold znth, zupd. intros Hi H. destruct (Z.ltb_spec j 0); [reflexivity|].
  apply nth_error_upd_ne. lia.
Qed.

Lemma znth_zupd l i j v : 0 <= i < zlen l ->
  znth (zupd l i v) j = if j =? i then Some v else znth l j.
Proof.
  intros H. destruct (Z.eqb_spec j i) as [->|Hne].
  - now apply znth_zupd_eq.
  - apply znth_zupd_ne; lia.
Qed.

Lemma znth_Some_range l i v : znth l i = Some v -> 0 <= i < zlen l.
Proof.
  unfold znth, zlen. destruct (Z.ltb_spec i 0); [discriminate|].
  intros H'. assert (nth_error l (Z.to_nat i) <> None) as Hn by congruence.
  apply nth_error_Some in Hn. lia.
Qed.

Lemma znth_in_range l i : 0 <= i < zlen l -> exists v, znth l i = Some v.
Proof.
  unfold znth, zlen. intros H. destruct (Z.ltb_spec i 0); [lia|].
  destruct (nth_error l (Z.to_nat i)) eqn:E; eauto.
  apply nth_error_None in E. lia.
Qed.

Lemma znth_out l i : ~ (0 <= i < zlen l) -> znth l i = None.
Proof.
  intros H. destruct (znth l i) eqn:E; auto. apply znth_Some_range in E. lia.
Qed.

Lemma get_in_range l i : 0 <= i < zlen l -> exists v, znth l i = Some v /\ get l i = Ok v.
Proof. intros H. destruct (znth_in_range _ _ H) as [v Hv]. exists v. unfold get. now rewrite Hv. Qed.

Lemma get_Some l i v : znth l i = Some v -> get l i = Ok v.
Proof. unfold get. now intros ->. Qed.

Lemma get_Ok l i v : get l i = Ok v -> znth l i = Some v.
Proof. unfold get. destruct (znth l i); congruence. Qed.

Lemma set_in_range l i v : 0 <= i < zlen l -> set l i v = Ok (zupd l i v).
Proof.
  intros H. unfold set. destruct (Z.leb_spec 0 i), (Z.ltb_spec i (zlen l)); simpl; auto; lia.
Qed.

Lemma set_Ok l i v l' : set l i v = Ok l' -> 0 <= i < zlen l /\ l' = zupd l i v.
Proof.
  unfold set. destruct (Z.leb_spec 0 i), (Z.ltb_spec i (zlen l)); simpl; try discriminate.
  intros H'. inversion H'. split; auto.
Qed.

Lemma list_eq_nth l l' : length l = length l' ->
  (forall i, (i < length l)%nat -> nth_error l i = nth_error l' i) -> l = l'.
Proof.
  revert l'; induction l as [|h t IH]; intros [|h' t'] Hlen H; simpl in *; try lia; auto.
  f_equal.
  - specialize (H 0%nat ltac:(lia)). simpl in H. congruence.
  - apply IH; [lia|]. intros i Hi. apply (H (S i)). lia.
Qed.

Lemma list_eq_znth l l' : zlen l = zlen l' ->
  (forall i, 0 <= i < zlen l -> znth l i = znth l' i) -> l = l'.
Proof.
  intros Hlen H. apply list_eq_nth.
  - unfold zlen in Hlen. lia.
  - intros i Hi. specialize (H (Z.of_nat i)). unfold znth, zlen in H.
    destruct (Z.ltb_spec (Z.of_nat i) 0); [lia|]. rewrite Nat2Z.id in H. apply H. lia.
Qed.

Lemma upd_out l i v : (length l <= i)%nat -> upd l i v = l.
Proof. revert i; induction l as [|h t IH]; intros [|i] H; simpl in *; auto; try lia. f_equal; apply IH; lia. Qed.

Lemma upd_app1 l l' i v : (i < length l)%nat -> upd (l ++ l') i v = upd l i v ++ l'.
Proof. revert i; induction l as [|h t IH]; intros [|i] H; simpl in *; auto; try lia. f_equal; apply IH; lia. Qed.

Lemma upd_app2 l l' i v : (length l <= i)%nat -> upd (l ++ l') i v = l ++ upd l' (i - length l) v.
Proof. revert i; induction l as [|h t IH]; intros [|i] H; simpl in *; auto; try lia. f_equal; apply IH; lia. Qed.

Lemma znth_app l l' i : 0 <= i ->
  znth (l ++ l') i = if i <? zlen l then znth l i else znth l' (i - zlen l).
Proof.
  intros Hi. unfold znth, zlen. destruct (Z.ltb_spec i 0); [lia|].
  destruct (Z.ltb_spec i (Z.of_nat (length l))).
  - apply nth_error_app1. lia.
  - rewrite nth_error_app2 by lia.
    destruct (Z.ltb_spec (i - Z.of_nat (length l)) 0); [lia|].
    f_equal. lia.
Qed.

Lemma zlen_app l l' : zlen (l ++ l') = zlen l + zlen l'.
Proof. unfold zlen. rewrite app_length. lia. Qed.

Lemma zlen_repeat (v : A) n : zlen (repeat v n) = Z.of_nat n.
Proof. unfold zlen. now rewrite repeat_length. Qed.

Lemma znth_repeat (v : A) n i : 0 <= i < Z.of_nat n -> znth (repeat v n) i = Some v.
Proof.
  intros H. unfold znth. destruct (Z.ltb_spec i 0); [lia|].
  rewrite nth_error_repeat; auto. lia.
Qed.

Lemma znth_nth_error l (i : nat) : znth l (Z.of_nat i) = nth_error l i.
Proof. unfold znth. destruct (Z.ltb_spec (Z.of_nat i) 0); [lia|]. now rewrite Nat2Z.id. Qed.

Lemma znth_nonneg l i : 0 <= i -> znth l i = nth_error l (Z.to_nat i).
Proof. intros. unfold znth. destruct (Z.ltb_spec i 0); [lia|reflexivity]. Qed.

Lemma nth_error_skipn l n i : nth_error (skipn n l) i = nth_error l (n + i).
Proof. revert l; induction n as [|n IH]; intros [|h t]; simpl; auto. now destruct i. Qed.

Lemma nth_error_firstn l n i : (i < n)%nat -> nth_error (firstn n l) i = nth_error l i.
Proof. revert l i; induction n as [|n IH]; intros [|h t] [|i] H; simpl; auto; try lia. apply IH; lia. Qed.

Lemma nth_error_nth_iff l i v d : (i < length l)%nat -> nth_error l i = Some v <-> nth i l d = v.
Proof.
  intros H. rewrite (nth_error_nth' l d H). split; congruence.
Qed.

End Lists.

Lemma bind_Ok {A B} (m : outcome A) (k : A -> outcome B) b :
  bind m k = Ok b <-> exists a, m = Ok a /\ k a = Ok b.
Proof.
  split.
  - destruct m; simpl; intros; try discriminate. eauto.
  - intros (a & -> & H). exact H.
Qed.

Lemma geti_Some {A} (l : list (option A)) i v : znth l i = Some (Some v) -> geti l i = Ok v.
Proof. unfold geti. now intros ->. Qed.

Lemma ichk_ok z : INT_MIN <= z <= INT_MAX -> ichk z = Ok z.
Proof.
  intros H. unfold ichk, int_ok. destruct (Z.leb_spec INT_MIN z), (Z.leb_spec z INT_MAX); simpl; auto; lia.
Qed.

Lemma ichk_bad z : ~ (INT_MIN <= z <= INT_MAX) -> ichk z = Undefined.
Proof.
  intros H. unfold ichk, int_ok. destruct (Z.leb_spec INT_MIN z), (Z.leb_spec z INT_MAX); simpl; auto; lia.
Qed.

Lemma prefixes_snoc {A} (xs : list A) x : prefixes (xs ++ [x]) = prefixes xs ++ [xs ++ [x]].
Proof.
  unfold prefixes. rewrite app_length. cbn [length]. rewrite Nat.add_1_r, seq_S, map_app. cbn [map].
  f_equal.
  - apply map_ext_in. intros t Ht. apply in_seq in Ht. rewrite firstn_app.
    replace (t - length xs)%nat with 0%nat by lia. cbn [firstn]. now rewrite app_nil_r.
  - rewrite firstn_all2; auto. rewrite app_length. simpl. lia.
Qed.

Lemma prefixes_length {A} (xs : list A) : length (prefixes xs) = length xs.
Proof. unfold prefixes. now rewrite map_length, seq_length. Qed.

Lemma prefixes_nth {A} (xs : list A) t : (t < length xs)%nat ->
  nth_error (prefixes xs) t = Some (firstn (S t) xs).
Proof.
  intros H. unfold prefixes.
  rewrite (map_nth_error (fun t => firstn t xs) t (seq 1 (length xs)) (d := S t)); auto.
  rewrite nth_error_nth' with (d := 0%nat) by (rewrite seq_length; lia).
  rewrite seq_nth; auto.
Qed.

(** Invariant rule for [run]: [Inv h s] relates the history so far to the state. *)
Section RunInv.
Context {S I O : Type} (step : S -> I -> outcome (S * O)).
Variable Inv : list I -> S -> Prop.
Variable spec : list I -> O.
Hypothesis Hstep : forall h s x, Inv h s ->
  exists s', step s x = Ok (s', spec (h ++ [x])) /\ Inv (h ++ [x]) s'.

Lemma run_inv_gen xs : forall h s, Inv h s ->
  exists s', run step s xs = Ok (s', map (fun t => spec (h ++ firstn t xs)) (seq 1 (length xs)))
             /\ Inv (h ++ xs) s'.
Proof.
  induction xs as [|x xs IH]; intros h s H; simpl.
  - exists s. rewrite app_nil_r. auto.
  - destruct (Hstep _ _ x H) as (s1 & Hs1 & Hi1). rewrite Hs1. simpl.
    destruct (IH _ _ Hi1) as (s2 & Hs2 & Hi2). rewrite Hs2. simpl.
    exists s2. rewrite <- app_assoc in Hi2. split; [|exact Hi2].
    do 3 f_equal. rewrite <- (seq_shift (length xs) 1), map_map. apply map_ext. intros t.
    now rewrite <- app_assoc.
Qed.

Lemma run_inv s0 xs : Inv [] s0 ->
  exists s', run step s0 xs = Ok (s', map spec (prefixes xs)) /\ Inv xs s'.
Proof.
  intros H. destruct (run_inv_gen xs _ _ H) as (s' & Hr & Hi). exists s'. split; [|exact Hi].
  rewrite Hr. unfold prefixes. now rewrite map_map.
Qed.
End RunInv.

Section ForLoop.
Context {S : Type}.
Lemma for_loop_inv (P : Z -> S -> Prop) body n : forall i s,
  P i s ->
  (forall j s, i <= j < i + Z.of_nat n -> P j s -> exists s', body j s = Ok s' /\ P (j + 1) s') ->
  exists s', for_loop n i body s = Ok s' /\ P (i + Z.of_nat n) s'.
Proof.
  induction n as [|n IH]; intros i s HP Hb.
  - exists s. simpl. rewrite Z.add_0_r. auto.
  - cbn [for_loop]. destruct (Hb i s ltac:(lia) HP) as (s1 & E & HP1). rewrite E. cbn [bind].
    destruct (IH (i + 1) s1 HP1) as (s2 & E2 & HP2).
    { intros j s' Hj. apply Hb. lia. }
    exists s2. split; auto. replace (i + Z.of_nat (Datatypes.S n)) with (i + 1 + Z.of_nat n) by lia. auto.
Qed.
End ForLoop.

(** Windows *)
Lemma window_length {A} n (pad : A) xs : length (window n pad xs) = n.
Proof. unfold window. rewrite skipn_length, app_length, repeat_length. lia. Qed.

Lemma window_nil {A} n (pad : A) : window n pad [] = repeat pad n.
Proof. unfold window. simpl. apply app_nil_r. Qed.

Lemma skipn_S_tl {A} n (l : list A) : skipn (S n) l = tl (skipn n l).
Proof. revert l; induction n as [|n IH]; intros [|h t]; auto. cbn [skipn]. now rewrite <- IH. Qed.

Lemma window_snoc {A} n (pad : A) xs x : (0 < n)%nat ->
  window n pad (xs ++ [x]) = tl (window n pad xs) ++ [x].
Proof.
  intros Hn. unfold window. rewrite app_length. cbn [length]. rewrite Nat.add_1_r.
  rewrite skipn_S_tl, app_assoc, skipn_app.
  replace (length xs - length (repeat pad n ++ xs))%nat with 0%nat by (rewrite app_length; lia).
  cbn [skipn].
  assert (Hl : (0 < length (skipn (length xs) (repeat pad n ++ xs)))%nat).
  { rewrite skipn_length, app_length, repeat_length. lia. }
  destruct (skipn (length xs) (repeat pad n ++ xs)); simpl in *; [lia|reflexivity].
Qed.

Lemma window_nth {A} n (pad : A) xs i :
  nth_error (window n pad xs) i = nth_error (repeat pad n ++ xs) (length xs + i).
Proof. unfold window. apply nth_error_skipn. Qed.

(** Entry [i] of the window, expressed through the history. *)
Lemma window_nth_full {A} n (pad : A) xs i : (i < n)%nat ->
  nth_error (window n pad xs) i =
  if (length xs + i <? n)%nat then Some pad else nth_error xs (length xs + i - n).
Proof.
  intros Hi. rewrite window_nth. destruct (Nat.ltb_spec (length xs + i) n).
  - rewrite nth_error_app1 by (rewrite repeat_length; lia). apply nth_error_repeat; lia.
  - rewrite nth_error_app2 by (rewrite repeat_length; lia). now rewrite repeat_length.
Qed.
