From Coq Require Import Permutation.
From Verif Require Import Proofs.BaseLemmas Proofs.ContainerProofs Model.Quick Spec.Sorting.
Open Scope Z_scope.

Section Quick.
Context {A : Type} (lt gt : A -> A -> bool).
Implicit Types a b : list A.

(** [a'] results from [a] by permuting cells within [l, h] *)
Definition sub (l h : Z) a a' : Prop :=
  zlen a' = zlen a /\ Permutation a a' /\
  (forall i, ~ (l <= i <= h) -> znth a' i = znth a i) /\
  (forall i, l <= i <= h -> exists j, l <= j <= h /\ znth a' i = znth a j) /\
  (forall i, l <= i <= h -> exists j, l <= j <= h /\ znth a i = znth a' j).

Lemma sub_refl l h a : sub l h a a.
Proof. unfold sub; splits; auto; intros i Hi; eauto. Qed.

Lemma sub_trans l h a b c : sub l h a b -> sub l h b c -> sub l h a c.
Proof.
  intros (L1 & P1 & F1 & S1 & T1) (L2 & P2 & F2 & S2 & T2). unfold sub; splits; try congruence.
  - eapply Permutation_trans; eauto.
  - intros i Hi. rewrite F2, F1; auto.
  - intros i Hi. destruct (S2 i Hi) as (j & Hj & ->). apply S1; auto.
  - intros i Hi. destruct (T1 i Hi) as (j & Hj & ->). apply T2; auto.
Qed.

Lemma sub_weaken l h l' h' a b : sub l h a b -> l' <= l -> h <= h' -> sub l' h' a b.
Proof.
  intros (L1 & P1 & F1 & S1 & T1) Hl Hh. unfold sub; splits; auto.
  - intros i Hi. apply F1. lia.
  - intros i Hi. destruct (Z_le_dec l i), (Z_le_dec i h); [|exists i; split; [lia|apply F1; lia]..].
    destruct (S1 i) as (j & Hj & E); [lia|]. exists j. split; [lia|auto].
  - intros i Hi. destruct (Z_le_dec l i), (Z_le_dec i h); [|exists i; split; [lia|symmetry; apply F1; lia]..].
    destruct (T1 i) as (j & Hj & E); [lia|]. exists j. split; [lia|auto].
Qed.

Lemma sub_len l h a b : sub l h a b -> zlen b = zlen a. Proof. intros H; apply H. Qed.

Lemma upd_perm_swap a : forall i j x y, nth_error a i = Some x -> nth_error a j = Some y ->
  Permutation a (upd (upd a i y) j x).
Proof.
  induction a as [|h t IH]; intros i j x y Hi Hj; [destruct i; discriminate|].
  destruct i as [|i], j as [|j]; simpl in *.
  - injection Hi as ->. injection Hj as ->. reflexivity.
  - injection Hi as ->. clear IH. revert j x Hj. induction t as [|g t IH]; intros [|j] x Hj; simpl in *; try discriminate.
    + injection Hj as ->. apply perm_swap.
    + eapply Permutation_trans; [apply perm_swap|]. eapply Permutation_trans; [|apply perm_swap].
      apply perm_skip. apply IH. exact Hj.
  - injection Hj as ->. clear IH. revert i x y Hi. induction t as [|g t IH]; intros [|i] x y Hi; simpl in *; try discriminate.
    + injection Hi as ->. apply perm_swap.
    + eapply Permutation_trans; [apply perm_swap|]. eapply Permutation_trans; [|apply perm_swap].
      apply perm_skip. apply IH. exact Hi.
  - apply perm_skip. apply IH; auto.
Qed.

Lemma qswap_ok a i j l h : 0 <= l -> h < zlen a -> l <= i <= h -> l <= j <= h ->
  exists a', qswap a i j = Ok a' /\ sub l h a a' /\
    forall k, znth a' k = if k =? j then znth a i else if k =? i then znth a j else znth a k.
Proof.
  intros Hl Hh Hi Hj. unfold qswap.
  destruct (get_in_range a i) as (x & Hx & ->); [lia|]. destruct (get_in_range a j) as (y & Hy & ->); [lia|].
  cbn [bind]. rewrite set_in_range by lia. cbn [bind]. rewrite set_in_range by (rewrite zlen_zupd; lia).
  eexists; split; [reflexivity|].
  assert (HK : forall k, znth (zupd (zupd a i y) j x) k = if k =? j then znth a i else if k =? i then znth a j else znth a k).
  { intros k. rewrite !znth_zupd by (rewrite ?zlen_zupd; lia). rewrite Hx, Hy. reflexivity. }
  split; [|exact HK].
  unfold sub; splits.
  - now rewrite !zlen_zupd.
  - unfold zupd. apply upd_perm_swap; rewrite <- znth_nonneg; auto; lia.
  - intros k Hk. rewrite HK. destruct (Z.eqb_spec k j); [lia|]. destruct (Z.eqb_spec k i); [lia|]. reflexivity.
  - intros k Hk. rewrite HK. destruct (Z.eqb_spec k j); [exists i; auto|]. destruct (Z.eqb_spec k i); [exists j; auto|]. exists k; auto.
  - intros k Hk. destruct (Z.eqb_spec k j) as [->|N].
    + exists i. split; auto. rewrite HK. destruct (Z.eqb_spec i j); [congruence|]. now rewrite Z.eqb_refl.
    + destruct (Z.eqb_spec k i) as [->|N'].
      * exists j. split; auto. rewrite HK. now rewrite Z.eqb_refl.
      * exists k. split; auto. rewrite HK. destruct (Z.eqb_spec k j); [congruence|]. destruct (Z.eqb_spec k i); congruence.
Qed.

(** ** Median of five *)
Section Median.
Context (A0 : list A) (a b c d e : Z).
Definition inr (l h x : Z) := l <= x <= h.
Context (l h : Z) (Hl : 0 <= l) (Hh : h < zlen A0).
Context (Ia : inr l h a) (Ib : inr l h b) (Ic : inr l h c) (Id : inr l h d) (Ie : inr l h e).
Context (Hdist : NoDup [a; b; c; d; e]).

Definition five_sub (X Y : list A) : Prop :=
  sub l h X Y /\ forall k, ~ In k [a; b; c; d; e] -> znth Y k = znth X k.

Definition St (X : list A) (va vb vc vd ve : A) : Prop :=
  five_sub A0 X /\ znth X a = Some va /\ znth X b = Some vb /\ znth X c = Some vc /\ znth X d = Some vd /\ znth X e = Some ve.

Lemma dist5 : a <> b /\ a <> c /\ a <> d /\ a <> e /\ b <> c /\ b <> d /\ b <> e /\ c <> d /\ c <> e /\ d <> e.
Proof.
  inversion_clear Hdist as [|? ? N1 D1]. inversion_clear D1 as [|? ? N2 D2]. inversion_clear D2 as [|? ? N3 D3].
  inversion_clear D3 as [|? ? N4 D4]. simpl in *. intuition.
Qed.

Lemma St_swap X i j : In i [a; b; c; d; e] -> In j [a; b; c; d; e] -> five_sub A0 X ->
  exists X', qswap X i j = Ok X' /\ five_sub A0 X' /\
  forall k, znth X' k = if k =? j then znth X i else if k =? i then znth X j else znth X k.
Proof.
  intros Hi Hj HH. destruct HH as [HS HF].
  assert (Hr : forall x, In x [a; b; c; d; e] -> l <= x <= h).
  { simpl. unfold inr in *. intuition; subst; auto. }
  destruct (qswap_ok X i j l h) as (X' & E & HS' & HK); auto.
  { rewrite (sub_len _ _ _ _ HS). auto. }
  exists X'. split; auto. split; auto. split.
  - eapply sub_trans; eauto.
  - intros k Hk. rewrite HK. destruct (Z.eqb_spec k j) as [->|]; [contradiction|].
    destruct (Z.eqb_spec k i) as [->|]; [contradiction|]. auto.
Qed.

Ltac eqbs := repeat match goal with |- context [?x =? ?y] => destruct (Z.eqb_spec x y); try congruence end.
Ltac swap_tac :=
  let HD := fresh "HD" in let H5 := fresh "HFIVE" in
  let G1 := fresh "G" in let G2 := fresh "G" in let G3 := fresh "G" in let G4 := fresh "G" in let G5 := fresh "G" in
  let Y := fresh "Y" in let EY := fresh "EY" in let HY := fresh "HY" in let EK := fresh "EK" in
  pose proof dist5 as HD; decompose [and] HD; clear HD;
  intros (H5 & G1 & G2 & G3 & G4 & G5);
  match goal with |- exists X', qswap ?X ?i ?j = _ /\ _ =>
    destruct (St_swap X i j) as (Y & EY & HY & EK); [simpl; tauto|simpl; tauto|exact H5|] end;
  exists Y; split; [exact EY|]; split; [exact HY|]; splits; rewrite EK; eqbs; auto.

Lemma sw_ac X v1 v2 v3 v4 v5 : St X v1 v2 v3 v4 v5 -> exists X', qswap X a c = Ok X' /\ St X' v3 v2 v1 v4 v5.
Proof. swap_tac. Qed.
Lemma sw_bd X v1 v2 v3 v4 v5 : St X v1 v2 v3 v4 v5 -> exists X', qswap X b d = Ok X' /\ St X' v1 v4 v3 v2 v5.
Proof. swap_tac. Qed.
Lemma sw_cd X v1 v2 v3 v4 v5 : St X v1 v2 v3 v4 v5 -> exists X', qswap X c d = Ok X' /\ St X' v1 v2 v4 v3 v5.
Proof. swap_tac. Qed.
Lemma sw_ab X v1 v2 v3 v4 v5 : St X v1 v2 v3 v4 v5 -> exists X', qswap X a b = Ok X' /\ St X' v2 v1 v3 v4 v5.
Proof. swap_tac. Qed.
Lemma sw_be X v1 v2 v3 v4 v5 : St X v1 v2 v3 v4 v5 -> exists X', qswap X b e = Ok X' /\ St X' v1 v5 v3 v4 v2.
Proof. swap_tac. Qed.
Lemma sw_ce X v1 v2 v3 v4 v5 : St X v1 v2 v3 v4 v5 -> exists X', qswap X c e = Ok X' /\ St X' v1 v2 v5 v4 v3.
Proof. swap_tac. Qed.
Lemma sw_bc X v1 v2 v3 v4 v5 : St X v1 v2 v3 v4 v5 -> exists X', qswap X b c = Ok X' /\ St X' v1 v3 v2 v4 v5.
Proof. swap_tac. Qed.

Lemma St_get X v1 v2 v3 v4 v5 : St X v1 v2 v3 v4 v5 ->
  get X a = Ok v1 /\ get X b = Ok v2 /\ get X c = Ok v3 /\ get X d = Ok v4 /\ get X e = Ok v5.
Proof. intros (_ & ? & ? & ? & ? & ?). splits; apply get_Some; auto. Qed.

Ltac gets H := let a := fresh in let b := fresh in let c := fresh in let d := fresh in let e := fresh in
  destruct (St_get _ _ _ _ _ _ H) as (a & b & c & d & e); rewrite ?a, ?b, ?c, ?d, ?e; cbn [bind]; clear a b c d e.

(** pure five-value version: what the comparisons do *)
Definition med1 (t : A * A * A * A * A) := let '(v1, v2, v3, v4, v5) := t in if lt v3 v1 then (v3, v2, v1, v4, v5) else t.
Definition med2 (t : A * A * A * A * A) := let '(v1, v2, v3, v4, v5) := t in if lt v4 v2 then (v1, v4, v3, v2, v5) else t.
Definition med3 (t : A * A * A * A * A) := let '(v1, v2, v3, v4, v5) := t in if lt v4 v3 then (v2, v1, v4, v3, v5) else t.
Definition med4 (t : A * A * A * A * A) := let '(v1, v2, v3, v4, v5) := t in if lt v5 v2 then (v1, v5, v3, v4, v2) else t.
Definition med5 (t : A * A * A * A * A) := let '(v1, v2, v3, v4, v5) := t in
  if lt v5 v3 then (if lt v5 v1 then (v5, v2, v1, v4, v3) else (v1, v2, v5, v4, v3))
  else if lt v3 v2 then (v1, v3, v2, v4, v5) else t.

Definition St' (X : list A) (t : A * A * A * A * A) : Prop := let '(v1, v2, v3, v4, v5) := t in St X v1 v2 v3 v4 v5.

Lemma qmedian_St t : St' A0 t -> exists X, qmedian lt A0 a b c d e = Ok X /\ St' X (med5 (med4 (med3 (med2 (med1 t))))).
Proof.
  destruct t as [[[[v1 v2] v3] v4] v5]. unfold St' at 1. intros H0. unfold qmedian. gets H0.
  assert (S1 : exists X1, (if lt v3 v1 then qswap A0 a c else Ok A0) = Ok X1 /\ St' X1 (med1 (v1, v2, v3, v4, v5))).
  { unfold med1. destruct (lt v3 v1); [apply sw_ac; auto|exists A0; auto]. }
  destruct S1 as (X1 & -> & S1). cbn [bind]. destruct (med1 _) as [[[[w1 w2] w3] w4] w5]. unfold St' in S1.
  clear H0 v1 v2 v3 v4 v5. gets S1.
  assert (S2 : exists X, (if lt w4 w2 then qswap X1 b d else Ok X1) = Ok X /\ St' X (med2 (w1, w2, w3, w4, w5))).
  { unfold med2. destruct (lt w4 w2); [apply sw_bd; auto|exists X1; auto]. }
  destruct S2 as (X2 & -> & S2). cbn [bind]. destruct (med2 _) as [[[[v1 v2] v3] v4] v5]. unfold St' in S2.
  clear S1 w1 w2 w3 w4 w5. gets S2.
  assert (S3 : exists X, (if lt v4 v3 then (T <- qswap X2 c d ;; qswap T a b) else Ok X2) = Ok X /\ St' X (med3 (v1, v2, v3, v4, v5))).
  { unfold med3. destruct (lt v4 v3); [|exists X2; auto].
    destruct (sw_cd _ _ _ _ _ _ S2) as (T & -> & HT). cbn [bind]. apply sw_ab. auto. }
  destruct S3 as (X3 & -> & S3). cbn [bind]. destruct (med3 _) as [[[[w1 w2] w3] w4] w5]. unfold St' in S3.
  clear S2 v1 v2 v3 v4 v5. gets S3.
  assert (S4 : exists X, (if lt w5 w2 then qswap X3 b e else Ok X3) = Ok X /\ St' X (med4 (w1, w2, w3, w4, w5))).
  { unfold med4. destruct (lt w5 w2); [apply sw_be; auto|exists X3; auto]. }
  destruct S4 as (X4 & -> & S4). cbn [bind]. destruct (med4 _) as [[[[v1 v2] v3] v4] v5]. unfold St' in S4.
  clear S3 w1 w2 w3 w4 w5. gets S4. unfold med5.
  destruct (lt v5 v3).
  - destruct (sw_ce _ _ _ _ _ _ S4) as (X5 & -> & S5). cbn [bind]. gets S5. destruct (lt v5 v1).
    + apply sw_ac. auto.
    + exists X5. auto.
  - destruct (lt v3 v2).
    + apply sw_bc; auto.
    + exists X4; auto.
Qed.

Lemma St_start : exists t, St' A0 t.
Proof.
  unfold inr in *.
  destruct (znth_in_range A0 a) as (v1 & ?); [lia|]. destruct (znth_in_range A0 b) as (v2 & ?); [lia|].
  destruct (znth_in_range A0 c) as (v3 & ?); [lia|]. destruct (znth_in_range A0 d) as (v4 & ?); [lia|].
  destruct (znth_in_range A0 e) as (v5 & ?); [lia|].
  exists (v1, v2, v3, v4, v5). unfold St', St. splits; auto. split; auto. apply sub_refl.
Qed.

Lemma qmedian_sub : exists X, qmedian lt A0 a b c d e = Ok X /\ five_sub A0 X.
Proof.
  destruct St_start as (t & Ht). destruct (qmedian_St t Ht) as (X & E & HX). exists X. split; auto.
  destruct (med5 _) as [[[[? ?] ?] ?] ?]. apply HX.
Qed.

Hypothesis swo : strict_weak_order lt.
Notation le x y := (lt y x = false).

Lemma le_trans x y z : le x y -> le y z -> le x z.
Proof.
  intros H1 H2. destruct (lt z x) eqn:E; auto. destruct (swo_negtrans lt swo z x y E); congruence.
Qed.
Lemma lt_le x y : lt x y = true -> le x y.
Proof.
  intros H. destruct (lt y x) eqn:E; auto. pose proof (swo_trans lt swo x y x H E). rewrite (swo_irrefl lt swo) in *. discriminate.
Qed.

Definition Med (t : A * A * A * A * A) : Prop :=
  let '(v1, v2, v3, v4, v5) := t in le v1 v3 /\ le v2 v3 /\ le v3 v4 /\ le v3 v5.

Lemma med_all t : Med (med5 (med4 (med3 (med2 (med1 t))))).
Proof.
  assert (H1 : forall t, let '(v1, v2, v3, v4, v5) := med1 t in le v1 v3).
  { intros [[[[v1 v2] v3] v4] v5]. simpl. destruct (lt v3 v1) eqn:E; auto. now apply lt_le. }
  assert (H2 : forall t, (let '(v1, v2, v3, v4, v5) := t in le v1 v3) ->
     let '(v1, v2, v3, v4, v5) := med2 t in le v1 v3 /\ le v2 v4).
  { intros [[[[v1 v2] v3] v4] v5]. simpl. destruct (lt v4 v2) eqn:E; auto. intros; split; auto. now apply lt_le. }
  assert (H3 : forall t, (let '(v1, v2, v3, v4, v5) := t in le v1 v3 /\ le v2 v4) ->
     let '(v1, v2, v3, v4, v5) := med3 t in le v1 v3 /\ le v2 v4 /\ le v3 v4).
  { intros [[[[v1 v2] v3] v4] v5]. simpl. destruct (lt v4 v3) eqn:E; intros [? ?]; splits; auto. now apply lt_le. }
  assert (H4 : forall t, (let '(v1, v2, v3, v4, v5) := t in le v1 v3 /\ le v2 v4 /\ le v3 v4) ->
     let '(v1, v2, v3, v4, v5) := med4 t in le v1 v3 /\ le v2 v4 /\ le v3 v4 /\ le v2 v5).
  { intros [[[[v1 v2] v3] v4] v5]. simpl. destruct (lt v5 v2) eqn:E; intros (? & ? & ?); splits; auto.
    - eapply le_trans; [apply lt_le; exact E|auto]. - now apply lt_le. }
  specialize (H1 t). specialize (H2 _ H1). specialize (H3 _ H2). specialize (H4 _ H3).
  destruct (med4 _) as [[[[v1 v2] v3] v4] v5]. destruct H4 as (Q1 & Q2 & Q3 & Q4). simpl.
  destruct (lt v5 v3) eqn:E1; [destruct (lt v5 v1) eqn:E2|destruct (lt v3 v2) eqn:E2]; simpl; splits; auto.
  - now apply lt_le.
  - eapply le_trans; [exact Q4|]. now apply lt_le.
  - eapply le_trans; eauto.
  - eapply le_trans; [apply lt_le; exact E1|auto].
  - now apply lt_le.
  - eapply le_trans; [exact Q1|]. now apply lt_le.
  - now apply lt_le.
Qed.

Lemma qmedian_median : exists X va vb vc vd ve, qmedian lt A0 a b c d e = Ok X /\ five_sub A0 X /\
  znth X a = Some va /\ znth X b = Some vb /\ znth X c = Some vc /\ znth X d = Some vd /\ znth X e = Some ve /\
  le va vc /\ le vb vc /\ le vc vd /\ le vc ve.
Proof.
  destruct St_start as (t & Ht). destruct (qmedian_St t Ht) as (X & E & HX).
  pose proof (med_all t) as HM.
  destruct (med5 _) as [[[[v1 v2] v3] v4] v5]. exists X, v1, v2, v3, v4, v5.
  destruct HX as (? & ? & ? & ? & ? & ?), HM as (? & ? & ? & ?). splits; auto.
Qed.
End Median.

(** ** Partition *)
Definition zall (P : A -> Prop) a (l h : Z) : Prop := forall i x, l <= i <= h -> znth a i = Some x -> P x.

Lemma zall_frame P a a' l h : (forall i, l <= i <= h -> znth a' i = znth a i) -> zall P a l h -> zall P a' l h.
Proof. intros H1 H2 i x Hi Hx. rewrite H1 in Hx by auto. eapply H2; eauto. Qed.

(** If the comparison classifies every value, the loop ends with a three way split. *)
Lemma qpart_loop_ok p l0 h0 fuel : forall a i l h,
  0 <= l0 -> h0 < zlen a -> l0 <= l -> l <= i -> h <= h0 -> i <= h + 1 -> h - i < Z.of_nat fuel ->
  zall (fun x => lt x p = true) a l0 (l - 1) ->
  zall (fun x => lt x p = false /\ gt x p = false) a l (i - 1) ->
  zall (fun x => gt x p = true) a (h + 1) h0 ->
  exists a' l' h', qpart_loop lt gt fuel a i l h p = Ok (a', l', h') /\ sub l0 h0 a a' /\
    l0 <= l' /\ h' <= h0 /\ l' <= h' + 1 /\
    zall (fun x => lt x p = true) a' l0 (l' - 1) /\
    zall (fun x => lt x p = false /\ gt x p = false) a' l' h' /\
    zall (fun x => gt x p = true) a' (h' + 1) h0.
Proof.
  induction fuel as [|f IH]; intros a i l h Hl0 Hh0 Hl Hi Hh Hih Hf ZL ZE ZG; cbn [qpart_loop].
  - destruct (Z.leb_spec i h); [lia|]. exists a, l, h. splits; auto; try lia. apply sub_refl.
    intros j x Hj Hx. apply (ZE j x); auto. lia.
  - destruct (Z.leb_spec i h).
    + destruct (get_in_range a i) as (x & Hx & ->); [lia|]. cbn [bind]. destruct (lt x p) eqn:Elt.
      * destruct (qswap_ok a i l l0 h0) as (a1 & -> & HS & HK); [lia|lia|lia|lia|]. cbn [bind].
        destruct (IH a1 (i + 1) (l + 1) h) as (a' & l' & h' & E & HS' & R); auto; try lia.
        { rewrite (sub_len _ _ _ _ HS). auto. }
        { intros j y Hj Hy. rewrite HK in Hy. destruct (Z.eqb_spec j l); [congruence|].
          destruct (Z.eqb_spec j i); [lia|]. apply (ZL j y); auto. lia. }
        { intros j y Hj Hy. rewrite HK in Hy. destruct (Z.eqb_spec j l); [lia|].
          destruct (Z.eqb_spec j i) as [->|].
          - destruct (Z.eq_dec l i); [lia|]. apply (ZE l y); auto. lia.
          - apply (ZE j y); auto. lia. }
        { intros j y Hj Hy. rewrite HK in Hy. destruct (Z.eqb_spec j l); [lia|].
          destruct (Z.eqb_spec j i); [lia|]. apply (ZG j y); auto. }
        exists a', l', h'. split; auto. split; auto. eapply sub_trans; eauto.
      * destruct (gt x p) eqn:Egt.
        -- destruct (qswap_ok a i h l0 h0) as (a1 & -> & HS & HK); [lia|lia|lia|lia|]. cbn [bind].
           destruct (IH a1 i l (h - 1)) as (a' & l' & h' & E & HS' & R); auto; try lia.
           { rewrite (sub_len _ _ _ _ HS). auto. }
           { intros j y Hj Hy. rewrite HK in Hy. destruct (Z.eqb_spec j h); [lia|].
             destruct (Z.eqb_spec j i); [lia|]. apply (ZL j y); auto. }
           { intros j y Hj Hy. rewrite HK in Hy. destruct (Z.eqb_spec j h); [lia|].
             destruct (Z.eqb_spec j i); [lia|]. apply (ZE j y); auto. }
           { intros j y Hj Hy. rewrite HK in Hy. destruct (Z.eqb_spec j h); [congruence|].
             destruct (Z.eqb_spec j i); [lia|]. apply (ZG j y); auto. lia. }
           exists a', l', h'. split; auto. split; auto. eapply sub_trans; eauto.
        -- apply IH; auto; try lia. intros j y Hj Hy. destruct (Z.eq_dec j i) as [->|].
           ++ split; congruence.
           ++ apply (ZE j y); auto. lia.
    + exists a, l, h. splits; auto; try lia. apply sub_refl.
      intros j x Hj Hx. apply (ZE j x); auto. lia.
Qed.

Hypothesis lt_irrefl : forall x, lt x x = false.
Hypothesis gt_irrefl : forall x, gt x x = false.

Lemma div_facts n : 32 <= n -> 8 <= n / 4 /\ n / 4 < n / 2 /\ n / 2 + n / 4 < n.
Proof.
  intros H. pose proof (Z.div_mod n 4 ltac:(lia)). pose proof (Z.mod_pos_bound n 4 ltac:(lia)).
  pose proof (Z.div_mod n 2 ltac:(lia)). pose proof (Z.mod_pos_bound n 2 ltac:(lia)). lia.
Qed.

Lemma five_nodup l h : 32 <= h - l ->
  NoDup [l; l + (h - l) / 4; l + (h - l) / 2; l + (h - l) / 2 + (h - l) / 4; h].
Proof.
  intros H. pose proof (div_facts (h - l) H).
  repeat constructor; simpl; intuition lia.
Qed.

Lemma qpartition_gen a l h : 0 <= l -> h < zlen a -> 32 <= h - l ->
  exists a1 p a' l' h',
    let m := l + (h - l) / 2 in
    qmedian lt a l (l + (h - l) / 4) m (m + (h - l) / 4) h = Ok a1 /\ sub l h a a1 /\ znth a1 m = Some p /\
    qpartition lt gt a l h = Ok (a', l', h') /\ sub l h a a' /\ sub l h a1 a' /\
    l <= l' /\ h' <= h /\ l' <= h' /\
    zall (fun x => lt x p = true) a' l (l' - 1) /\
    zall (fun x => lt x p = false /\ gt x p = false) a' l' h' /\
    zall (fun x => gt x p = true) a' (h' + 1) h.
Proof.
  intros Hl Hh Hlen. pose proof (div_facts _ Hlen) as HD. unfold qpartition.
  destruct (qmedian_sub a l (l + (h - l) / 4) (l + (h - l) / 2) (l + (h - l) / 2 + (h - l) / 4) h l h)
    as (a1 & E & HS1 & _); try (unfold inr; lia). { now apply five_nodup. }
  rewrite E. cbn [bind].
  pose proof (sub_len _ _ _ _ HS1) as L1.
  destruct (get_in_range a1 (l + (h - l) / 2)) as (p & Hp & ->); [lia|]. cbn [bind].
  destruct (qpart_loop_ok p l h (Z.to_nat (h - l + 1)) a1 l l h) as (a' & l' & h' & E' & HS' & R1 & R2 & R3 & Z1 & Z2 & Z3); try lia;
    try (intros j y Hj; lia).
  exists a1, p, a', l', h'. cbn zeta. splits; auto.
  - eapply sub_trans; eauto.
  - (* the pivot is somewhere in the middle zone *)
    destruct (Z_le_dec l' h'); auto. exfalso.
    assert (HP : zall (fun x => lt x p = true \/ gt x p = true) a' l h).
    { intros j y Hj Hy. destruct (Z_le_dec j (l' - 1)).
      - left. eapply Z1; eauto; lia.
      - right. eapply Z3; eauto; lia. }
    (* p occurs in a' within [l,h]: use permutation and frame *)
    assert (Hin : exists j, l <= j <= h /\ znth a' j = Some p).
    { destruct HS' as (_ & _ & _ & _ & T'). destruct (T' (l + (h - l) / 2)) as (j & Hj & Ej); [lia|].
      exists j. split; auto. congruence. }
    destruct Hin as (j & Hj & Hjp). destruct (HP j p Hj Hjp); congruence.
Qed.

(** ** Insertion sort *)
(** inner loop: whatever the comparison says, [a] with [t] stored at [j] stays a permutation *)
Lemma upd_upd (a : list A) i x y : upd (upd a i x) i y = upd a i y.
Proof. revert i. induction a as [|z a IH]; intros [|i]; simpl; auto. now rewrite IH. Qed.

Lemma zupd_zupd (a : list A) i x y : zupd (zupd a i x) i y = zupd a i y.
Proof. apply upd_upd. Qed.

Lemma upd_same (a : list A) i x : nth_error a i = Some x -> upd a i x = a.
Proof. revert i. induction a as [|z a IH]; intros [|i] H; simpl in *; try discriminate; [congruence|]. now rewrite IH. Qed.

Lemma zupd_same (a : list A) i x : znth a i = Some x -> zupd a i x = a.
Proof.
  intros H. pose proof (znth_Some_range _ _ _ H). apply upd_same. rewrite <- znth_nonneg; auto. lia.
Qed.

(** moving the hole from j to j-1 is a swap *)
Lemma hole_swap (a : list A) j t y l h : 0 <= l -> h < zlen a -> l < j <= h -> znth a (j - 1) = Some y ->
  sub l h (zupd a j t) (zupd (zupd a j y) (j - 1) t).
Proof.
  intros Hl Hh Hj Hy. destruct (qswap_ok (zupd a j t) j (j - 1) l h) as (a' & E & HS & HK); rewrite ?zlen_zupd; try lia.
  replace (zupd (zupd a j y) (j - 1) t) with a'; auto.
  apply list_eq_znth.
  - rewrite (sub_len _ _ _ _ HS), !zlen_zupd. auto.
  - intros k. rewrite HK. rewrite !znth_zupd by (rewrite ?zlen_zupd; lia).
    destruct (Z.eqb_spec k (j - 1)).
    + now rewrite Z.eqb_refl.
    + destruct (Z.eqb_spec k j); auto. destruct (Z.eqb_spec (j - 1) j); [lia|]. auto.
Qed.

Notation le x y := (lt y x = false).

(** The state after the inner loop: [j] is the insertion point, the cells above were shifted. *)
Lemma qins_inner_ok l h t fuel : forall a j, 0 <= l -> h < zlen a -> l <= j <= h -> j - l <= Z.of_nat fuel ->
  exists a' j', qins_inner lt fuel a l j t = Ok (a', j') /\ l <= j' <= j /\ zlen a' = zlen a /\
    sub l j (zupd a j t) (zupd a' j' t) /\
    (forall k, k <= j' - 1 \/ j < k -> znth a' k = znth a k) /\
    (forall k, j' < k <= j -> znth a' k = znth a (k - 1)) /\
    (forall k y, j' < k <= j -> znth a' k = Some y -> lt t y = true) /\
    (forall y, l < j' -> znth a (j' - 1) = Some y -> lt t y = false).
Proof.
  induction fuel as [|f IH]; intros a j Hl Hh Hj Hf; cbn [qins_inner].
  - destruct (Z.ltb_spec l j); [lia|]. exists a, j. splits; auto; try lia; try apply sub_refl; intros; lia.
  - destruct (Z.ltb_spec l j).
    2:{ exists a, j. splits; auto; try lia; try apply sub_refl; intros; lia. }
    destruct (get_in_range a (j - 1)) as (y & Hy & ->); [lia|]. cbn [bind]. destruct (lt t y) eqn:E.
    2:{ exists a, j. splits; auto; try lia; try apply sub_refl; intros; try lia. congruence. }
    rewrite set_in_range by lia. cbn [bind].
    destruct (IH (zupd a j y) (j - 1)) as (a' & j' & -> & Hj' & L & HS & F1 & F2 & F3 & F4); rewrite ?zlen_zupd; try lia.
    rewrite zlen_zupd in L.
    exists a', j'. splits; auto; try lia.
    + eapply sub_trans; [apply (hole_swap a j t y); auto; lia|]. eapply sub_weaken; eauto; lia.
    + intros k Hk. rewrite F1 by lia. apply znth_zupd_ne; lia.
    + intros k Hk. destruct (Z.eq_dec k j) as [->|].
      * rewrite F1 by lia. rewrite znth_zupd_eq by lia. auto.
      * rewrite F2 by lia. apply znth_zupd_ne; lia.
    + intros k z Hk Hz. destruct (Z.eq_dec k j) as [->|].
      * rewrite F1 in Hz by lia. rewrite znth_zupd_eq in Hz by lia. congruence.
      * apply (F3 k z); auto. lia.
    + intros z Hz1 Hz2. apply F4; auto. rewrite znth_zupd_ne by lia. auto.
Qed.

(** [a] is ascending on positions l..h *)
Definition asc (a : list A) (l h : Z) : Prop :=
  forall i j x y, l <= i -> i < j -> j <= h -> znth a i = Some x -> znth a j = Some y -> le x y.

Lemma qinsertion_gen a l h : 0 <= l -> l <= h -> h < zlen a ->
  exists a', qinsertion lt a l h = Ok a' /\ sub l h a a' /\ (strict_weak_order lt -> asc a' l h).
Proof.
  intros Hl Hlh Hh. unfold qinsertion.
  destruct (for_loop_inv (fun i b => l + 1 <= i <= h + 1 /\ sub l h a b /\ (strict_weak_order lt -> asc b l (i - 1)))
    (fun i a => t <- get a i ;; '(a, j) <- qins_inner lt (Z.to_nat (i - l)) a l i t ;; set a j t)
    (Z.to_nat (h - l)) (l + 1) a) as (a' & E & H1 & H2 & H3).
  - splits; try lia. apply sub_refl. intros _ i j x y ? ? ? _ _. lia.
  - intros i b Hi (Hr & HS & HA).
    pose proof (sub_len _ _ _ _ HS) as L.
    destruct (get_in_range b i) as (t & Ht & ->); [lia|]. cbn [bind].
    destruct (qins_inner_ok l h t (Z.to_nat (i - l)) b i) as (b' & j & -> & Hj & L' & HS' & F1 & F2 & F3 & F4); try lia.
    cbn [bind]. rewrite set_in_range by lia. eexists; split; [reflexivity|]. splits; try lia.
    + rewrite zupd_same in HS' by auto. eapply sub_trans; [eauto|]. eapply sub_weaken; eauto; lia.
    + intros W. specialize (HA W). replace (i + 1 - 1) with i by lia.
      intros p q x y Hp Hpq Hq Hx Hy.
      rewrite znth_zupd in Hx, Hy by lia.
      destruct (Z.eqb_spec q j) as [->|Nq].
      * injection Hy as <-. destruct (Z.eqb_spec p j); [lia|]. rewrite F1 in Hx by lia.
        assert (Hy : exists y, znth b (j - 1) = Some y) by (apply znth_in_range; lia). destruct Hy as [y Hy].
        pose proof (F4 y ltac:(lia) Hy) as Hty.
        destruct (Z.eq_dec p (j - 1)) as [->|]; [congruence|].
        apply (le_trans W x y t); [|exact Hty]. apply (HA p (j - 1)); auto; lia.
      * destruct (Z.eqb_spec p j) as [->|Np].
        -- injection Hx as <-. apply lt_le; auto. apply (F3 q y); auto; lia.
        -- destruct (Z_lt_dec q j).
           ++ rewrite F1 in Hx, Hy by lia. apply (HA p q); auto; lia.
           ++ rewrite F2 in Hy by lia. destruct (Z_lt_dec p j).
              ** rewrite F1 in Hx by lia. apply (HA p (q - 1)); auto; lia.
              ** rewrite F2 in Hx by lia. apply (HA (p - 1) (q - 1)); auto; lia.
  - exists a'. splits; auto. intros W. specialize (H3 W). replace h with (l + 1 + Z.of_nat (Z.to_nat (h - l)) - 1) by lia. auto.
Qed.

(** ** Sort *)
Lemma zall_sub P l h l' h' a b : sub l' h' a b -> l <= l' -> h' <= h -> zall P a l h -> zall P b l h.
Proof.
  intros HS H1 H2 H i x Hi Hx. apply (sub_weaken _ _ l h) in HS; auto. destruct HS as (_ & _ & _ & S & _).
  destruct (S i Hi) as (j & Hj & E). apply (H j x); auto. congruence.
Qed.

Lemma zall_sub_out P l h l' h' a b : sub l' h' a b -> h < l' \/ h' < l -> zall P a l h -> zall P b l h.
Proof.
  intros HS H1 H i x Hi Hx. destruct HS as (_ & _ & F & _). apply (H i x); auto. rewrite <- F; auto. lia.
Qed.

Lemma asc_out l h l' h' a b : sub l' h' a b -> h < l' \/ h' < l -> asc a l h -> asc b l h.
Proof.
  intros HS H1 H i j x y ? ? ? Hx Hy. destruct HS as (_ & _ & F & _). rewrite F in Hx, Hy by lia. apply (H i j); auto.
Qed.

Definition gt_flips := forall x y, gt x y = lt y x.

Lemma qsort_gen fuel : forall a l h, 0 <= l -> h < zlen a -> h - l + 1 <= Z.of_nat fuel ->
  exists a', qsort lt gt fuel a l h = Ok a' /\ sub l h a a' /\ (strict_weak_order lt -> gt_flips -> asc a' l h).
Proof.
  induction fuel as [|f IH]; intros a l h Hl Hh Hf; cbn [qsort].
  - destruct (Z.ltb_spec l h); [lia|]. exists a. splits; auto. apply sub_refl. intros _ _ i j; lia.
  - destruct (Z.ltb_spec l h).
    2:{ exists a. splits; auto. apply sub_refl. intros _ _ i j; lia. }
    destruct (Z.ltb_spec (h - l) 32).
    { destruct (qinsertion_gen a l h) as (a' & E & HS & HA); try lia. exists a'. splits; auto. }
    destruct (qpartition_gen a l h) as (a1 & p & a2 & l' & h' & _ & _ & _ & -> & HS & _ & R1 & R2 & R3 & Z1 & Z2 & Z3); try lia.
    cbn [bind]. pose proof (sub_len _ _ _ _ HS) as L.
    destruct (IH a2 l (l' - 1)) as (a3 & -> & HS3 & HA3); try lia. cbn [bind].
    pose proof (sub_len _ _ _ _ HS3) as L3.
    destruct (IH a3 (h' + 1) h) as (a4 & -> & HS4 & HA4); try lia.
    exists a4. splits; auto.
    + eapply sub_trans; [eauto|]. eapply sub_trans; eapply sub_weaken; eauto; lia.
    + intros W G. specialize (HA3 W G). specialize (HA4 W G).
      apply (asc_out _ _ _ _ _ _ HS4) in HA3; [|lia].
      assert (B1 : zall (fun x => lt x p = true) a4 l (l' - 1)).
      { eapply zall_sub_out; [eauto|lia|]. eapply zall_sub; [eauto|lia|lia|auto]. }
      assert (B2 : zall (fun x => lt x p = false /\ gt x p = false) a4 l' h').
      { eapply zall_sub_out; [eauto|lia|]. eapply zall_sub_out; [eauto|lia|auto]. }
      assert (B3 : zall (fun x => gt x p = true) a4 (h' + 1) h).
      { eapply zall_sub; [eauto|lia|lia|]. eapply zall_sub_out; [eauto|lia|auto]. }
      intros i j x y Hi Hij Hj Hx Hy.
      assert (C : forall k z, l <= k <= h -> znth a4 k = Some z ->
        (k <= l' - 1 -> lt z p = true) /\ (l' <= k <= h' -> le p z /\ le z p) /\ (h' < k -> lt p z = true)).
      { intros k z Hk Hz. splits; intros Hr.
        - apply (B1 k z); auto. lia.
        - destruct (B2 k z Hr Hz) as [? Q]. rewrite G in Q. auto.
        - rewrite <- G. apply (B3 k z); auto. lia. }
      destruct (C i x ltac:(lia) Hx) as (C1 & C2 & C3). destruct (C j y ltac:(lia) Hy) as (D1 & D2 & D3).
      destruct (Z_le_dec j (l' - 1)); [apply (HA3 i j); auto; lia|].
      destruct (Z_lt_dec h' i); [apply (HA4 i j); auto; lia|].
      assert (X : le x p). { destruct (Z_le_dec i (l' - 1)); [apply lt_le; auto|apply C2; lia]. }
      assert (Y : le p y). { destruct (Z_lt_dec h' j); [apply lt_le; auto|apply D2; lia]. }
      eapply le_trans; eauto.
Qed.

(** ** Select *)
(** [k] splits [l,h]: nothing before is larger, nothing after is smaller *)
Definition split_at (a : list A) (l h k : Z) : Prop :=
  forall v, znth a k = Some v -> zall (fun x => le x v) a l (k - 1) /\ zall (fun x => le v x) a (k + 1) h.

Lemma qselect_gen fuel k : forall a l h, 0 <= l -> h < zlen a -> h - l + 1 <= Z.of_nat fuel -> l <= k <= h ->
  exists a', qselect lt gt fuel a l h k = Ok a' /\ sub l h a a' /\ (strict_weak_order lt -> gt_flips -> split_at a' l h k).
Proof.
  induction fuel as [|f IH]; intros a l h Hl Hh Hf Hk; cbn [qselect]; [lia|].
  destruct (Z.ltb_spec l h).
  2:{ exists a. splits; auto. apply sub_refl. intros _ _ v Hv. split; intros i x Hi; lia. }
  destruct (Z.ltb_spec (h - l) 32).
  { destruct (qinsertion_gen a l h) as (a' & E & HS & HA); try lia. exists a'. splits; auto.
    intros W _ v Hv. specialize (HA W). split; intros i x Hi Hx; [apply (HA i k)|apply (HA k i)]; auto; lia. }
  destruct (qpartition_gen a l h) as (a1 & p & a2 & l' & h' & _ & _ & _ & -> & HS & _ & R1 & R2 & R3 & Z1 & Z2 & Z3); try lia.
  cbn [bind]. pose proof (sub_len _ _ _ _ HS) as L.
  assert (C : gt_flips -> forall k z, l <= k <= h -> znth a2 k = Some z ->
        (k <= l' - 1 -> lt z p = true) /\ (l' <= k <= h' -> le p z /\ le z p) /\ (h' < k -> lt p z = true)).
  { intros G i z Hi Hz. splits; intros Hr.
    - apply (Z1 i z); auto. lia.
    - destruct (Z2 i z Hr Hz) as [? Q]. rewrite G in Q. auto.
    - rewrite <- G. apply (Z3 i z); auto. lia. }
  destruct (Z.ltb_spec k l').
  - destruct (IH a2 l (l' - 1)) as (a3 & -> & HS3 & HA3); try lia.
    exists a3. splits; auto. { eapply sub_trans; eauto. eapply sub_weaken; eauto; lia. }
    intros W G v Hv. destruct (HA3 W G v Hv) as [S1 S2]. split; auto.
    intros i x Hi Hx. destruct (Z_le_dec i (l' - 1)); [apply (S2 i x); auto; lia|].
    assert (V : lt v p = true). { assert (zall (fun x => lt x p = true) a3 l (l' - 1)) by (eapply zall_sub; eauto; lia). apply (H2 k v); auto; lia. }
    assert (X : le p x).
    { assert (Hx2 : znth a2 i = Some x). { destruct HS3 as (_ & _ & F & _). rewrite <- F; auto. lia. }
      destruct (C G i x ltac:(lia) Hx2) as (_ & C2 & C3). destruct (Z_le_dec i h'); [apply C2; lia|apply lt_le; auto; apply C3; lia]. }
    apply (le_trans W v p x); [apply lt_le|]; auto.
  - destruct (Z.ltb_spec h' k).
    + destruct (IH a2 (h' + 1) h) as (a3 & -> & HS3 & HA3); try lia.
      exists a3. splits; auto. { eapply sub_trans; eauto. eapply sub_weaken; eauto; lia. }
      intros W G v Hv. destruct (HA3 W G v Hv) as [S1 S2]. split; auto.
      intros i x Hi Hx. destruct (Z_lt_dec h' i); [apply (S1 i x); auto; lia|].
      assert (V : lt p v = true).
      { rewrite <- G. assert (zall (fun x => gt x p = true) a3 (h' + 1) h) by (eapply zall_sub; eauto; lia). apply (H3 k v); auto; lia. }
      assert (X : le x p).
      { assert (Hx2 : znth a2 i = Some x). { destruct HS3 as (_ & _ & F & _). rewrite <- F; auto. lia. }
        destruct (C G i x ltac:(lia) Hx2) as (C1 & C2 & _). destruct (Z_le_dec l' i); [apply C2; lia|apply lt_le; auto; apply C1; lia]. }
      apply (le_trans W x p v); [|apply lt_le]; auto.
    + exists a2. splits; auto. intros W G v Hv.
      destruct (C G k v ltac:(lia) Hv) as (_ & C2 & _). destruct C2 as [V1 V2]; [lia|].
      split; intros i x Hi Hx; destruct (C G i x ltac:(lia) Hx) as (D1 & D2 & D3).
      * assert (le x p) by (destruct (Z_le_dec l' i); [apply D2; lia|apply lt_le; auto; apply D1; lia]).
        apply (le_trans W x p v); auto.
      * assert (le p x) by (destruct (Z_le_dec i h'); [apply D2; lia|apply lt_le; auto; apply D3; lia]).
        apply (le_trans W v p x); auto.
Qed.

(** ** From cell-wise statements to lists *)
Lemma skipn_frame a a' (n : nat) : zlen a' = zlen a ->
  (forall i, Z.of_nat n <= i -> znth a' i = znth a i) -> skipn n a' = skipn n a.
Proof.
  intros L F. apply list_eq_nth.
  - rewrite !skipn_length. unfold zlen in L. lia.
  - intros i _. rewrite !nth_error_skipn, <- !znth_nth_error. apply F. lia.
Qed.

Lemma firstn_frame a a' (n : nat) : zlen a' = zlen a ->
  (forall i, i < Z.of_nat n -> znth a' i = znth a i) -> firstn n a' = firstn n a.
Proof.
  intros L F. apply list_eq_nth.
  - rewrite !firstn_length. unfold zlen in L. lia.
  - intros i _. destruct (Nat.lt_ge_cases i n).
    + rewrite !nth_error_firstn, <- !znth_nth_error by auto. apply F. lia.
    + rewrite !(proj2 (nth_error_None _ _)); auto; rewrite firstn_length; lia.
Qed.

Lemma sub_prefix n a a' : 0 <= n <= zlen a -> sub 0 (n - 1) a a' ->
  Permutation (firstn (Z.to_nat n) a) (firstn (Z.to_nat n) a') /\ skipn (Z.to_nat n) a' = skipn (Z.to_nat n) a.
Proof.
  intros Hn (L & P & F & _).
  assert (E : skipn (Z.to_nat n) a' = skipn (Z.to_nat n) a).
  { apply skipn_frame; auto. intros i Hi. apply F. lia. }
  split; auto.
  apply Permutation_app_inv_r with (skipn (Z.to_nat n) a). rewrite <- E at 2. rewrite !firstn_skipn. auto.
Qed.

Definition seg a (l h : Z) := firstn (Z.to_nat (h + 1 - l)) (skipn (Z.to_nat l) a).

Lemma seg_split a l h : 0 <= l -> l <= h + 1 -> a = firstn (Z.to_nat l) a ++ seg a l h ++ skipn (Z.to_nat (h + 1)) a.
Proof.
  intros H1 H2. unfold seg. rewrite <- (firstn_skipn (Z.to_nat l) a) at 1. f_equal.
  rewrite <- (firstn_skipn (Z.to_nat (h + 1 - l)) (skipn (Z.to_nat l) a)) at 1. f_equal.
  assert (E : forall (p q : nat) (x : list A), skipn p (skipn q x) = skipn (q + p) x).
  { intros p q x. apply list_eq_nth.
    - rewrite !skipn_length. lia.
    - intros i _. rewrite !nth_error_skipn. f_equal. lia. }
  rewrite E. f_equal. lia.
Qed.

Lemma seg_nth a l h i : 0 <= l -> l <= i <= h -> nth_error (seg a l h) (Z.to_nat (i - l)) = znth a i.
Proof.
  intros H1 H2. unfold seg. rewrite nth_error_firstn by lia. rewrite nth_error_skipn. rewrite znth_nonneg by lia. f_equal. lia.
Qed.

Lemma seg_length a l h : 0 <= l -> l <= h + 1 -> h < zlen a -> length (seg a l h) = Z.to_nat (h + 1 - l).
Proof. intros. unfold seg. rewrite firstn_length, skipn_length. unfold zlen in *. lia. Qed.

Lemma sub_seg l h a a' : 0 <= l -> l <= h + 1 -> h < zlen a -> sub l h a a' -> Permutation (seg a l h) (seg a' l h).
Proof.
  intros H1 H2 H3 (L & P & F & _).
  rewrite (seg_split a l h), (seg_split a' l h) in P by auto.
  rewrite (firstn_frame a a') in P by (auto; intros; apply F; lia).
  rewrite (skipn_frame a a') in P by (auto; intros; apply F; lia).
  apply Permutation_app_inv_l in P. apply Permutation_app_inv_r in P. auto.
Qed.

Lemma cnt_perm (P : A -> bool) a b : Permutation a b -> length (filter P a) = length (filter P b).
Proof. induction 1; simpl; auto; try (destruct (P x); simpl; auto); try (destruct (P y), (P x); simpl; auto). congruence. Qed.

Lemma cnt1 (P : A -> bool) s : forall i x, nth_error s i = Some x -> P x = true -> (1 <= length (filter P s))%nat.
Proof.
  induction s as [|y s IH]; intros [|i] x H HP; simpl in *; try discriminate.
  - injection H as ->. rewrite HP. simpl. lia.
  - specialize (IH _ _ H HP). destruct (P y); simpl; lia.
Qed.
Lemma cnt2 (P : A -> bool) s : forall i j x y, (i < j)%nat -> nth_error s i = Some x -> P x = true ->
  nth_error s j = Some y -> P y = true -> (2 <= length (filter P s))%nat.
Proof.
  induction s as [|z s IH]; intros [|i] [|j] x y Hij H HP H' HP'; simpl in *; try discriminate; try lia.
  - injection H as ->. rewrite HP. simpl. pose proof (cnt1 P s _ _ H' HP'). lia.
  - assert ((2 <= length (filter P s))%nat) by (apply (IH i j x y); auto; lia). destruct (P z); simpl; lia.
Qed.
Lemma cnt3 (P : A -> bool) s : forall i j k x y z, (i < j)%nat -> (j < k)%nat -> nth_error s i = Some x -> P x = true ->
  nth_error s j = Some y -> P y = true -> nth_error s k = Some z -> P z = true -> (3 <= length (filter P s))%nat.
Proof.
  induction s as [|w s IH]; intros [|i] [|j] [|k] x y z Hij Hjk H HP H' HP' H'' HP''; simpl in *; try discriminate; try lia.
  - injection H as ->. rewrite HP. simpl. assert (2 <= length (filter P s))%nat by (apply (cnt2 P s j k y z); auto; lia). lia.
  - assert ((3 <= length (filter P s))%nat) by (apply (IH i j k x y z); auto; lia). destruct (P w); simpl; lia.
Qed.

Lemma filter_le (P : A -> bool) s : (length (filter P s) <= length s)%nat.
Proof. induction s as [|x s IH]; simpl; auto. destruct (P x); simpl; lia. Qed.

Lemma filter_none (P : A -> bool) s : (forall x, In x s -> P x = false) -> filter P s = [].
Proof. induction s as [|x s IH]; intros H; simpl; auto. rewrite H by (left; auto). apply IH. intros y Hy. apply H. right; auto. Qed.

Lemma filter_every (P : A -> bool) s : (forall x, In x s -> P x = true) -> filter P s = s.
Proof. induction s as [|x s IH]; intros H; simpl; auto. rewrite H by (left; auto). f_equal. apply IH. intros y Hy. apply H. right; auto. Qed.

(** cells [l, m) of the segment do not satisfy P: the count fits into [m, h] *)
Lemma cnt_seg_hi (P : A -> bool) a l h m : 0 <= l -> l <= m -> m <= h + 1 -> h < zlen a ->
  zall (fun x => P x = false) a l (m - 1) -> Z.of_nat (length (filter P (seg a l h))) <= h + 1 - m.
Proof.
  intros H1 H2 H3 H4 HZ.
  assert (E : seg a l h = firstn (Z.to_nat (m - l)) (seg a l h) ++ skipn (Z.to_nat (m - l)) (seg a l h)) by now rewrite firstn_skipn.
  rewrite E, filter_app. rewrite (filter_none P (firstn _ _)).
  - simpl. pose proof (filter_le P (skipn (Z.to_nat (m - l)) (seg a l h))). rewrite skipn_length, seg_length in * by lia. lia.
  - intros x Hx. apply In_nth_error in Hx. destruct Hx as [i Hi].
    assert (Hlt : (i < length (firstn (Z.to_nat (m - l)) (seg a l h)))%nat) by (apply nth_error_Some; congruence).
    rewrite firstn_length in Hlt. rewrite nth_error_firstn in Hi by lia.
    apply (HZ (l + Z.of_nat i) x); [lia|]. rewrite <- (seg_nth a l h) by lia. rewrite <- Hi. f_equal. lia.
Qed.
Lemma cnt_seg_lo (P : A -> bool) a l h m : 0 <= l -> l <= m + 1 -> m <= h -> h < zlen a ->
  zall (fun x => P x = false) a (m + 1) h -> Z.of_nat (length (filter P (seg a l h))) <= m + 1 - l.
Proof.
  intros H1 H2 H3 H4 HZ.
  assert (E : seg a l h = firstn (Z.to_nat (m + 1 - l)) (seg a l h) ++ skipn (Z.to_nat (m + 1 - l)) (seg a l h)) by now rewrite firstn_skipn.
  rewrite E, filter_app. rewrite (filter_none P (skipn _ _)).
  - rewrite app_nil_r. pose proof (filter_le P (firstn (Z.to_nat (m + 1 - l)) (seg a l h))). rewrite firstn_length in *. lia.
  - intros x Hx. apply In_nth_error in Hx. destruct Hx as [i Hi].
    rewrite nth_error_skipn in Hi.
    assert (Hlt : (Z.to_nat (m + 1 - l) + i < length (seg a l h))%nat) by (apply nth_error_Some; congruence).
    rewrite seg_length in Hlt by lia.
    apply (HZ (m + 1 + Z.of_nat i) x); [lia|]. rewrite <- (seg_nth a l h) by lia. rewrite <- Hi. f_equal. lia.
Qed.

Lemma qpartition_ok a l h : strict_weak_order lt -> gt_flips -> 0 <= l -> h < zlen a -> 32 <= h - l ->
  exists p a' l' h', qpartition lt gt a l h = Ok (a', l', h') /\ sub l h a a' /\ l <= l' /\ l' <= h' /\ h' <= h /\
    zall (fun x => lt x p = true) a' l (l' - 1) /\
    zall (fun x => lt x p = false /\ lt p x = false) a' l' h' /\
    zall (fun x => lt p x = true) a' (h' + 1) h /\
    3 <= h - l' + 1 /\ 3 <= h' - l + 1.
Proof.
  intros W G Hl Hh Hn.
  destruct (qpartition_gen a l h Hl Hh Hn) as (a1 & p & a' & l' & h' & E0 & S0 & Hp & E & HS & HS' & R1 & R2 & R3 & Z1 & Z2 & Z3).
  exists p, a', l', h'. pose proof (div_facts _ Hn) as HD.
  pose proof (sub_len _ _ _ _ HS) as L. pose proof (sub_len _ _ _ _ S0) as L0.
  destruct (qmedian_median a l (l + (h - l) / 4) (l + (h - l) / 2) (l + (h - l) / 2 + (h - l) / 4) h l h)
    as (a1' & va & vb & vc & vd & ve & E1 & _ & Va & Vb & Vc & Vd & Ve & La & Lb & Ld & Lee); try (unfold inr; lia); auto.
  { now apply five_nodup. }
  rewrite E0 in E1. injection E1 as <-. rewrite Hp in Vc. injection Vc as <-.
  assert (Z1' : zall (fun x => lt x p = true) a' l (l' - 1)) by auto.
  assert (Z2' : zall (fun x => lt x p = false /\ lt p x = false) a' l' h').
  { intros i x Hi Hx. rewrite <- (G x p). apply (Z2 i x); auto. }
  assert (Z3' : zall (fun x => lt p x = true) a' (h' + 1) h).
  { intros i x Hi Hx. rewrite <- G. apply (Z3 i x); auto. }
  pose proof (sub_seg l h a1 a' Hl ltac:(lia) ltac:(lia) HS') as PS.
  assert (N1 : Z.of_nat (length (filter (fun x => negb (lt x p)) (seg a' l h))) <= h + 1 - l').
  { apply cnt_seg_hi; try lia. intros i x Hi Hx. rewrite (Z1' i x) by auto. auto. }
  assert (N2 : Z.of_nat (length (filter (fun x => negb (lt p x)) (seg a' l h))) <= h' + 1 - l).
  { apply cnt_seg_lo; try lia. intros i x Hi Hx. rewrite (Z3' i x) by auto. auto. }
  rewrite <- (cnt_perm _ _ _ PS) in N1. rewrite <- (cnt_perm _ _ _ PS) in N2.
  rewrite <- (seg_nth a1 l h) in Va by lia. rewrite <- (seg_nth a1 l h) in Vb by lia. rewrite <- (seg_nth a1 l h) in Hp by lia.
  rewrite <- (seg_nth a1 l h) in Vd by lia. rewrite <- (seg_nth a1 l h) in Ve by lia.
  assert (M1 : (3 <= length (filter (fun x => negb (lt x p)) (seg a1 l h)))%nat).
  { eapply cnt3; [| |exact Hp| |exact Vd| |exact Ve|]; try lia; cbn beta; rewrite ?Ld, ?Lee, ?lt_irrefl; auto. }
  assert (M2 : (3 <= length (filter (fun x => negb (lt p x)) (seg a1 l h)))%nat).
  { eapply cnt3; [| |exact Va| |exact Vb| |exact Hp|]; try lia; cbn beta; rewrite ?La, ?Lb, ?lt_irrefl; auto. }
  splits; auto; lia.
Qed.

Lemma asc_list a n : 0 <= n <= zlen a -> asc a 0 (n - 1) -> ascending lt (firstn (Z.to_nat n) a).
Proof.
  intros Hn HA i j x y Hij Hx Hy.
  assert (Hj : (j < length (firstn (Z.to_nat n) a))%nat) by (apply nth_error_Some; congruence).
  rewrite firstn_length in Hj.
  rewrite nth_error_firstn in Hx, Hy by lia. rewrite <- znth_nth_error in Hx, Hy.
  apply (HA (Z.of_nat i) (Z.of_nat j)); auto; lia.
Qed.

Lemma kth_of_split s k v : nth_error s k = Some v ->
  (forall i x, (i < k)%nat -> nth_error s i = Some x -> lt v x = false) ->
  (forall i x, (k < i)%nat -> nth_error s i = Some x -> lt x v = false) -> kth_smallest lt k s v.
Proof.
  intros Hv H1 H2. apply nth_error_split in Hv as Hs. destruct Hs as (p & q & -> & Hk).
  unfold kth_smallest. splits.
  - apply in_or_app. right. left. auto.
  - rewrite filter_app. simpl. rewrite lt_irrefl. rewrite (filter_none _ q).
    + rewrite app_nil_r. rewrite <- Hk. apply filter_le.
    + intros x Hx. apply In_nth_error in Hx. destruct Hx as [i Hi]. apply (H2 (k + 1 + i)%nat); [lia|].
      rewrite nth_error_app2 by lia. replace (k + 1 + i - length p)%nat with (S i) by lia. auto.
  - rewrite filter_app, app_length. simpl. rewrite lt_irrefl. rewrite filter_every.
    + simpl. lia.
    + intros x Hx. apply In_nth_error in Hx. destruct Hx as [i Hi].
      assert (i < length p)%nat by (apply nth_error_Some; congruence).
      rewrite (H1 i x); auto; [lia|]. rewrite nth_error_app1; auto.
Qed.

Lemma kth_perm s s' k v : Permutation s s' -> kth_smallest lt k s v -> kth_smallest lt k s' v.
Proof.
  intros P (H1 & H2 & H3). unfold kth_smallest. rewrite <- !(cnt_perm _ _ _ P). splits; auto. eapply Permutation_in; eauto.
Qed.

(** ** The public functions *)
Lemma quick_sort_ok a n : 0 <= n <= zlen a ->
  exists a', quick_sort lt gt a n = Ok a' /\
    Permutation (firstn (Z.to_nat n) a) (firstn (Z.to_nat n) a') /\ skipn (Z.to_nat n) a' = skipn (Z.to_nat n) a /\
    (strict_weak_order lt -> gt_flips -> ascending lt (firstn (Z.to_nat n) a')).
Proof.
  intros Hn. unfold quick_sort. destruct (qsort_gen (Z.to_nat n) a 0 (n - 1)) as (a' & E & HS & HA); try lia.
  destruct (sub_prefix n a a' Hn HS) as [P F]. exists a'. splits; auto.
  intros W G. apply asc_list; auto. rewrite (sub_len _ _ _ _ HS). auto.
Qed.

Lemma quick_select_ok a k n : 0 <= k < n -> n <= zlen a ->
  exists a' v, quick_select lt gt a k n = Ok (a', v) /\ znth a' k = Some v /\
    Permutation (firstn (Z.to_nat n) a) (firstn (Z.to_nat n) a') /\ skipn (Z.to_nat n) a' = skipn (Z.to_nat n) a /\
    (strict_weak_order lt -> gt_flips ->
       kth_smallest lt (Z.to_nat k) (firstn (Z.to_nat n) a) v /\
       (forall i x, 0 <= i < k -> znth a' i = Some x -> lt v x = false) /\
       (forall i x, k < i < n -> znth a' i = Some x -> lt x v = false)).
Proof.
  intros Hk Hn. unfold quick_select.
  destruct (Z.eqb_spec n 0); [lia|]. destruct (Z.ltb_spec k n); [|lia]. cbn [negb andb cassert bind].
  destruct (qselect_gen (Z.to_nat n) k a 0 (n - 1)) as (a' & -> & HS & HA); try lia. cbn [bind].
  pose proof (sub_len _ _ _ _ HS) as L.
  destruct (get_in_range a' k) as (v & Hv & ->); [lia|]. cbn [bind].
  destruct (sub_prefix n a a' ltac:(lia) HS) as [P F]. exists a', v. split; auto. split; auto. split; auto. split; auto.
  intros W G. destruct (HA W G v Hv) as [B1 B2].
  assert (C1 : forall i x, 0 <= i < k -> znth a' i = Some x -> lt v x = false) by (intros i x Hi; apply B1; lia).
  assert (C2 : forall i x, k < i < n -> znth a' i = Some x -> lt x v = false) by (intros i x Hi; apply B2; lia).
  splits; auto.
  apply (kth_perm (firstn (Z.to_nat n) a')). { now apply Permutation_sym. }
  apply kth_of_split.
  - rewrite nth_error_firstn by lia. rewrite <- znth_nonneg by lia. auto.
  - intros i x Hi Hx. rewrite nth_error_firstn in Hx by lia. rewrite <- znth_nth_error in Hx. apply (C1 (Z.of_nat i)); auto; lia.
  - intros i x Hi Hx. assert (Hl : (i < length (firstn (Z.to_nat n) a'))%nat) by (apply nth_error_Some; congruence).
    rewrite firstn_length in Hl.
    rewrite nth_error_firstn in Hx by lia. rewrite <- znth_nth_error in Hx. apply (C2 (Z.of_nat i)); auto; lia.
Qed.

Lemma quick_select_asserts a k n : n = 0 \/ n <= k -> quick_select lt gt a k n = AssertFail.
Proof.
  intros H. unfold quick_select. destruct (Z.eqb_spec n 0); [reflexivity|]. destruct (Z.ltb_spec k n); [lia|]. reflexivity.
Qed.

Lemma kth_sorted_aux (W : strict_weak_order lt) (l s : list A) (k : nat) (v w : A) :
    kth_smallest lt k l v -> Permutation l s -> ascending lt s -> nth_error s k = Some w ->
    lt v w = false /\ lt w v = false.
Proof.
  intros H P HA Hw. apply (kth_perm l s k v P) in H. destruct H as (_ & H1 & H2).
  apply nth_error_split in Hw as Hs. destruct Hs as (p & q & -> & Hk).
  assert (B1 : forall x, In x p -> lt w x = false).
  { intros x Hx. apply In_nth_error in Hx. destruct Hx as [i Hi].
    assert (i < length p)%nat by (apply nth_error_Some; congruence).
    apply (HA i k); auto; [lia|]. rewrite nth_error_app1; auto. }
  assert (B2 : forall x, In x q -> lt x w = false).
  { intros x Hx. apply In_nth_error in Hx. destruct Hx as [i Hi].
    apply (HA k (k + 1 + i)%nat); auto; [lia|]. rewrite nth_error_app2 by lia.
    replace (k + 1 + i - length p)%nat with (S i) by lia. auto. }
  split.
  - (* v < w: then everything from w on is larger than v, so at most k values are not larger *)
    destruct (lt v w) eqn:E; auto. exfalso. rewrite filter_app in H2. simpl in H2. rewrite E in H2. simpl in H2.
    rewrite (filter_none _ q) in H2.
    + rewrite app_nil_r in H2. pose proof (filter_le (fun x => negb (lt v x)) p). lia.
    + intros x Hx. destruct (swo_negtrans lt W v w x E) as [->|Q]; auto. rewrite (B2 x Hx) in Q. discriminate.
  - destruct (lt w v) eqn:E; auto. exfalso. rewrite filter_app in H1. simpl in H1. rewrite E in H1.
    rewrite app_length in H1. simpl in H1. rewrite filter_every in H1; [lia|].
    intros x Hx. destruct (swo_negtrans lt W w v x E) as [Q|Q]; auto. rewrite (B1 x Hx) in Q. discriminate.
Qed.
End Quick.

Lemma kth_sorted (A : Type) (lt : A -> A -> bool) : strict_weak_order lt ->
  forall (l s : list A) (k : nat) (v w : A),
    kth_smallest lt k l v -> Permutation l s -> ascending lt s -> nth_error s k = Some w ->
    lt v w = false /\ lt w v = false.
Proof. intros W. apply kth_sorted_aux; auto. Qed.
