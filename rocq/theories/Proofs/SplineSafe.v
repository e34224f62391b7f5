(* Array accesses of Model/Spline.v, for any arithmetic *)
From Coq Require Import ZArith List Lia.
From Verif Require Import Model.Spline Proofs.BaseLemmas.
Open Scope Z_scope.

Section Safe.
Context {T V : Type} (M : num T) (OV : ovs T V) (toint : T -> outcome BinNums.Z).
Section Natural.
Variables (K STRIDE : BinNums.Z) (Y : list V).
Hypothesis HK : 2 <= K.
Hypothesis HY : forall i, 0 <= i < K -> exists v, yat Y STRIDE i = Ok v.
Lemma forward_safe : exists U Z, spl_forward M OV K STRIDE Y = Ok (U, Z) /\
  forall j, 0 <= j < K - 1 -> (exists u, geti U j = Ok u) /\ (exists z, geti Z j = Ok z).
Proof.
  unfold spl_forward. rewrite !set_in_range by (rewrite zlen_repeat; lia). cbn [bind].
  set (U0 := zupd _ 0 (Some (nofZ M 0))). set (Z0 := zupd _ 0 (Some (v0 (ov_ops OV)))).
  set (PP := fun (i : BinNums.Z) (st : list (option T) * list (option V)) => zlen (fst st) = K - 1 /\ zlen (snd st) = K - 1 /\
    forall j, 0 <= j < i -> (exists u, znth (fst st) j = Some (Some u)) /\ (exists z, znth (snd st) j = Some (Some z))).
  match goal with |- context [for_loop ?n ?i ?b ?s] => destruct (for_loop_inv PP b n i s) as ((U, Z) & E & (L1 & L2 & R)) end.
  - unfold PP, U0, Z0. cbn [fst snd]. rewrite !zlen_zupd, !zlen_repeat. split; [lia|]. split; [lia|]. intros j Hj. assert (j = 0) as -> by lia.
    rewrite !znth_zupd by (rewrite zlen_repeat; lia). cbn. eauto.
  - intros i (U, Z) Hi (L1 & L2 & R). cbn [fst snd] in *. destruct (R (i - 1)) as ((u & Ru) & (z & Rz)); [lia|].
    rewrite (geti_Some _ _ _ Ru). cbn [bind]. rewrite set_in_range by lia. cbn [bind].
    destruct (HY (i + 1)) as (y2 & ->); [lia|]. destruct (HY i) as (y1 & ->); [lia|]. destruct (HY (i - 1)) as (y0 & ->); [lia|]. cbn [bind].
    rewrite (geti_Some _ _ _ Rz). cbn [bind]. rewrite set_in_range by lia. cbn [bind]. eexists. split; [reflexivity|].
    split; [cbn [fst]; rewrite zlen_zupd; lia|]. split; [cbn [snd]; rewrite zlen_zupd; lia|]. intros j Hj. cbn [fst snd].
    rewrite !znth_zupd by lia. destruct (Z.eqb_spec j i) as [->|]; [eauto|apply R; lia].
  - exists U, Z. split; [exact E|]. cbn [fst snd] in R. intros i Hi. destruct (R i) as ((u & A) & (z & B)); [lia|].
    split; eexists; apply geti_Some; eauto.
Qed.
Lemma backward_safe U Z : (forall j, 0 <= j < K - 1 -> (exists u, geti U j = Ok u) /\ (exists z, geti Z j = Ok z)) ->
  exists cs c, spl_backward M OV K STRIDE Y U Z = Ok (cs, c) /\ forall j, 0 <= j < K - 1 -> exists a, geti cs j = Ok a.
Proof.
  intros H. unfold spl_backward.
  set (PP := fun (n : BinNums.Z) (st : list (option (coef V)) * V) => zlen (fst st) = K - 1 /\
    forall j, K - 2 - n < j < K - 1 -> exists a, znth (fst st) j = Some (Some a)).
  match goal with |- context [for_loop ?n ?i ?b ?s] => destruct (for_loop_inv PP b n i s) as ((cs, c) & E & (L1 & R)) end.
  - unfold PP. cbn [fst snd]. rewrite zlen_repeat. split; [lia|]. intros; lia.
  - intros n (cs, c) Hn (L1 & R). cbn [fst snd] in *. set (i := K - 2 - n) in *. destruct (H i) as ((u & Hu) & (z & Hz)); [lia|].
    destruct (HY i) as (y0 & ->); [lia|]. cbn [bind]. rewrite Hz. cbn [bind]. rewrite Hu. cbn [bind].
    destruct (HY (i + 1)) as (y1 & ->); [lia|]. cbn [bind]. rewrite set_in_range by lia. cbn [bind]. eexists. split; [reflexivity|].
    split; [cbn [fst]; rewrite zlen_zupd; lia|]. intros j Hj. cbn [fst]. rewrite !znth_zupd by lia. destruct (Z.eqb_spec j i) as [->|]; [eauto|apply R; lia].
  - exists cs, c. split; [exact E|]. cbn [fst snd] in R. intros i Hi. destruct (R i) as (a & A); [lia|]. exists a. apply geti_Some. exact A.
Qed.
Lemma natural_safe x0 dx : exists s, spl_new M OV K Y x0 dx STRIDE = Ok s /\ sp_x0 s = x0 /\ sp_dx s = dx /\
  forall x k, toint (ndiv M (nsub M x x0) dx) = Ok k -> exists v, spl_at M OV toint K s x = Ok v.
Proof.
  unfold spl_new. destruct forward_safe as (U & Z & E & R). rewrite E. cbn [bind]. destruct (backward_safe U Z R) as (cs & c & E2 & R2). rewrite E2. cbn [bind].
  eexists. split; [reflexivity|]. split; [reflexivity|]. split; [reflexivity|]. intros x k Ek. unfold spl_at. cbn [sp_x0 sp_dx sp_coef]. rewrite Ek. cbn [bind].
  destruct (Z.ltb_spec k 0).
  - rewrite (proj2 (Z.leb_gt (K - 1) 0)) by lia. destruct (R2 0) as (a & ->); [lia|]. cbn [bind]. eauto.
  - destruct (Z.leb_spec (K - 1) k).
    + destruct (R2 (K - 2)) as (a & ->); [lia|]. cbn [bind]. eauto.
    + destruct (R2 k) as (a & ->); [lia|]. cbn [bind]. eauto.
Qed.
End Natural.

Section Hermite.
Variables (n : BinNums.Z) (X : list T) (Y : list V).
Hypothesis Hn : 3 <= n.
Hypothesis LX : n <= zlen X.
Hypothesis LY : n <= zlen Y.
Ltac gt l i := let v := fresh "v" in let E := fresh "E" in destruct (get_in_range l i) as (v & _ & E); [lia|rewrite E; clear E; cbn [bind]].
Ltac gets := repeat match goal with |- context [get ?l ?i] => gt l i end; try (eexists; reflexivity).
Lemma left_safe k : 1 <= k < n -> exists v, hx_left M OV X Y k = Ok v.
Proof. intros H. unfold hx_left. gets. Qed.
Lemma right_safe k : 0 <= k < n - 1 -> exists v, hx_right M OV X Y k = Ok v.
Proof. intros H. unfold hx_right. gets. Qed.
Lemma central_safe k : 1 <= k < n - 1 -> exists v, hx_central M OV X Y k = Ok v.
Proof. intros H. unfold hx_central. destruct (left_safe k) as (a & ->); [lia|]. destruct (right_safe k) as (b & ->); [lia|]. cbn [bind]. eauto. Qed.
Lemma poly_safe t k m0 m1 : 0 <= k < n - 1 -> (exists v, m0 = Ok v) -> (exists v, m1 = Ok v) -> exists v, hx_poly M OV X Y t k m0 m1 = Ok v.
Proof. intros H (a & ->) (b & ->). unfold hx_poly. gets. Qed.
Lemma seg_safe t k : exists v, hx_seg M OV X Y t k n = Ok v.
Proof.
  unfold hx_seg. destruct (Z.ltb_spec k 1); [|destruct (Z.ltb_spec k (n - 2))]; apply poly_safe; try lia;
    first [apply right_safe; lia|apply central_safe; lia|apply left_safe; lia].
Qed.
Lemma lower_safe x : forall fuel first count, (Z.to_nat count <= fuel)%nat -> 0 <= first -> 0 <= count -> first + count <= n ->
  exists k, lower_bound M fuel X first count x = Ok k /\ 0 <= k <= n.
Proof.
  induction fuel as [|f IH]; intros first count Hf H0 H1 H2; cbn [lower_bound].
  - rewrite (proj2 (Z.ltb_ge 0 count)) by lia. exists first. split; [reflexivity|lia].
  - destruct (Z.ltb_spec 0 count) as [Hc|Hc]; [|exists first; split; [reflexivity|lia]].
    pose proof (Z.div_pos count 2 ltac:(lia) ltac:(lia)). assert (count / 2 < count) by (apply Z.div_lt; lia).
    gt X (first + count / 2). destruct (nltb M v x); apply IH; lia.
Qed.
Lemma hermite_safe x : exists v, hx_at M OV X Y x n = Ok v.
Proof.
  unfold hx_at. destruct (lower_safe x (Z.to_nat n) 0 n) as (k & -> & Hk); try lia. cbn [bind].
  destruct (Z.ltb_spec k 1); [|destruct (Z.ltb_spec k n)]; gets; apply seg_safe.
Qed.
Lemma uleft_safe k : 1 <= k < n -> exists v, hu_left OV Y k = Ok v.
Proof. intros H. unfold hu_left. gets. Qed.
Lemma uright_safe k : 0 <= k < n - 1 -> exists v, hu_right OV Y k = Ok v.
Proof. intros H. unfold hu_right. gets. Qed.
Lemma ucentral_safe k : 1 <= k < n - 1 -> exists v, hu_central M OV Y k = Ok v.
Proof. intros H. unfold hu_central. gets. Qed.
Lemma upoly_safe t k m0 m1 : 0 <= k < n - 1 -> (exists v, m0 = Ok v) -> (exists v, m1 = Ok v) -> exists v, hu_poly M OV Y t k m0 m1 = Ok v.
Proof. intros H (a & ->) (b & ->). unfold hu_poly. gets. Qed.
Lemma useg_safe t k : exists v, hu_seg M OV Y t k n = Ok v.
Proof.
  unfold hu_seg. destruct (Z.ltb_spec k 1); [|destruct (Z.ltb_spec k (n - 2))]; apply upoly_safe; try lia;
    first [apply uright_safe; lia|apply ucentral_safe; lia|apply uleft_safe; lia].
Qed.
Lemma hermite_uniform_safe x x0 dx k : toint (ndiv M (nsub M x x0) dx) = Ok k -> exists v, hu_at M OV toint Y x n x0 dx = Ok v.
Proof.
  intros E. unfold hu_at. rewrite E. cbn [bind]. destruct (Z.ltb_spec k 0); [|destruct (Z.ltb_spec k (n - 1))]; apply useg_safe.
Qed.
End Hermite.
End Safe.
