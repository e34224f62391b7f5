(* Proofs about UniformNaturalCubicSpline in Model/Spline.v *)
From Coq Require Import Reals ZArith List Lia Lra Psatz.
From Flocq Require Import Core.
From Coquelicot Require Import Coquelicot.
From Verif Require Import Model.Spline Spec.Fir Proofs.BaseLemmas Proofs.Piecewise.
Import ListNotations.
Open Scope R_scope.

Section Natural.
Variables (K : nat) (y : nat -> R).
Hypothesis HK : (2 <= K)%nat.
Fixpoint uu (i : nat) : R := match i with O => 0 | S i' => 1 / (4 - uu i') end.
Definition rr (i : nat) : R := 3 * (y (S i) - 2 * y i + y (i - 1)%nat).
Fixpoint zz (i : nat) : R := match i with O => 0 | S i' => (rr (S i') - zz i') / (4 - uu i') end.
Fixpoint cdn (j : nat) : R := match j with O => 0 | S j' => zz (K - 2 - j') - uu (K - 2 - j') * cdn j' end.
Definition cc (i : nat) : R := cdn (K - 1 - i).
Definition qq (i : nat) : cubic := mkCubic (y i) (y (S i) - y i - (cc (S i) + 2 * cc i) / 3) (cc i) ((cc (S i) - cc i) / 3).

Lemma uu_bound i : 0 <= uu i <= 1 / 3.
Proof.
  induction i as [|i IH]; cbn [uu]; [lra|]. split.
  - apply Rlt_le. apply Rdiv_lt_0_compat; lra.
  - unfold Rdiv. rewrite !Rmult_1_l. apply Rinv_le_contravar; lra.
Qed.
Lemma cc_rec i : (i <= K - 2)%nat -> cc i = zz i - uu i * cc (S i).
Proof.
  intros H. unfold cc. replace (K - 1 - i)%nat with (S (K - 1 - S i)) by lia. cbn [cdn].
  replace (K - 2 - (K - 1 - S i))%nat with i by lia. reflexivity.
Qed.
Lemma cc_first : cc 0 = 0.
Proof. rewrite cc_rec by lia. cbn. ring. Qed.
Lemma cc_last : cc (K - 1) = 0.
Proof. unfold cc. rewrite Nat.sub_diag. reflexivity. Qed.
Lemma tri i : (S i <= K - 2)%nat -> cc i + 4 * cc (S i) + cc (S (S i)) = rr (S i).
Proof.
  intros H. rewrite (cc_rec i) by lia. pose proof (uu_bound i) as B. rewrite (cc_rec (S i)) by lia. cbn [zz uu]. field. lra.
Qed.

Notation m := (K - 1)%nat.
Notation X := INR.
Lemma knots_incr k : (k < m)%nat -> X k < X (S k).
Proof. intros _. rewrite S_INR. lra. Qed.
Lemma step0 k : (S k < m)%nat -> q0 (J X qq k) = 0.
Proof. intros H. unfold J, P, cub. cbn [q0 q1 q2 q3 qq]. rewrite S_INR. field. Qed.
Lemma step1 k : (S k < m)%nat -> q1 (J X qq k) = 0.
Proof.
  intros H. unfold J, cub1. cbn [q0 q1 q2 q3 qq]. rewrite S_INR. pose proof (tri k ltac:(lia)) as E. unfold rr in E.
  replace (S k - 1)%nat with k in E by lia. lra.
Qed.
Lemma step2 k : (S k < m)%nat -> q2 (J X qq k) = 0.
Proof. intros H. unfold J, cub2. cbn [q0 q1 q2 q3 qq]. rewrite S_INR. field. Qed.

Definition NS : R -> R := G m X qq.
Definition NS1 : R -> R := G1 m X qq.
Definition NS2 : R -> R := G2 m X qq.
Definition inseg (j : nat) (x : R) : Prop := (j < m)%nat /\ (j = O \/ X j <= x) /\ (S j = m \/ x <= X (S j)).
Lemma NS_piece j x : inseg j x -> NS x = cub (qq j) (X j) x.
Proof. intros (A & B & D). apply (G_piece m X qq knots_incr step0); auto. Qed.
Lemma NS1_piece j x : inseg j x -> NS1 x = cub1 (qq j) (X j) x.
Proof. intros (A & B & D). apply (G1_piece m X qq knots_incr step1); auto. Qed.
Lemma NS2_piece j x : inseg j x -> NS2 x = cub2 (qq j) (X j) x.
Proof. intros (A & B & D). apply (G2_piece m X qq knots_incr step2); auto. Qed.
Lemma NS_derive x : is_derive NS x (NS1 x).
Proof. apply G_derive; [exact step0|exact step1]. Qed.
Lemma NS1_derive x : is_derive NS1 x (NS2 x).
Proof. apply G1_derive; [exact step1|exact step2]. Qed.
Lemma NS2_cont x : continuous NS2 x.
Proof. apply G2_cont. exact step2. Qed.
Lemma Xm : X m = X (m - 1) + 1.
Proof. rewrite <- S_INR. f_equal. lia. Qed.
Lemma NS_knot k : (k < K)%nat -> NS (X k) = y k.
Proof.
  intros H. destruct (Nat.eq_dec k m) as [->|N].
  - rewrite (NS_piece (m - 1)).
    + unfold cub. cbn [qq q0 q1 q2 q3]. replace (S (m - 1)) with m by lia. rewrite Xm. field.
    + split; [lia|]. split; [right|left; lia]. apply le_INR. lia.
  - rewrite (NS_piece k).
    + unfold cub. cbn [qq q0]. ring.
    + split; [lia|]. split; [right; lra|right]. rewrite S_INR. lra.
Qed.
Lemma NS2_left : NS2 0 = 0.
Proof.
  rewrite (NS2_piece 0).
  - unfold cub2. cbn [qq q2 q3]. rewrite cc_first. cbn [INR]. ring.
  - split; [lia|]. split; [auto|right]. cbn. lra.
Qed.
Lemma NS2_right : NS2 (X m) = 0.
Proof.
  rewrite (NS2_piece (m - 1)).
  - unfold cub2. cbn [qq q2 q3]. replace (S (m - 1)) with m by lia. rewrite Xm, cc_last. field.
  - split; [lia|]. split; [right|left; lia]. apply le_INR. lia.
Qed.
Lemma inseg_ex x : exists j, inseg j x.
Proof.
  assert (Q : forall n, (n < m)%nat -> (exists j, (j < n)%nat /\ inseg j x) \/ (n = O \/ X n <= x)).
  { induction n as [|n IH]; intros Hn; [right; auto|]. destruct IH as [(j & Hj & I)|H]; [lia|left; exists j; split; [lia|auto]|].
    destruct (Rle_dec x (X (S n))) as [L|L]; [left; exists n; split; [lia|]; split; [lia|]; split; auto|right; right; lra]. }
  destruct (Q (m - 1)%nat) as [(j & _ & I)|H]; [lia|eauto|]. exists (m - 1)%nat. split; [lia|]. split; [exact H|left; lia].
Qed.
Lemma NS_linear p q : (forall k, (k < K)%nat -> y k = p + q * X k) -> forall x, NS x = p + q * x.
Proof.
  intros H x.
  assert (Zz : forall i, (i <= K - 2)%nat -> zz i = 0).
  { induction i as [|i IH]; intros Hi; [reflexivity|]. cbn [zz]. rewrite IH by lia. unfold rr. rewrite !H by lia.
    replace (S i - 1)%nat with i by lia. rewrite !S_INR. pose proof (uu_bound i). field. lra. }
  assert (Cz : forall j, (j <= K - 1)%nat -> cdn j = 0).
  { induction j as [|j IH]; intros Hj; [reflexivity|]. cbn [cdn]. rewrite IH, Zz by lia. ring. }
  destruct (inseg_ex x) as (j & I). pose proof I as (Hj & _). rewrite (NS_piece j x I). unfold cub. cbn [qq q0 q1 q2 q3]. unfold cc. rewrite !Cz by lia.
  rewrite !H by lia. rewrite S_INR. field.
Qed.

(** the constructor *)
Definition co (i : nat) : coef R := mkCoef (q0 (qq i)) (q1 (qq i)) (q2 (qq i)) (q3 (qq i)).
Variables (Y : list R) (STRIDE : Z).
Hypothesis HY : forall i, (i < K)%nat -> yat Y STRIDE (Z.of_nat i) = Ok (y i).
Lemma HYz i j : (0 <= i < Z.of_nat K)%Z -> j = Z.to_nat i -> yat Y STRIDE i = Ok (y j).
Proof. intros H ->. rewrite <- (Z2Nat.id i) at 1 by lia. apply HY. lia. Qed.
Open Scope Z_scope.
Lemma forward_ok : exists U Z, spl_forward Rn (oreal Rn) (Z.of_nat K) STRIDE Y = Ok (U, Z) /\
  (forall i, (i < m)%nat -> geti U (Z.of_nat i) = Ok (uu i) /\ geti Z (Z.of_nat i) = Ok (zz i)).
Proof.
  unfold spl_forward. rewrite !set_in_range by (rewrite zlen_repeat; lia). cbn [bind].
  set (U0 := zupd _ 0 (Some (nofZ Rn 0))). set (Z0 := zupd _ 0 (Some (v0 (ov_ops (oreal Rn))))).
  set (PP := fun (i : Z) (st : list (option R) * list (option R)) => zlen (fst st) = Z.of_nat m /\ zlen (snd st) = Z.of_nat m /\
    forall j, 0 <= j < i -> znth (fst st) j = Some (Some (uu (Z.to_nat j))) /\ znth (snd st) j = Some (Some (zz (Z.to_nat j)))).
  match goal with |- context [for_loop ?n ?i ?b ?s] => destruct (for_loop_inv PP b n i s) as ((U, Z) & E & (L1 & L2 & R)) end.
  - unfold PP, U0, Z0. cbn [fst snd]. rewrite !zlen_zupd, !zlen_repeat. split; [lia|]. split; [lia|]. intros j Hj. assert (j = 0) as -> by lia.
    rewrite !znth_zupd by (rewrite zlen_repeat; lia). cbn. auto.
  - intros i (U, Z) Hi (L1 & L2 & R). cbn [fst snd] in *. destruct (R (i - 1)) as (Ru & Rz); [lia|].
    rewrite (geti_Some _ _ _ Ru). cbn [bind]. rewrite set_in_range by lia. cbn [bind].
    rewrite (HYz (i + 1) (S (Z.to_nat i))), (HYz i (Z.to_nat i)), (HYz (i - 1) (Z.to_nat i - 1)%nat) by lia. cbn [bind].
    rewrite (geti_Some _ _ _ Rz). cbn [bind]. rewrite set_in_range by lia. cbn [bind]. eexists. split; [reflexivity|].
    split; [cbn [fst]; rewrite zlen_zupd; lia|]. split; [cbn [snd]; rewrite zlen_zupd; lia|]. intros j Hj. cbn [fst snd].
    rewrite !znth_zupd by lia. destruct (Z.eqb_spec j i) as [->|]; [|apply R; lia].
    replace (Z.to_nat i) with (S (Z.to_nat (i - 1))) by lia. cbn [uu zz]. unfold rr. replace (S (Z.to_nat (i - 1))) with (Z.to_nat i) by lia.
    split; reflexivity.
  - exists U, Z. split; [exact E|]. cbn [fst snd] in R. intros i Hi. destruct (R (Z.of_nat i)) as (A & B); [lia|]. rewrite Nat2Z.id in A, B.
    split; apply geti_Some; auto.
Qed.
Lemma backward_ok U Z : (forall i, (i < m)%nat -> geti U (Z.of_nat i) = Ok (uu i) /\ geti Z (Z.of_nat i) = Ok (zz i)) ->
  exists cs c, spl_backward Rn (oreal Rn) (Z.of_nat K) STRIDE Y U Z = Ok (cs, c) /\ forall i, (i < m)%nat -> geti cs (Z.of_nat i) = Ok (co i).
Proof.
  intros H. unfold spl_backward.
  set (PP := fun (n : BinNums.Z) (st : list (option (coef R)) * R) => zlen (fst st) = Z.of_nat m /\ snd st = cdn (Z.to_nat n) /\
    forall j, Z.of_nat K - 2 - n < j < Z.of_nat m -> znth (fst st) j = Some (Some (co (Z.to_nat j)))).
  match goal with |- context [for_loop ?n ?i ?b ?s] => destruct (for_loop_inv PP b n i s) as ((cs, c) & E & (L1 & L2 & R)) end.
  - unfold PP. cbn [fst snd]. rewrite zlen_repeat. split; [lia|]. split; [reflexivity|]. intros; lia.
  - intros n (cs, c) Hn (L1 & L2 & R). cbn [fst snd] in *. subst c. set (i := Z.of_nat K - 2 - n) in *. destruct (H (Z.to_nat i)) as (Hu & Hz); [lia|].
    rewrite Z2Nat.id in Hu, Hz by lia. rewrite (HYz i (Z.to_nat i)) by lia. cbn [bind]. rewrite Hz. cbn [bind]. rewrite Hu. cbn [bind].
    rewrite (HYz (i + 1) (S (Z.to_nat i))) by lia. cbn [bind]. rewrite set_in_range by lia. cbn [bind]. eexists. split; [reflexivity|].
    assert (E1 : cdn (S (Z.to_nat n)) = (zz (Z.to_nat i) - uu (Z.to_nat i) * cdn (Z.to_nat n))%R).
    { cbn [cdn]. replace (K - 2 - Z.to_nat n)%nat with (Z.to_nat i) by lia. reflexivity. }
    assert (E2 : cc (Z.to_nat i) = cdn (S (Z.to_nat n))) by (unfold cc; f_equal; lia).
    assert (E3 : cc (S (Z.to_nat i)) = cdn (Z.to_nat n)) by (unfold cc; f_equal; lia).
    split; [cbn [fst]; rewrite zlen_zupd; lia|]. split.
    + cbn [snd]. replace (Z.to_nat (n + 1)) with (S (Z.to_nat n)) by lia. rewrite E1. reflexivity.
    + intros j Hj. cbn [fst]. rewrite !znth_zupd by lia. destruct (Z.eqb_spec j i) as [->|]; [|apply R; lia].
      unfold co. cbn [qq q0 q1 q2 q3]. rewrite E2, E3, E1. reflexivity.
  - exists cs, c. split; [exact E|]. cbn [fst snd] in R. intros i Hi. specialize (R (Z.of_nat i)). rewrite Nat2Z.id in R. apply geti_Some. apply R. lia.
Qed.
Lemma new_ok x0 dx : exists s, spl_new Rn (oreal Rn) (Z.of_nat K) Y x0 dx STRIDE = Ok s /\ sp_x0 s = x0 /\ sp_dx s = dx /\
  forall i, (i < m)%nat -> geti (sp_coef s) (Z.of_nat i) = Ok (co i).
Proof.
  unfold spl_new. destruct forward_ok as (U & Z & E & R). rewrite E. cbn [bind]. destruct (backward_ok U Z R) as (cs & c & E2 & R2). rewrite E2. cbn [bind].
  eexists. split; [reflexivity|]. auto.
Qed.

(** evaluation *)
Lemma at_ok s x : (forall i, (i < m)%nat -> geti (sp_coef s) (Z.of_nat i) = Ok (co i)) ->
  INT_MIN <= Ztrunc ((x - sp_x0 s) / sp_dx s)%R <= INT_MAX ->
  spl_at Rn (oreal Rn) Rtoint (Z.of_nat K) s x = Ok (NS ((x - sp_x0 s) / sp_dx s)%R).
Proof.
  intros H HR. unfold spl_at. cbn [nsub ndiv Rn]. set (tx := ((x - sp_x0 s) / sp_dx s)%R) in *. unfold Rtoint. rewrite ichk_ok by exact HR. cbn [bind].
  set (z := Ztrunc tx) in *.
  assert (Q : forall k t, inseg k tx -> t = (tx - INR k)%R -> (c <- geti (sp_coef s) (Z.of_nat k) ;; Ok (cA c + t * (cB c + t * (cC c + t * cD c)))%R) = Ok (NS tx)).
  { intros k t I ->. pose proof I as (Hk & _). rewrite H by exact Hk. cbn [bind]. rewrite (NS_piece k tx I). reflexivity. }
  assert (Neg : z < 0 -> (tx < 0)%R).
  { intros Hz. destruct (Rlt_dec tx 0); [auto|]. exfalso. unfold z in Hz. rewrite Ztrunc_floor in Hz by lra. apply (Zlt_not_le _ _ Hz). apply Zfloor_lub. lra. }
  assert (Pos : 0 <= z -> (tx < IZR z + 1)%R /\ (z = 0%Z \/ (IZR z <= tx)%R)).
  { intros Hz. unfold z in *. destruct (Rle_lt_dec 0 tx) as [L|L].
    - rewrite Ztrunc_floor by exact L. split; [apply Zfloor_ub|right; apply Zfloor_lb].
    - rewrite Ztrunc_ceil in * by lra. assert (Zceil tx <= 0) by (apply Zceil_glb; lra). assert (Zceil tx = 0) as -> by lia. split; [lra|auto]. }
  change (vadd (ov_ops (oreal Rn))) with Rplus. change (vscale (ov_ops (oreal Rn))) with Rmult. cbn [nofZ Rn].
  destruct (Z.ltb_spec z 0) as [Hz|Hz].
  - rewrite (proj2 (Z.leb_gt (Z.of_nat K - 1) 0)) by lia. apply (Q O); [|cbn; ring]. split; [lia|]. split; [auto|right]. specialize (Neg Hz). cbn. lra.
  - destruct (Pos Hz) as (P1 & P2). destruct (Z.leb_spec (Z.of_nat K - 1) z) as [Hk|Hk].
    + replace (Z.of_nat K - 2) with (Z.of_nat (m - 1)) by lia. apply Q; [|rewrite INR_IZR_INZ; reflexivity].
      split; [lia|]. split; [right|left; lia]. destruct P2 as [->|P2]; [lia|]. rewrite INR_IZR_INZ. apply Rle_trans with (IZR z); [apply IZR_le; lia|exact P2].
    + assert (Ez : z = Z.of_nat (Z.to_nat z)) by lia. revert P1 P2. rewrite Ez. rewrite <- INR_IZR_INZ. intros P1 P2. apply Q; [|reflexivity].
      split; [lia|]. split; [destruct P2 as [P2|P2]; [left; lia|right; exact P2]|right]. rewrite S_INR. lra.
Qed.
End Natural.
