(* Proofs about CubicHermiteSpline in Model/Spline.v *)
From Coq Require Import Reals ZArith List Lia Lra Psatz.
From Flocq Require Import Core.
From Coquelicot Require Import Coquelicot.
From Verif Require Import Model.Spline Spec.Fir Proofs.BaseLemmas Proofs.Piecewise.
Import ListNotations.
Open Scope R_scope.

Section Hermite.
Variables (n : nat) (X y : nat -> R).
Hypothesis Hn : (3 <= n)%nat.
Hypothesis incr : forall k, (k < n - 1)%nat -> X k < X (S k).
Notation m := (n - 1)%nat.
Definition dq (k : nat) : R := (y (S k) - y k) / (X (S k) - X k).
Definition mm (k : nat) : R := if (k =? 0)%nat then dq 0 else if (k =? m)%nat then dq (m - 1) else 0.5 * (dq (k - 1) + dq k).
Definition hh (k : nat) : R := X (S k) - X k.
Definition qh (k : nat) : cubic := mkCubic (y k) (mm k) ((3 * dq k - 2 * mm k - mm (S k)) / hh k) ((mm k + mm (S k) - 2 * dq k) / (hh k * hh k)).
Lemma hh_pos k : (k < m)%nat -> 0 < hh k.
Proof. intros H. unfold hh. specialize (incr k H). lra. Qed.
Lemma end0 k : (k < m)%nat -> cub (qh k) (X k) (X (S k)) = y (S k).
Proof. intros H. pose proof (hh_pos k H). unfold cub. cbn [qh q0 q1 q2 q3]. fold (hh k). unfold dq. fold (hh k). field. lra. Qed.
Lemma end1 k : (k < m)%nat -> cub1 (qh k) (X k) (X (S k)) = mm (S k).
Proof. intros H. pose proof (hh_pos k H). unfold cub1. cbn [qh q0 q1 q2 q3]. fold (hh k). unfold dq. fold (hh k). field. lra. Qed.
Lemma hstep0 k : (S k < m)%nat -> q0 (J X qh k) = 0.
Proof. intros H. unfold J, P. cbn [q0]. rewrite end0 by lia. cbn [qh q0]. ring. Qed.
Lemma hstep1 k : (S k < m)%nat -> q1 (J X qh k) = 0.
Proof. intros H. unfold J. cbn [q1]. rewrite end1 by lia. cbn [qh q1]. ring. Qed.

Definition HS : R -> R := G m X qh.
Definition HS1 : R -> R := G1 m X qh.
Definition hseg (j : nat) (x : R) : Prop := (j < m)%nat /\ (j = O \/ X j <= x) /\ (S j = m \/ x <= X (S j)).
Lemma HS_piece j x : hseg j x -> HS x = cub (qh j) (X j) x.
Proof. intros (A & B & D). apply (G_piece m X qh incr hstep0); auto. Qed.
Lemma HS1_piece j x : hseg j x -> HS1 x = cub1 (qh j) (X j) x.
Proof. intros (A & B & D). apply (G1_piece m X qh incr hstep1); auto. Qed.
Lemma HS_derive x : is_derive HS x (HS1 x).
Proof. apply G_derive; [exact hstep0|exact hstep1]. Qed.
Lemma HS1_cont x : continuous HS1 x.
Proof. apply G1_cont. exact hstep1. Qed.
Lemma hseg_knot k : (k < n)%nat -> exists j, hseg j (X k) /\ ((j = k /\ k < m)%nat \/ k = S j).
Proof.
  intros H. destruct (Nat.eq_dec k m) as [->|N].
  - exists (m - 1)%nat. split; [|right; lia]. split; [lia|]. split; [right|left; lia]. pose proof (incr (m - 1)). replace (S (m - 1)) with m in H0 by lia. apply Rlt_le, H0. lia.
  - exists k. split; [|left; lia]. split; [lia|]. split; [right; lra|right]. apply Rlt_le, incr. lia.
Qed.
Lemma HS_knot k : (k < n)%nat -> HS (X k) = y k.
Proof.
  intros H. destruct (hseg_knot k H) as (j & I & E). rewrite (HS_piece j _ I). destruct E as [(-> & _)| ->].
  - unfold cub. cbn [qh q0]. ring.
  - apply end0. apply I.
Qed.
Lemma HS1_knot k : (k < n)%nat -> HS1 (X k) = mm k.
Proof.
  intros H. destruct (hseg_knot k H) as (j & I & E). rewrite (HS1_piece j _ I). destruct E as [(-> & _)| ->].
  - unfold cub1. cbn [qh q1]. ring.
  - apply end1. apply I.
Qed.
Lemma hseg_ex x : exists j, hseg j x.
Proof.
  assert (Q : forall k, (k < m)%nat -> (exists j, (j < k)%nat /\ hseg j x) \/ (k = O \/ X k <= x)).
  { induction k as [|k IH]; intros Hk; [right; auto|]. destruct IH as [(j & Hj & I)|H]; [lia|left; exists j; split; [lia|auto]|].
    destruct (Rle_dec x (X (S k))) as [L|L]; [left; exists k; split; [lia|]; split; [lia|]; split; auto|right; right; lra]. }
  destruct (Q (m - 1)%nat) as [(j & _ & I)|H]; [lia|eauto|]. exists (m - 1)%nat. split; [lia|]. split; [exact H|left; lia].
Qed.
Lemma HS_linear p q : (forall k, (k < n)%nat -> y k = p + q * X k) -> forall x, HS x = p + q * x.
Proof.
  intros H x. assert (D : forall k, (k < m)%nat -> dq k = q).
  { intros k Hk. unfold dq. rewrite !H by lia. pose proof (incr k Hk). field. lra. }
  assert (Mq : forall k, (k < n)%nat -> mm k = q).
  { intros k Hk. unfold mm. destruct (Nat.eqb_spec k 0); [apply D; lia|]. destruct (Nat.eqb_spec k m); [apply D; lia|]. rewrite !D by lia. lra. }
  destruct (hseg_ex x) as (j & I). pose proof I as (Hj & _). rewrite (HS_piece j x I). unfold cub. cbn [qh q0 q1 q2 q3]. rewrite !Mq, D, H by lia.
  pose proof (hh_pos j Hj). field. lra.
Qed.

(** the code's formula on segment k *)
Definition hform (k : nat) (t : R) : R :=
  h00 Rn t * y k + h10 Rn t * hh k * mm k + h01 Rn t * y (S k) + h11 Rn t * hh k * mm (S k).
Lemma hform_eq k t : (k < m)%nat -> hform k t = cub (qh k) (X k) (X k + t * hh k).
Proof.
  intros H. pose proof (hh_pos k H). unfold hform, cub, h00, h10, h01, h11. cbn [nmul nadd nsub nofZ Rn qh q0 q1 q2 q3].
  unfold dq. fold (hh k). field. lra.
Qed.
Lemma hform_at k x : hseg k x -> hform k ((x - X k) / hh k) = HS x.
Proof.
  intros I. pose proof I as (Hk & _). rewrite hform_eq by auto. rewrite (HS_piece k x I). f_equal. pose proof (hh_pos k Hk). field. lra.
Qed.

Open Scope Z_scope.
(** arrays *)
Variables (XL YL : list R).
Hypothesis HX : forall i, (i < n)%nat -> get XL (Z.of_nat i) = Ok (X i).
Hypothesis HY : forall i, (i < n)%nat -> get YL (Z.of_nat i) = Ok (y i).
Lemma HXz i j : 0 <= i < Z.of_nat n -> j = Z.to_nat i -> get XL i = Ok (X j).
Proof. intros H ->. rewrite <- (Z2Nat.id i) at 1 by lia. apply HX. lia. Qed.
Lemma HYz i j : 0 <= i < Z.of_nat n -> j = Z.to_nat i -> get YL i = Ok (y j).
Proof. intros H ->. rewrite <- (Z2Nat.id i) at 1 by lia. apply HY. lia. Qed.
Notation OR := (oreal Rn).
Lemma left_ok k : 1 <= k < Z.of_nat n -> hx_left Rn OR XL YL k = Ok (dq (Z.to_nat k - 1)).
Proof.
  intros H. unfold hx_left. rewrite (HYz k (S (Z.to_nat k - 1))), (HYz (k - 1) (Z.to_nat k - 1)), (HXz k (S (Z.to_nat k - 1))), (HXz (k - 1) (Z.to_nat k - 1)) by lia.
  reflexivity.
Qed.
Lemma right_ok k : 0 <= k < Z.of_nat n - 1 -> hx_right Rn OR XL YL k = Ok (dq (Z.to_nat k)).
Proof.
  intros H. unfold hx_right. rewrite (HYz (k + 1) (S (Z.to_nat k))), (HYz k (Z.to_nat k)), (HXz (k + 1) (S (Z.to_nat k))), (HXz k (Z.to_nat k)) by lia.
  reflexivity.
Qed.
Lemma central_ok k : 1 <= k < Z.of_nat n - 1 -> hx_central Rn OR XL YL k = Ok (mm (Z.to_nat k)).
Proof.
  intros H. unfold hx_central. rewrite left_ok, right_ok by lia. cbn [bind]. unfold mm.
  rewrite (proj2 (Nat.eqb_neq (Z.to_nat k) 0)) by lia. rewrite (proj2 (Nat.eqb_neq (Z.to_nat k) m)) by lia. reflexivity.
Qed.
Lemma poly_ok k t m0 m1 : 0 <= k < Z.of_nat n - 1 -> m0 = Ok (mm (Z.to_nat k)) -> m1 = Ok (mm (S (Z.to_nat k))) ->
  hx_poly Rn OR XL YL t k m0 m1 = Ok (hform (Z.to_nat k) t).
Proof.
  intros H -> ->. unfold hx_poly. rewrite (HYz k (Z.to_nat k)), (HXz (k + 1) (S (Z.to_nat k))), (HXz k (Z.to_nat k)) by lia. cbn [bind].
  rewrite (HYz (k + 1) (S (Z.to_nat k))) by lia. reflexivity.
Qed.
(** which segment eval(.., k, n) uses *)
Definition clampseg (k : Z) : Z := if k <? 1 then 0 else if k <? Z.of_nat n - 2 then k else Z.of_nat n - 2.
Lemma seg_ok k t : hx_seg Rn OR XL YL t k (Z.of_nat n) = Ok (hform (Z.to_nat (clampseg k)) t).
Proof.
  unfold hx_seg, clampseg. destruct (Z.ltb_spec k 1); [|destruct (Z.ltb_spec k (Z.of_nat n - 2))].
  - apply poly_ok; [lia|rewrite right_ok by lia; reflexivity|]. rewrite central_ok by lia. reflexivity.
  - apply poly_ok; [lia|rewrite central_ok by lia; reflexivity|]. rewrite central_ok by lia. do 2 f_equal. lia.
  - apply poly_ok; [lia|rewrite central_ok by lia; reflexivity|]. rewrite left_ok by lia. f_equal. unfold mm.
    replace (S (Z.to_nat (Z.of_nat n - 2))) with m by lia. rewrite (proj2 (Nat.eqb_neq m 0)), Nat.eqb_refl by lia. f_equal. lia.
Qed.

Lemma lower_ok x : forall fuel first count, (Z.to_nat count <= fuel)%nat -> 0 <= first -> 0 <= count -> first + count <= Z.of_nat n ->
  (forall i, (Z.of_nat i < first) -> (X i < x)%R) -> (forall i, first + count <= Z.of_nat i < Z.of_nat n -> (x <= X i)%R) ->
  exists k, lower_bound Rn fuel XL first count x = Ok k /\ 0 <= k <= Z.of_nat n /\
    (forall i, (Z.of_nat i < k) -> (X i < x)%R) /\ (forall i, k <= Z.of_nat i < Z.of_nat n -> (x <= X i)%R).
Proof.
  assert (mono : forall i j, (i <= j < n)%nat -> (X i <= X j)%R).
  { intros i j Hij. destruct (Nat.eq_dec i j) as [->|]; [lra|]. apply Rlt_le. apply (X_mono m X incr). lia. }
  induction fuel as [|f IH]; intros first count Hf H0 H1 H2 A B; cbn [lower_bound].
  - rewrite (proj2 (Z.ltb_ge 0 count)) by lia. exists first. split; [reflexivity|]. split; [lia|]. split; [auto|]. intros; apply B; lia.
  - destruct (Z.ltb_spec 0 count) as [Hc|Hc].
    + pose proof (Z.div_pos count 2 ltac:(lia) ltac:(lia)). assert (count / 2 < count) by (apply Z.div_lt; lia).
      rewrite (HXz (first + count / 2) (Z.to_nat (first + count / 2))) by lia. cbn [bind nltb Rn].
      destruct (Rlt_bool_spec (X (Z.to_nat (first + count / 2))) x) as [L|L].
      * apply IH; try lia.
        -- intros i Hi. apply Rle_lt_trans with (X (Z.to_nat (first + count / 2))); [apply mono; lia|exact L].
        -- intros i Hi. apply B. lia.
      * apply IH; try lia; [exact A|]. intros i Hi. apply Rle_trans with (X (Z.to_nat (first + count / 2))); [exact L|apply mono; lia].
    + exists first. split; [reflexivity|]. split; [lia|]. split; [auto|]. intros; apply B; lia.
Qed.
Lemma hx_at_ok x : hx_at Rn OR XL YL x (Z.of_nat n) = Ok (HS x).
Proof.
  unfold hx_at. rewrite Nat2Z.id. destruct (lower_ok x n 0 (Z.of_nat n)) as (k & E & Hk & A & B); try (intros; lia).
  rewrite E. cbn [bind].
  assert (Q : forall j i i' k', (j < m)%nat -> i = Z.of_nat j -> i' = Z.of_nat (S j) -> clampseg k' = Z.of_nat j -> hseg j x ->
    (t <- (xi <- get XL i ;; xj <- get XL i' ;; Ok (ndiv Rn (nsub Rn x xi) (nsub Rn xj xi))) ;; hx_seg Rn OR XL YL t k' (Z.of_nat n)) = Ok (HS x)).
  { intros j i i' k' Hj -> -> Hc I. rewrite !HX by lia. cbn [bind]. rewrite seg_ok, Hc, Nat2Z.id. cbn [nsub ndiv Rn]. fold (hh j). f_equal. apply hform_at; auto. }
  unfold clampseg in Q. destruct (Z.ltb_spec k 1); [|destruct (Z.ltb_spec k (Z.of_nat n))].
  - apply (Q O); try lia; [reflexivity|]. split; [lia|]. split; [auto|right]. apply B. lia.
  - apply (Q (Z.to_nat (k - 1))); try lia.
    + destruct (Z.ltb_spec (k - 1) 1); [lia|]. destruct (Z.ltb_spec (k - 1) (Z.of_nat n - 2)); lia.
    + split; [lia|]. split; [right; apply Rlt_le, A; lia|right]. apply B. lia.
  - apply (Q (n - 2)%nat); try lia.
    + destruct (Z.ltb_spec (Z.of_nat n - 1) 1); [lia|]. destruct (Z.ltb_spec (Z.of_nat n - 1) (Z.of_nat n - 2)); lia.
    + split; [lia|]. split; [right; apply Rlt_le, A; lia|left; lia].
Qed.
End Hermite.

Section Uniform.
Variables (n : nat) (y : nat -> R).
Hypothesis Hn : (3 <= n)%nat.
Notation m := (n - 1)%nat.
Notation X := INR.
Lemma uincr k : (k < n - 1)%nat -> X k < X (S k).
Proof. intros _. rewrite S_INR. lra. Qed.
Lemma uhh k : hh X k = 1.
Proof. unfold hh. rewrite S_INR. ring. Qed.
Lemma udq k : dq X y k = y (S k) - y k.
Proof. unfold dq. rewrite S_INR. field. lra. Qed.
Open Scope Z_scope.
Variable YL : list R.
Hypothesis HY : forall i, (i < n)%nat -> get YL (Z.of_nat i) = Ok (y i).
Let HYz' := HYz n y Hn YL HY.
Notation OR := (oreal Rn).
Lemma uleft_ok k : 1 <= k < Z.of_nat n -> hu_left OR YL k = Ok (dq X y (Z.to_nat k - 1)).
Proof. intros H. unfold hu_left. rewrite (HYz' k (S (Z.to_nat k - 1))), (HYz' (k - 1) (Z.to_nat k - 1)%nat) by lia. rewrite udq. reflexivity. Qed.
Lemma uright_ok k : 0 <= k < Z.of_nat n - 1 -> hu_right OR YL k = Ok (dq X y (Z.to_nat k)).
Proof. intros H. unfold hu_right. rewrite (HYz' (k + 1) (S (Z.to_nat k))), (HYz' k (Z.to_nat k)) by lia. rewrite udq. reflexivity. Qed.
Lemma ucentral_ok k : 1 <= k < Z.of_nat n - 1 -> hu_central Rn OR YL k = Ok (mm n X y (Z.to_nat k)).
Proof.
  intros H. unfold hu_central. rewrite (HYz' (k + 1) (S (Z.to_nat k))), (HYz' (k - 1) (Z.to_nat k - 1)%nat) by lia. cbn [bind]. unfold mm.
  rewrite (proj2 (Nat.eqb_neq (Z.to_nat k) 0)) by lia. rewrite (proj2 (Nat.eqb_neq (Z.to_nat k) m)) by lia. rewrite !udq. f_equal.
  replace (S (Z.to_nat k - 1)) with (Z.to_nat k) by lia. cbn. ring.
Qed.
Lemma upoly_ok k t m0 m1 : 0 <= k < Z.of_nat n - 1 -> m0 = Ok (mm n X y (Z.to_nat k)) -> m1 = Ok (mm n X y (S (Z.to_nat k))) ->
  hu_poly Rn OR YL t k m0 m1 = Ok (hform n X y (Z.to_nat k) t).
Proof.
  intros H -> ->. unfold hu_poly. rewrite (HYz' k (Z.to_nat k)) by lia. cbn [bind].
  rewrite (HYz' (k + 1) (S (Z.to_nat k))) by lia. cbn [bind]. unfold hform. rewrite uhh, !Rmult_1_r. reflexivity.
Qed.
Lemma useg_ok k t : hu_seg Rn OR YL t k (Z.of_nat n) = Ok (hform n X y (Z.to_nat (clampseg n k)) t).
Proof.
  unfold hu_seg, clampseg. destruct (Z.ltb_spec k 1); [|destruct (Z.ltb_spec k (Z.of_nat n - 2))].
  - apply upoly_ok; [lia|rewrite uright_ok by lia; reflexivity|]. rewrite ucentral_ok by lia. reflexivity.
  - apply upoly_ok; [lia|rewrite ucentral_ok by lia; reflexivity|]. rewrite ucentral_ok by lia. do 2 f_equal. lia.
  - apply upoly_ok; [lia|rewrite ucentral_ok by lia; reflexivity|]. rewrite uleft_ok by lia. f_equal. unfold mm.
    replace (S (Z.to_nat (Z.of_nat n - 2))) with m by lia. rewrite (proj2 (Nat.eqb_neq m 0)), Nat.eqb_refl by lia. f_equal. lia.
Qed.
Lemma hu_at_ok x x0 dx : INT_MIN <= Ztrunc ((x - x0) / dx)%R <= INT_MAX ->
  hu_at Rn OR Rtoint YL x (Z.of_nat n) x0 dx = Ok (HS n X y ((x - x0) / dx)%R).
Proof.
  intros HR. unfold hu_at. cbn [nsub ndiv Rn]. set (tx := ((x - x0) / dx)%R) in *. unfold Rtoint. rewrite ichk_ok by exact HR. cbn [bind].
  set (z := Ztrunc tx) in *.
  assert (Q : forall j k t, hseg n X j tx -> clampseg n k = Z.of_nat j -> t = (tx - INR j)%R -> hu_seg Rn OR YL t k (Z.of_nat n) = Ok (HS n X y tx)).
  { intros j k t I Hc ->. rewrite useg_ok, Hc, Nat2Z.id. f_equal. rewrite <- (hform_at n X y Hn uincr j tx I). f_equal. rewrite uhh. field. }
  assert (Neg : z < 0 -> (tx < 0)%R).
  { intros Hz. destruct (Rlt_dec tx 0); [auto|]. exfalso. unfold z in Hz. rewrite Ztrunc_floor in Hz by lra. apply (Zlt_not_le _ _ Hz). apply Zfloor_lub. lra. }
  assert (Pos : 0 <= z -> (tx < IZR z + 1)%R /\ (z = 0%Z \/ (IZR z <= tx)%R)).
  { intros Hz. unfold z in *. destruct (Rle_lt_dec 0 tx) as [L|L].
    - rewrite Ztrunc_floor by exact L. split; [apply Zfloor_ub|right; apply Zfloor_lb].
    - rewrite Ztrunc_ceil in * by lra. assert (Zceil tx <= 0) by (apply Zceil_glb; lra). assert (Zceil tx = 0) as -> by lia. split; [lra|auto]. }
  cbn [nofZ Rn]. unfold clampseg in Q.
  destruct (Z.ltb_spec z 0) as [Hz|Hz].
  - apply (Q O); [|reflexivity|cbn; ring]. split; [lia|]. split; [auto|right]. specialize (Neg Hz). cbn. lra.
  - destruct (Pos Hz) as (P1 & P2). destruct (Z.ltb_spec z (Z.of_nat n - 1)) as [Hk|Hk].
    + apply (Q (Z.to_nat z)).
      * assert (Ez : z = Z.of_nat (Z.to_nat z)) by lia. revert P1 P2. rewrite Ez at 1 3. rewrite <- INR_IZR_INZ. intros P1 P2.
        split; [lia|]. split; [destruct P2 as [P2|P2]; [left; lia|right; exact P2]|right]. rewrite S_INR. lra.
      * destruct (Z.ltb_spec z 1); [lia|]. destruct (Z.ltb_spec z (Z.of_nat n - 2)); lia.
      * rewrite INR_IZR_INZ, Z2Nat.id by lia. reflexivity.
    + apply (Q (n - 2)%nat).
      * split; [lia|]. split; [right|left; lia]. destruct P2 as [->|P2]; [lia|]. rewrite INR_IZR_INZ. apply Rle_trans with (IZR z); [apply IZR_le; lia|exact P2].
      * destruct (Z.ltb_spec (Z.of_nat n - 2) 1); [lia|]. destruct (Z.ltb_spec (Z.of_nat n - 2) (Z.of_nat n - 2)); lia.
      * rewrite INR_IZR_INZ. do 2 f_equal. lia.
Qed.
End Uniform.
