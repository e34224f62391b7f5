(* Functions glued from polynomials *)
From Coq Require Import Reals ZArith List Lia Lra Psatz.
From Coquelicot Require Import Coquelicot.
From Verif Require Import Spec.Fir.
Open Scope R_scope.

Ltac rring := match goal with |- ?a = ?b => change (@eq R a b) end; ring.
Lemma Rdiag r : r - r = 0. Proof. ring. Qed.
(** 0 up to X, f beyond *)
Definition cut (X : R) (f : R -> R) (x : R) : R := if Rle_dec x X then 0 else f x.

Lemma cut_derive X f f' : (forall x, is_derive f x (f' x)) -> f X = 0 -> f' X = 0 -> forall x, is_derive (cut X f) x (cut X f' x).
Proof.
  intros D F0 F1 x. destruct (Rtotal_order x X) as [L|[->|G]].
  - unfold cut at 2. destruct (Rle_dec x X); [|lra]. apply is_derive_ext_loc with (fun _ => 0); [|apply (is_derive_const 0 x)].
    exists (mkposreal (X - x) ltac:(lra)). intros y Hy. unfold ball in Hy; cbn in Hy. unfold AbsRing_ball, abs, minus, plus, opp in Hy; cbn in Hy.
    unfold cut. destruct (Rle_dec y X); [reflexivity|]. apply Rabs_lt_between in Hy. lra.
  - unfold cut at 2. destruct (Rle_dec X X); [|lra]. apply is_derive_Reals. intros eps He.
    pose proof (proj1 (is_derive_Reals f X (f' X)) (D X)) as DX. destruct (DX eps He) as (delta & Hd). exists delta. intros h Hh Hl. specialize (Hd h Hh Hl).
    rewrite F0, F1 in Hd. unfold cut. destruct (Rle_dec X X); [|lra]. destruct (Rle_dec (X + h) X); [|exact Hd].
    replace ((0 - 0) / h - 0) with 0 by (field; exact Hh). rewrite Rabs_R0. exact He.
  - unfold cut at 2. destruct (Rle_dec x X); [lra|]. apply is_derive_ext_loc with f; [|apply D].
    exists (mkposreal (x - X) ltac:(lra)). intros y Hy. unfold ball in Hy; cbn in Hy. unfold AbsRing_ball, abs, minus, plus, opp in Hy; cbn in Hy.
    unfold cut. destruct (Rle_dec y X); [|reflexivity]. apply Rabs_lt_between in Hy. lra.
Qed.
Lemma cut_continuous X f : (forall x, continuous f x) -> f X = 0 -> forall x, continuous (cut X f) x.
Proof.
  intros D F0 x. destruct (Rtotal_order x X) as [L|[->|G]].
  - apply continuous_ext_loc with (fun _ => 0); [|apply continuous_const].
    exists (mkposreal (X - x) ltac:(lra)). intros y Hy. unfold ball in Hy; cbn in Hy. unfold AbsRing_ball, abs, minus, plus, opp in Hy; cbn in Hy.
    unfold cut. destruct (Rle_dec y X); [reflexivity|]. apply Rabs_lt_between in Hy. lra.
  - apply continuity_pt_filterlim. intros eps He. destruct (proj2 (continuity_pt_filterlim f X) (D X) eps He) as (al & Ha & H).
    exists al. split; [exact Ha|]. intros y Hy. specialize (H y Hy). rewrite F0 in H. unfold cut. destruct (Rle_dec X X); [|lra]. destruct (Rle_dec y X); [|exact H].
    cbn. unfold R_dist. rewrite Rminus_0_r, Rabs_R0. exact He.
  - apply continuous_ext_loc with f; [|apply D].
    exists (mkposreal (x - X) ltac:(lra)). intros y Hy. unfold ball in Hy; cbn in Hy. unfold AbsRing_ball, abs, minus, plus, opp in Hy; cbn in Hy.
    unfold cut. destruct (Rle_dec y X); [|reflexivity]. apply Rabs_lt_between in Hy. lra.
Qed.

Lemma Rsumn_derive n (f f' : nat -> R -> R) x : (forall k, (k < n)%nat -> is_derive (f k) x (f' k x)) ->
  is_derive (fun x => Rsumn n (fun k => f k x)) x (Rsumn n (fun k => f' k x)).
Proof.
  induction n as [|n IH]; intros H; cbn [Rsumn]; [apply (is_derive_const 0 x)|].
  apply (is_derive_plus (fun x => Rsumn n (fun k => f k x)) (f n) x (Rsumn n (fun k => f' k x)) (f' n x)); auto.
Qed.
Lemma Rsumn_continuous n (f : nat -> R -> R) x : (forall k, (k < n)%nat -> continuous (f k) x) -> continuous (fun x => Rsumn n (fun k => f k x)) x.
Proof.
  induction n as [|n IH]; intros H; cbn [Rsumn]; [apply continuous_const|].
  apply (continuous_plus (fun x => Rsumn n (fun k => f k x)) (f n)); auto.
Qed.

(** cubic around p *)
Record cubic := mkCubic { q0 : R; q1 : R; q2 : R; q3 : R }.
Definition cub (q : cubic) (p x : R) : R := q0 q + (x - p) * (q1 q + (x - p) * (q2 q + (x - p) * q3 q)).
Definition cub1 (q : cubic) (p x : R) : R := q1 q + (x - p) * (2 * q2 q + (x - p) * (3 * q3 q)).
Definition cub2 (q : cubic) (p x : R) : R := 2 * q2 q + (x - p) * (6 * q3 q).
Lemma cub_derive q p x : is_derive (cub q p) x (cub1 q p x).
Proof. unfold cub, cub1. auto_derive; [exact I|ring]. Qed.
Lemma cub1_derive q p x : is_derive (cub1 q p) x (cub2 q p x).
Proof. unfold cub1, cub2. auto_derive; [exact I|ring]. Qed.
Lemma ex_derive_cont f x (l : R) : is_derive f x l -> continuous f x.
Proof. intros H. apply ex_derive_continuous. exists l. exact H. Qed.
Lemma cub2_cont q p x : continuous (cub2 q p) x.
Proof. apply ex_derive_cont with (6 * q3 q). unfold cub2. auto_derive; [exact I|ring]. Qed.

Section Glue.
(** m segments, knots X 0 .. X m, segment k is [cub (Q k) (X k)] *)
Variables (m : nat) (X : nat -> R) (Q : nat -> cubic).
Definition P (k : nat) : R -> R := cub (Q k) (X k).
(** the step at knot k + 1: differences of the coefficients around X (k + 1) *)
Definition h (k : nat) : R := X (S k) - X k.
Definition J (k : nat) : cubic := mkCubic (q0 (Q (S k)) - P k (X (S k))) (q1 (Q (S k)) - cub1 (Q k) (X k) (X (S k)))
  (q2 (Q (S k)) - cub2 (Q k) (X k) (X (S k)) / 2) (q3 (Q (S k)) - q3 (Q k)).
Definition G (x : R) : R := P 0 x + Rsumn (m - 1) (fun k => cut (X (S k)) (cub (J k) (X (S k))) x).
Definition G1 (x : R) : R := cub1 (Q 0) (X 0) x + Rsumn (m - 1) (fun k => cut (X (S k)) (cub1 (J k) (X (S k))) x).
Definition G2 (x : R) : R := cub2 (Q 0) (X 0) x + Rsumn (m - 1) (fun k => cut (X (S k)) (cub2 (J k) (X (S k))) x).

Lemma J_diff k x : cub (J k) (X (S k)) x = P (S k) x - P k x.
Proof. unfold J, P, cub, cub1, cub2. cbn [q0 q1 q2 q3]. field. Qed.
Lemma J1_diff k x : cub1 (J k) (X (S k)) x = cub1 (Q (S k)) (X (S k)) x - cub1 (Q k) (X k) x.
Proof. unfold J, P, cub, cub1, cub2. cbn [q0 q1 q2 q3]. field. Qed.
Lemma J2_diff k x : cub2 (J k) (X (S k)) x = cub2 (Q (S k)) (X (S k)) x - cub2 (Q k) (X k) x.
Proof. unfold J, P, cub, cub1, cub2. cbn [q0 q1 q2 q3]. field. Qed.

Hypothesis incr : forall k, (k < m)%nat -> X k < X (S k).
Lemma X_mono i j : (i < j <= m)%nat -> X i < X j.
Proof. intros [H1 H2]. induction H1 as [|j H IH]; [apply incr; lia|]. apply Rlt_trans with (X j); [apply IH; lia|apply incr; lia]. Qed.

(** summing the cut differences up to the segment of x telescopes *)
Lemma tele (F : nat -> R -> R) j x : (j < m)%nat -> (j = O \/ X j <= x) -> (S j = m \/ x <= X (S j)) ->
  (forall k, (S k < m)%nat -> F (S k) (X (S k)) = F k (X (S k))) ->
  F O x + Rsumn (m - 1) (fun k => cut (X (S k)) (fun x => F (S k) x - F k x) x) = F j x.
Proof.
  intros Hj Hl Hr Hc.
  assert (A : forall n, (n <= j)%nat -> F O x + Rsumn n (fun k => cut (X (S k)) (fun x => F (S k) x - F k x) x) = F n x).
  { induction n as [|n IH]; intros Hn; cbn [Rsumn]; [ring|]. rewrite <- Rplus_assoc, IH by lia. unfold cut. destruct (Rle_dec x (X (S n))) as [L|L]; [|ring].
    assert (x = X (S n)) as ->.
    { destruct Hl as [->|Hl]; [lia|]. destruct (Nat.eq_dec (S n) j) as [E|]; [rewrite <- E in Hl; lra|]. assert (X (S n) < X j) by (apply X_mono; lia). lra. }
    rewrite Hc by lia. ring. }
  assert (B : forall n, (j <= n <= m - 1)%nat -> F O x + Rsumn n (fun k => cut (X (S k)) (fun x => F (S k) x - F k x) x) = F j x).
  { induction n as [|n IH]; intros Hn; [replace j with O by lia; apply (A O); lia|]. destruct (Nat.eq_dec j (S n)) as [E|]; [rewrite E in *; apply A; lia|].
    cbn [Rsumn]. rewrite <- Rplus_assoc, IH by lia. unfold cut. destruct (Rle_dec x (X (S n))) as [L|L]; [ring|]. exfalso. apply L.
    destruct Hr as [Hr|Hr]; [lia|]. destruct (Nat.eq_dec n j) as [E|]; [rewrite E; auto|]. assert (X (S j) < X (S n)) by (apply X_mono; lia). lra. }
  apply B. lia.
Qed.
Lemma cut_ext c f g x : (forall x, f x = g x) -> cut c f x = cut c g x.
Proof. intros H. unfold cut. destruct (Rle_dec x c); auto. Qed.
Lemma Rsumn_ext' n f g : (forall i, (i < n)%nat -> f i = g i) -> Rsumn n f = Rsumn n g.
Proof. induction n as [|n IH]; intros H; [reflexivity|]. cbn [Rsumn]. rewrite IH, H; auto. Qed.

Hypothesis C0 : forall k, (S k < m)%nat -> q0 (J k) = 0.
Hypothesis C1 : forall k, (S k < m)%nat -> q1 (J k) = 0.
Lemma G_piece j x : (j < m)%nat -> (j = O \/ X j <= x) -> (S j = m \/ x <= X (S j)) -> G x = P j x.
Proof.
  intros Hj Hl Hr. rewrite <- (tele P j x Hj Hl Hr).
  - unfold G. f_equal. apply Rsumn_ext'. intros k Hk. apply cut_ext. apply J_diff.
  - intros k Hk. pose proof (C0 k Hk) as E. cbn [J q0] in E. unfold P at 1, cub. rewrite Rdiag. lra.
Qed.
Lemma G1_piece j x : (j < m)%nat -> (j = O \/ X j <= x) -> (S j = m \/ x <= X (S j)) -> G1 x = cub1 (Q j) (X j) x.
Proof.
  intros Hj Hl Hr. rewrite <- (tele (fun k => cub1 (Q k) (X k)) j x Hj Hl Hr).
  - unfold G1. f_equal. apply Rsumn_ext'. intros k Hk. apply cut_ext. apply J1_diff.
  - intros k Hk. pose proof (C1 k Hk) as E. cbn [J q1] in E. unfold cub1 at 1. rewrite Rdiag. lra.
Qed.
Lemma G_derive x : is_derive G x (G1 x).
Proof.
  apply (is_derive_plus (P 0) (fun x => Rsumn (m - 1) (fun k => cut (X (S k)) (cub (J k) (X (S k))) x)) x (cub1 (Q 0) (X 0) x)
    (Rsumn (m - 1) (fun k => cut (X (S k)) (cub1 (J k) (X (S k))) x))); [apply cub_derive|].
  apply (Rsumn_derive (m - 1) (fun k => cut (X (S k)) (cub (J k) (X (S k)))) (fun k => cut (X (S k)) (cub1 (J k) (X (S k))))). intros k Hk. apply cut_derive.
  - intros y. apply cub_derive.
  - unfold cub. rewrite Rdiag, C0 by lia. rring.
  - unfold cub1. rewrite Rdiag, C1 by lia. rring.
Qed.
Lemma G1_cont x : continuous G1 x.
Proof.
  apply (continuous_plus (cub1 (Q 0) (X 0)) (fun x => Rsumn (m - 1) (fun k => cut (X (S k)) (cub1 (J k) (X (S k))) x))).
  - eapply ex_derive_cont. apply cub1_derive.
  - apply (Rsumn_continuous (m - 1) (fun k => cut (X (S k)) (cub1 (J k) (X (S k))))). intros k Hk. apply cut_continuous.
    + intros y. eapply ex_derive_cont. apply cub1_derive.
    + unfold cub1. rewrite Rdiag, C1 by lia. rring.
Qed.
Hypothesis C2 : forall k, (S k < m)%nat -> q2 (J k) = 0.
Lemma G2_piece j x : (j < m)%nat -> (j = O \/ X j <= x) -> (S j = m \/ x <= X (S j)) -> G2 x = cub2 (Q j) (X j) x.
Proof.
  intros Hj Hl Hr. rewrite <- (tele (fun k => cub2 (Q k) (X k)) j x Hj Hl Hr).
  - unfold G2. f_equal. apply Rsumn_ext'. intros k Hk. apply cut_ext. apply J2_diff.
  - intros k Hk. pose proof (C2 k Hk) as E. cbn [J q2] in E. unfold cub2 at 1. rewrite Rdiag. lra.
Qed.
Lemma G1_derive x : is_derive G1 x (G2 x).
Proof.
  apply (is_derive_plus (cub1 (Q 0) (X 0)) (fun x => Rsumn (m - 1) (fun k => cut (X (S k)) (cub1 (J k) (X (S k))) x)) x (cub2 (Q 0) (X 0) x)
    (Rsumn (m - 1) (fun k => cut (X (S k)) (cub2 (J k) (X (S k))) x))); [apply cub1_derive|].
  apply (Rsumn_derive (m - 1) (fun k => cut (X (S k)) (cub1 (J k) (X (S k)))) (fun k => cut (X (S k)) (cub2 (J k) (X (S k))))). intros k Hk. apply cut_derive.
  - intros y. apply cub1_derive.
  - unfold cub1. rewrite Rdiag, C1 by lia. rring.
  - unfold cub2. rewrite Rdiag, C2 by lia. rring.
Qed.
Lemma G2_cont x : continuous G2 x.
Proof.
  apply (continuous_plus (cub2 (Q 0) (X 0)) (fun x => Rsumn (m - 1) (fun k => cut (X (S k)) (cub2 (J k) (X (S k))) x))).
  - apply cub2_cont.
  - apply (Rsumn_continuous (m - 1) (fun k => cut (X (S k)) (cub2 (J k) (X (S k))))). intros k Hk. apply cut_continuous.
    + intros y. apply cub2_cont.
    + unfold cub2. rewrite Rdiag, C2 by lia. rring.
Qed.
End Glue.
