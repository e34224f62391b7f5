(* C97: how well the splines of spline.hh reproduce a smooth function from its samples. *)
From Coq Require Import Reals ZArith List Psatz Lia.
From Coquelicot Require Import Coquelicot.
From Flocq Require Import Core.
From Verif Require Import Model.Base Model.Num Model.Spline Spec.Interp Proofs.BaseLemmas Props.PSpline Proofs.SplineErr.
Import ListNotations.
Open Scope R_scope.

(** G is twice differentiable on [a, b] and its second derivative is at most B in magnitude *)
Definition curve (G : R -> R) (a b B : R) : Prop := exists G1 G2 : R -> R,
  (forall x, a <= x <= b -> is_derive G x (G1 x)) /\ (forall x, a <= x <= b -> is_derive G1 x (G2 x)) /\ (forall x, a <= x <= b -> Rabs (G2 x) <= B).

Lemma trunc_int x0 dx K x : 0 < dx -> (Z.of_nat K <= INT_MAX)%Z -> x0 <= x <= x0 + dx * INR K -> (INT_MIN <= Ztrunc ((x - x0) / dx) <= INT_MAX)%Z.
Proof.
  intros Hd HK Hx. assert (0 <= (x - x0) / dx) by (apply Rdiv_le_0_compat; lra).
  assert ((x - x0) / dx <= INR K). { apply Rmult_le_reg_r with dx; [lra|]. unfold Rdiv. rewrite Rmult_assoc, Rinv_l by lra. lra. }
  rewrite INR_IZR_INZ in H0. rewrite Ztrunc_floor by auto. split.
  - apply Z.le_trans with 0%Z; [unfold INT_MIN; lia|]. apply Zfloor_lub. exact H.
  - apply Z.le_trans with (Z.of_nat K); [|auto]. apply le_IZR. eapply Rle_trans; [apply Zfloor_lb|exact H0].
Qed.
Lemma interp_ext n u y y' F : (forall k, (k < n)%nat -> y k = y' k) -> interpolates n u y F -> interpolates n u y' F.
Proof. intros E I k Hk. rewrite <- E by auto. apply I; auto. Qed.
Lemma natural_ext n u y y' F : (forall k, (k < n)%nat -> y k = y' k) -> natural_spline n u y F -> natural_spline n u y' F.
Proof. intros E (I & P). split; [eapply interp_ext; eauto|exact P]. Qed.
Lemma hermite_ext n u y y' F : (3 <= n)%nat -> (forall k, (k < n)%nat -> y k = y' k) -> hermite_spline n u y F -> hermite_spline n u y' F.
Proof.
  intros Hn E (I & P & F1 & D & C & M0 & M1 & Mk). split; [eapply interp_ext; eauto|]. split; [exact P|]. exists F1. unfold chord in *. rewrite <- !E by lia.
  replace (S (n - 2)) with (n - 1)%nat in * by lia. rewrite <- ?E by lia. refine (conj D (conj C (conj M0 (conj M1 _)))).
  intros k Hk. rewrite <- !E by lia. apply Mk; auto.
Qed.

(** C97: UniformNaturalCubicSpline through samples of G: the error is at most B dx^2 / 2 between the first and the last knot *)
Theorem C97_natural : forall (K STRIDE : nat) (Y : list R) (x0 dx : R) (G : R -> R) (B : R), (2 <= K)%nat -> 0 < dx ->
  ((K - 1) * STRIDE < length Y)%nat -> (Z.of_nat ((K - 1) * STRIDE) <= INT_MAX)%Z -> (Z.of_nat K <= INT_MAX)%Z ->
  curve G x0 (x0 + dx * INR (K - 1)) B -> (forall k, (k < K)%nat -> nth (k * STRIDE) Y 0 = G (x0 + dx * INR k)) ->
  exists s, spl_new Rn (oreal Rn) (Z.of_nat K) Y x0 dx (Z.of_nat STRIDE) = Ok s /\
    forall x, x0 <= x <= x0 + dx * INR (K - 1) -> exists v, spl_at Rn (oreal Rn) Rtoint (Z.of_nat K) s x = Ok v /\ Rabs (v - G x) <= B / 2 * dx ^ 2.
Proof.
  intros K STRIDE Y x0 dx G B HK Hd HL HI HM (G1 & G2 & D1 & D2 & HB) HY.
  destruct (C63_natural_x K STRIDE Y x0 dx HK Hd HL HI) as (s & F & E & N & A). exists s. split; [exact E|]. intros x Hx. exists (F x).
  assert (KI : INR (K - 1) <= INR K) by (apply le_INR; lia). pose proof (pos_INR (K - 1)).
  split; [apply A; apply (trunc_int x0 dx K); auto; split; [lra|]; assert (dx * INR (K - 1) <= dx * INR K) by (apply Rmult_le_compat_l; lra); lra|].
  assert (U0 : x0 = x0 + dx * INR 0) by (cbn; ring). assert (B0 : 0 <= B) by (eapply Rle_trans; [apply Rabs_pos|apply (HB x Hx)]).
  assert (Su : forall k : nat, x0 + dx * INR (S k) - (x0 + dx * INR k) = dx) by (intros k; rewrite S_INR; ring).
  apply (natural_error K (fun k => x0 + dx * INR k) G G1 G2 B); auto; rewrite <- ?U0; auto.
  - intros k _. specialize (Su k). lra.
  - eapply natural_ext; [|exact N]. exact HY.
Qed.
Print Assumptions C97_natural.

(** C97: so the spline through K equidistant samples of G on [a, b] converges to G *)
Theorem C97_converges : forall (G : R -> R) (a b B eps : R), a < b -> curve G a b B -> 0 < eps ->
  exists N : nat, forall (K : nat) (Y : list R), (N <= K)%nat -> (2 <= K)%nat -> (Z.of_nat K <= INT_MAX)%Z -> length Y = K ->
    (forall k, (k < K)%nat -> nth k Y 0 = G (a + (b - a) / INR (K - 1) * INR k)) ->
    exists s, spl_new Rn (oreal Rn) (Z.of_nat K) Y a ((b - a) / INR (K - 1)) 1 = Ok s /\
      forall x, a <= x <= b -> exists v, spl_at Rn (oreal Rn) Rtoint (Z.of_nat K) s x = Ok v /\ Rabs (v - G x) <= eps.
Proof.
  intros G a b B eps Hab HC He. destruct (archimed (B / 2 * (b - a) ^ 2 / eps)) as [Ar _]. set (z := up (B / 2 * (b - a) ^ 2 / eps)) in *.
  exists (S (Z.to_nat z)). intros K Y HN H2 HI LY HY. set (m := INR (K - 1)) in *.
  assert (M1 : 1 <= m) by (unfold m; replace 1 with (INR 1) by reflexivity; apply le_INR; lia).
  assert (Mz : IZR z <= m). { unfold m. rewrite INR_IZR_INZ. apply IZR_le. lia. }
  assert (Hd : 0 < (b - a) / m) by (apply Rdiv_lt_0_compat; lra). assert (End : a + (b - a) / m * m = b) by (field; lra).
  assert (B0 : 0 <= B) by (destruct HC as (G1 & G2 & _ & _ & HB); eapply Rle_trans; [apply Rabs_pos|apply (HB a); lra]).
  destruct (C97_natural K 1 Y a ((b - a) / m) G B) as (s & E & A); auto; try lia.
  - fold m. rewrite End. exact HC.
  - intros k Hk. rewrite Nat.mul_1_r. auto.
  - exists s. split; [exact E|]. intros x Hx. destruct (A x) as (v & Ev & Bv); [fold m; rewrite End; exact Hx|]. exists v. split; [exact Ev|]. eapply Rle_trans; [exact Bv|].
    replace (B / 2 * ((b - a) / m) ^ 2) with (B / 2 * (b - a) ^ 2 / m / m) by (field; lra).
    assert (Q : 0 <= B / 2 * (b - a) ^ 2) by (apply Rmult_le_pos; [lra|apply pow2_ge_0]). set (q := B / 2 * (b - a) ^ 2) in *.
    assert (q <= eps * m). { assert (q / eps <= m) by lra. apply (Rmult_le_compat_r eps) in H; [|lra]. unfold Rdiv in H. rewrite Rmult_assoc, Rinv_l in H by lra. lra. }
    apply Rmult_le_reg_r with m; [lra|]. unfold Rdiv at 1. rewrite Rmult_assoc, Rinv_l, Rmult_1_r by lra. apply Rmult_le_reg_r with m; [lra|]. unfold Rdiv. rewrite Rmult_assoc, Rinv_l, Rmult_1_r by lra.
    assert (eps * m * 1 <= eps * m * m) by (apply Rmult_le_compat_l; [apply Rmult_le_pos; lra|lra]). lra.
Qed.
Print Assumptions C97_converges.

(** C97: CubicHermiteSpline with given knots at most h apart: the error is at most B h^2 / 4 *)
Theorem C97_hermite : forall (n : nat) (X Y : list R) (G : R -> R) (B h : R), (3 <= n)%nat -> (n <= length X)%nat -> (n <= length Y)%nat ->
  (forall k, (k < n - 1)%nat -> nth k X 0 < nth (S k) X 0 <= nth k X 0 + h) ->
  curve G (nth 0 X 0) (nth (n - 1) X 0) B -> (forall k, (k < n)%nat -> nth k Y 0 = G (nth k X 0)) ->
  forall x, nth 0 X 0 <= x <= nth (n - 1) X 0 -> exists v, hx_at Rn (oreal Rn) X Y x (Z.of_nat n) = Ok v /\ Rabs (v - G x) <= B / 4 * h ^ 2.
Proof.
  intros n X Y G B h Hn LX LY HX (G1 & G2 & D1 & D2 & HB) HY x Hx.
  destruct (C64_hermite n X Y Hn LX LY) as (F & H & E); [intros k Hk; apply HX; auto|]. exists (F x). split; [apply E|].
  apply (hermite_error n (fun k => nth k X 0) G G1 G2 B); auto.
  - intros k Hk. apply HX. lia.
  - intros k Hk. destruct (HX k ltac:(lia)). lra.
  - eapply Rle_trans; [apply Rabs_pos|apply (HB x Hx)].
  - eapply hermite_ext; [auto| |exact H]. exact HY.
Qed.
Print Assumptions C97_hermite.

(** C97: CubicHermiteSpline with equidistant knots *)
Theorem C97_uniform : forall (n : nat) (Y : list R) (x0 dx : R) (G : R -> R) (B : R), (3 <= n)%nat -> (n <= length Y)%nat -> 0 < dx -> (Z.of_nat n <= INT_MAX)%Z ->
  curve G x0 (x0 + dx * INR (n - 1)) B -> (forall k, (k < n)%nat -> nth k Y 0 = G (x0 + dx * INR k)) ->
  forall x, x0 <= x <= x0 + dx * INR (n - 1) -> exists v, hu_at Rn (oreal Rn) Rtoint Y x (Z.of_nat n) x0 dx = Ok v /\ Rabs (v - G x) <= B / 4 * dx ^ 2.
Proof.
  intros n Y x0 dx G B Hn LY Hd HM (G1 & G2 & D1 & D2 & HB) HY x Hx.
  destruct (C64_uniform_x n Y x0 dx Hn LY Hd) as (F & H & A). exists (F x).
  assert (KI : INR (n - 1) <= INR n) by (apply le_INR; lia). pose proof (pos_INR (n - 1)).
  split; [apply A; apply (trunc_int x0 dx n); auto; split; [lra|]; assert (dx * INR (n - 1) <= dx * INR n) by (apply Rmult_le_compat_l; lra); lra|].
  assert (U0 : x0 = x0 + dx * INR 0) by (cbn; ring). assert (B0 : 0 <= B) by (eapply Rle_trans; [apply Rabs_pos|apply (HB x Hx)]).
  assert (Su : forall k : nat, x0 + dx * INR (S k) - (x0 + dx * INR k) = dx) by (intros k; rewrite S_INR; ring).
  apply (hermite_error n (fun k => x0 + dx * INR k) G G1 G2 B); auto; rewrite <- ?U0; auto.
  - intros k _. specialize (Su k). lra.
  - intros k _. rewrite Su. lra.
  - eapply hermite_ext; [auto| |exact H]. exact HY.
Qed.
Print Assumptions C97_uniform.

(** the sine sampled every tenth between 0 and 6.3: within 0.005 by the natural spline and 0.0025 by the Hermite spline *)
Definition sine_samples : list R := map (fun k => sin (/ 10 * INR k)) (seq 0 64).
Lemma sine_nth k : (k < 64)%nat -> nth k sine_samples 0 = sin (0 + / 10 * INR k).
Proof.
  intros Hk. unfold sine_samples. rewrite (nth_indep _ 0 (sin (/ 10 * INR 0))) by (rewrite map_length, seq_length; auto).
  rewrite (map_nth (fun k => sin (/ 10 * INR k))), seq_nth by auto. f_equal. rewrite Nat.add_0_l. ring.
Qed.
Lemma sine_curve a b : curve sin a b 1.
Proof.
  exists cos, (fun x => - sin x). split; [intros; apply is_derive_sin|]. split; [intros; apply is_derive_cos|].
  intros x _. rewrite Rabs_Ropp. apply Rabs_le. pose proof (SIN_bound x). lra.
Qed.
Example C97_example : exists s, spl_new Rn (oreal Rn) 64 sine_samples 0 (/ 10) 1 = Ok s /\ forall x, 0 <= x <= 6.3 ->
  (exists v, spl_at Rn (oreal Rn) Rtoint 64 s x = Ok v /\ Rabs (v - sin x) <= 0.005) /\
  (exists v, hu_at Rn (oreal Rn) Rtoint sine_samples x 64 0 (/ 10) = Ok v /\ Rabs (v - sin x) <= 0.0025).
Proof.
  assert (I63 : INR (64 - 1) = 63) by (rewrite INR_IZR_INZ; reflexivity).
  assert (L : length sine_samples = 64%nat) by (unfold sine_samples; rewrite map_length, seq_length; auto).
  destruct (C97_natural 64 1 sine_samples 0 (/ 10) sin 1) as (s & E & A); try lia; try lra; try (unfold INT_MAX; lia); [apply sine_curve|intros k Hk; rewrite Nat.mul_1_r; apply sine_nth; auto|].
  exists s. split; [exact E|]. intros x Hx. rewrite I63 in A. split.
  - destruct (A x) as (v & Ev & Bv); [lra|]. exists v. split; [exact Ev|]. lra.
  - destruct (C97_uniform 64 sine_samples 0 (/ 10) sin 1 ltac:(lia) ltac:(lia) ltac:(lra) ltac:(unfold INT_MAX; lia) (sine_curve _ _) sine_nth x) as (v & Ev & Bv); [rewrite I63; lra|].
    exists v. split; [exact Ev|]. lra.
Qed.
