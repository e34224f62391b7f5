(* C80: minimal curvature and uniqueness of the natural cubic spline (spline.hh) *)
From Coq Require Import Reals ZArith Lia Lra List.
From Coquelicot Require Import Coquelicot.
From Flocq Require Import Core.
From Verif Require Import Model.Base Model.Num Model.Spline Spec.Interp Proofs.BaseLemmas Props.PSpline Proofs.SplineMin.
Import ListNotations.
Open Scope R_scope.

(** C80  Between the first and the last knot no function with continuous second derivative through the same points has a
    smaller integral of the squared second derivative, and only the spline itself has an equal one. *)
Theorem C80_minimal_curvature (K STRIDE : nat) (Y : list R) (x0 dx : R) : (2 <= K)%nat -> 0 < dx ->
  ((K - 1) * STRIDE < length Y)%nat -> (Z.of_nat ((K - 1) * STRIDE) <= INT_MAX)%Z ->
  exists s F F1 F2, spl_new Rn (oreal Rn) (Z.of_nat K) Y x0 dx (Z.of_nat STRIDE) = Ok s /\
    (forall x, (INT_MIN <= Ztrunc ((x - x0) / dx) <= INT_MAX)%Z -> spl_at Rn (oreal Rn) Rtoint (Z.of_nat K) s x = Ok (F x)) /\
    (forall x, is_derive F x (F1 x)) /\ (forall x, is_derive F1 x (F2 x)) /\ (forall x, continuous F2 x) /\
    let a := x0 in let b := x0 + dx * INR (K - 1) in
    forall G G1 G2 : R -> R, (forall k, (k < K)%nat -> G (x0 + dx * INR k) = nth (k * STRIDE) Y 0) ->
      (forall x, a <= x <= b -> is_derive G x (G1 x)) -> (forall x, a <= x <= b -> is_derive G1 x (G2 x)) -> (forall x, a <= x <= b -> continuous G2 x) ->
      RInt (fun x => F2 x ^ 2) a b <= RInt (fun x => G2 x ^ 2) a b /\
      (RInt (fun x => G2 x ^ 2) a b = RInt (fun x => F2 x ^ 2) a b -> forall x, a <= x <= b -> G x = F x).
Proof.
  intros HK Hd HL HI. destruct (C63_natural_x K STRIDE Y x0 dx HK Hd HL HI) as (s & F & E & (I & P & F1 & F2 & D1 & D2 & C & N0 & N1) & A).
  exists s, F, F1, F2. splits; auto. intros a b G G1 G2 IG DG1 DG2 CG.
  set (u := fun k => x0 + dx * INR k) in *.
  assert (Hu : forall k, (S k < K)%nat -> u k < u (S k)). { intros k _. unfold u. rewrite S_INR. lra. }
  assert (Ea : a = u 0%nat) by (unfold u, a; cbn; ring). change b with (u (K - 1)%nat) in *. rewrite Ea in *. split.
  - apply (curvature_le K u (value Y STRIDE) F F1 F2 G G1 G2); auto.
  - intros Q. apply (curvature_unique K u (value Y STRIDE) F F1 F2 G G1 G2); auto. lra.
Qed.
Print Assumptions C80_minimal_curvature.

(** C80  There is only one natural cubic spline through the points: whatever satisfies the definition agrees with the code
    between the first and the last knot. *)
Theorem C80_unique (K STRIDE : nat) (Y : list R) (x0 dx : R) (G : R -> R) : (2 <= K)%nat -> 0 < dx ->
  ((K - 1) * STRIDE < length Y)%nat -> (Z.of_nat ((K - 1) * STRIDE) <= INT_MAX)%Z -> (Z.of_nat K <= INT_MAX)%Z ->
  natural_spline K (fun k => x0 + dx * INR k) (value Y STRIDE) G ->
  exists s, spl_new Rn (oreal Rn) (Z.of_nat K) Y x0 dx (Z.of_nat STRIDE) = Ok s /\
    forall x, x0 <= x <= x0 + dx * INR (K - 1) -> spl_at Rn (oreal Rn) Rtoint (Z.of_nat K) s x = Ok (G x).
Proof.
  intros HK Hd HL HI HI2 (IG & PG & G1 & G2 & DG1 & DG2 & CG & M0 & M1). destruct (C63_natural_x K STRIDE Y x0 dx HK Hd HL HI) as (s & F & E & (I & P & F1 & F2 & D1 & D2 & C & N0 & N1) & A).
  exists s. split; auto. intros x Hx.
  set (u := fun k => x0 + dx * INR k) in *.
  assert (Hu : forall k, (S k < K)%nat -> u k < u (S k)). { intros k _. unfold u. rewrite S_INR. lra. }
  assert (Ea : x0 = u 0%nat) by (unfold u; cbn; ring). change (x0 + dx * INR (K - 1)) with (u (K - 1)%nat) in Hx.
  rewrite A.
  - f_equal. symmetry. apply (curvature_unique K u (value Y STRIDE) F F1 F2 G G1 G2); auto; [|rewrite <- Ea; auto].
    apply (curvature_le K u (value Y STRIDE) G G1 G2 F F1 F2); auto.
  - assert (0 <= (x - x0) / dx) by (apply Rmult_le_pos; [lra|left; apply Rinv_0_lt_compat; auto]).
    assert ((x - x0) / dx <= INR (K - 1)). { apply Rmult_le_reg_r with dx; auto. unfold Rdiv. rewrite Rmult_assoc, Rinv_l, Rmult_1_r by lra. unfold u in Hx. lra. }
    rewrite Ztrunc_floor by auto. assert ((0 <= Zfloor ((x - x0) / dx))%Z) by (apply Zfloor_lub; cbn; lra).
    assert ((Zfloor ((x - x0) / dx) <= Z.of_nat (K - 1))%Z). { apply le_IZR. rewrite <- INR_IZR_INZ. eapply Rle_trans; [apply Zfloor_lb|auto]. }
    unfold INT_MIN, INT_MAX in *. lia.
Qed.
Print Assumptions C80_unique.

(** the parabola through (0,0), (1,1), (2,0) is such a G; its curvature is 8, that of the spline 6 *)
Example C80_example : (forall k, (k < 3)%nat -> (fun x => x * (2 - x)) (0 + 1 * INR k) = nth (k * 1) [0; 1; 0] 0) /\
  (forall x, is_derive (fun x => x * (2 - x)) x (2 - 2 * x)) /\ (forall x, is_derive (fun x => 2 - 2 * x) x (-2)) /\ RInt (fun _ => (-2) ^ 2) 0 2 = 8.
Proof.
  splits.
  - intros [|[|[|k]]] H; cbn; try lra; lia.
  - intros x. auto_derive; auto; ring.
  - intros x. auto_derive; auto; ring.
  - rewrite RInt_const. unfold scal. cbn. unfold mult. cbn. ring.
Qed.
