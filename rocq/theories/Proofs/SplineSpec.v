(* The splines of Model/Spline.v are the curves of Spec/Interp.v *)
From Coq Require Import Reals ZArith List Lia Lra.
From Flocq Require Import Core.
From Coquelicot Require Import Coquelicot.
From Verif Require Import Model.Spline Spec.Interp Proofs.BaseLemmas Proofs.Piecewise Proofs.SplineProofs Proofs.HermiteProofs.
Open Scope R_scope.

Lemma cub_is_cubic q c D : is_cubic_on D (cub q c).
Proof.
  exists (q0 q - q1 q * c + q2 q * c ^ 2 - q3 q * c ^ 3), (q1 q - 2 * q2 q * c + 3 * q3 q * c ^ 2), (q2 q - 3 * q3 q * c), (q3 q).
  intros x _. unfold cub. ring.
Qed.
Lemma piece_inseg n j x : on_piece n INR j x -> SplineProofs.inseg n j x.
Proof. intros (A & B & C). split; [lia|]. split; [auto|]. destruct C; [left; lia|auto]. Qed.
Lemma piece_hseg n X j x : on_piece n X j x -> hseg n X j x.
Proof. intros (A & B & C). split; [lia|]. split; [auto|]. destruct C; [left; lia|auto]. Qed.
Lemma NS_natural K y : (2 <= K)%nat -> natural_spline K INR y (NS K y).
Proof.
  intros HK. split; [intros k Hk; apply NS_knot; auto|]. split.
  - intros j Hj. destruct (cub_is_cubic (qq K y j) (INR j) (on_piece K INR j)) as (a & b & c & d & E). exists a, b, c, d. intros x Hx. rewrite <- E by auto.
    apply NS_piece; auto. apply piece_inseg; auto.
  - exists (NS1 K y), (NS2 K y). split; [intros; apply NS_derive; auto|]. split; [intros; apply NS1_derive; auto|]. split; [intros; apply NS2_cont; auto|].
    split; [apply NS2_left; auto|apply NS2_right; auto].
Qed.
Lemma HS_hermite n X y : (3 <= n)%nat -> (forall k, (k < n - 1)%nat -> X k < X (S k)) -> hermite_spline n X y (HS n X y).
Proof.
  intros Hn I. split; [intros k Hk; apply HS_knot; auto|]. split.
  - intros j Hj. destruct (cub_is_cubic (qh n X y j) (X j) (on_piece n X j)) as (a & b & c & d & E). exists a, b, c, d. intros x Hx. rewrite <- E by auto.
    apply HS_piece; auto. apply piece_hseg; auto.
  - exists (HS1 n X y). split; [intros; apply HS_derive; auto|]. split; [intros; apply HS1_cont; auto|].
    rewrite !HS1_knot by (auto; lia). unfold mm. cbn [Nat.eqb]. rewrite Nat.eqb_refl. split; [reflexivity|]. split.
    + rewrite (proj2 (Nat.eqb_neq (n - 1) 0)) by lia. unfold chord, dq. replace (n - 1 - 1)%nat with (n - 2)%nat by lia. reflexivity.
    + intros k Hk. rewrite HS1_knot by (auto; lia). unfold mm. rewrite (proj2 (Nat.eqb_neq k 0)), (proj2 (Nat.eqb_neq k (n - 1))) by lia. unfold chord, dq. lra.
Qed.

(** change of variable x = x0 + dx t, dx > 0 *)
Section Affine.
Variables (x0 dx : R) (n : nat) (y : nat -> R).
Hypothesis Hdx : 0 < dx.
Notation kn := (fun k => x0 + dx * INR k).
Notation T := (fun x => (x - x0) / dx).
Lemma T_kn k : (kn k - x0) / dx = INR k.
Proof. cbv beta. field. lra. Qed.
Lemma T_le k x : kn k <= x -> INR k <= (x - x0) / dx.
Proof. cbv beta. intros H. apply (Rmult_le_reg_l dx); [lra|]. replace (dx * ((x - x0) / dx)) with (x - x0) by (field; lra). lra. Qed.
Lemma T_ge k x : x <= kn k -> (x - x0) / dx <= INR k.
Proof. cbv beta. intros H. apply (Rmult_le_reg_l dx); [lra|]. replace (dx * ((x - x0) / dx)) with (x - x0) by (field; lra). lra. Qed.
Lemma T_piece j x : on_piece n kn j x -> on_piece n INR j ((x - x0) / dx).
Proof. intros (A & B & C). split; [auto|]. split; [destruct B as [B|B]; [auto|right; apply T_le; auto]|destruct C as [C|C]; [auto|right; apply T_ge; auto]]. Qed.
Lemma T_cubic F : piecewise_cubic n INR F -> piecewise_cubic n kn (fun x => F ((x - x0) / dx)).
Proof.
  intros H j Hj. destruct (H j Hj) as (a & b & c & d & E).
  exists (a - b * x0 / dx + c * x0 ^ 2 / dx ^ 2 - d * x0 ^ 3 / dx ^ 3), (b / dx - 2 * c * x0 / dx ^ 2 + 3 * d * x0 ^ 2 / dx ^ 3), (c / dx ^ 2 - 3 * d * x0 / dx ^ 3), (d / dx ^ 3).
  intros x Hx. rewrite E by (apply T_piece; auto). field. lra.
Qed.
End Affine.
Lemma T_derive x0 dx F F1 : dx <> 0 -> (forall x, is_derive F x (F1 x)) -> forall x, is_derive (fun x => F ((x - x0) / dx)) x (F1 ((x - x0) / dx) / dx).
Proof.
  intros Hd H x. evar_last; [apply (is_derive_comp F (fun x => (x - x0) / dx)); [apply H|auto_derive; [auto|reflexivity]]|].
  unfold scal. simpl. unfold mult. simpl. field. auto.
Qed.
Lemma T_derive_s x0 dx s F F1 : dx <> 0 -> (forall x, is_derive F x (F1 x)) -> forall x, is_derive (fun x => F ((x - x0) / dx) / s) x (F1 ((x - x0) / dx) / dx / s).
Proof.
  intros Hd H x. apply (is_derive_ext (fun x => / s * F ((x - x0) / dx))); [intros; unfold Rdiv; apply Rmult_comm|].
  evar_last; [apply is_derive_scal, (T_derive x0 dx F F1 Hd H)|]. unfold Rdiv. ring.
Qed.
Lemma T_cont x0 dx s F : (forall x, continuous F x) -> forall x, continuous (fun x => F ((x - x0) / dx) / s) x.
Proof.
  intros H x. apply (continuous_ext (fun x => F ((x - x0) / dx) * / s)); [reflexivity|].
  apply (continuous_mult (fun x => F ((x - x0) / dx)) (fun _ => / s)); [|apply continuous_const].
  apply (continuous_comp (fun x => (x - x0) / dx) F); [|apply H].
  apply (ex_derive_continuous (fun x => (x - x0) / dx)). auto_derive. auto.
Qed.
Lemma natural_affine x0 dx n y F : 0 < dx -> natural_spline n INR y F -> natural_spline n (fun k => x0 + dx * INR k) y (fun x => F ((x - x0) / dx)).
Proof.
  intros Hd (A & B & F1 & F2 & D1 & D2 & C & E0 & E1). split; [intros k Hk; rewrite T_kn by auto; apply A; auto|].
  split; [apply T_cubic; auto|]. exists (fun x => F1 ((x - x0) / dx) / dx), (fun x => F2 ((x - x0) / dx) / dx / dx).
  split; [apply T_derive; auto; lra|]. split; [apply T_derive_s; auto; lra|]. split.
  - intros x. apply (continuous_ext (fun x => F2 ((x - x0) / dx) / (dx * dx))); [intros t; match goal with |- ?a = ?b => change (@eq R a b) end; field; lra|]. apply T_cont; auto.
  - rewrite !T_kn, E0, E1 by auto. split; field; lra.
Qed.
Lemma chord_affine x0 dx y k : 0 < dx -> chord (fun k => x0 + dx * INR k) y k = chord INR y k / dx.
Proof. intros H. unfold chord. rewrite S_INR. field. split; lra. Qed.
Lemma hermite_affine x0 dx n y F : 0 < dx -> hermite_spline n INR y F -> hermite_spline n (fun k => x0 + dx * INR k) y (fun x => F ((x - x0) / dx)).
Proof.
  intros Hd (A & B & F1 & D1 & C & E0 & E1 & E). split; [intros k Hk; rewrite T_kn by auto; apply A; auto|].
  split; [apply T_cubic; auto|]. exists (fun x => F1 ((x - x0) / dx) / dx).
  split; [apply T_derive; auto; lra|]. split; [apply T_cont; auto|].
  rewrite !chord_affine, !T_kn, E0, E1 by auto. split; [reflexivity|]. split; [reflexivity|].
  intros k Hk. rewrite !chord_affine, T_kn, E by auto. field. lra.
Qed.
