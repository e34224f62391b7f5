(** The down-converter with rounded arithmetic and given coefficients (for C112). *)
From Coq Require Import Reals ZArith Lia Lra List Psatz.
From Verif Require Import Model.Cdc Spec.Fir Spec.Rounding Proofs.BaseLemmas Proofs.ShiftProofs Proofs.FirProofs Proofs.CdcProofs Proofs.HilbertRound.
Import ListNotations.
Open Scope R_scope.

Lemma acc_Rn (f : Z -> R) n : acc Rn f n = Rsumn (S n) (fun i => f (Z.of_nat i)).
Proof.
  induction n as [|n IH]; [unfold acc; cbn; ring|]. unfold acc in *. rewrite seq_S, map_app, fold_left_app, IH. cbn [map fold_left nadd Rn Rsumn plus]. replace (1 + Z.of_nat n)%Z with (Z.of_nat (S n)) by lia. reflexivity.
Qed.
Section Rnd.
Context (rnd : R -> R) (u e : R) (HR : rounding u e rnd) (Hu : 0 <= u <= 1 / 100) (He : 0 <= e).
Lemma cdc_prod c a b B : Rabs a <= B -> Rabs b <= B -> let p := rnd (c * rnd (a + b)) in
  Rabs (p - c * (a + b)) <= Rabs c * (4.02 * (u * B) + 1.01 * e) + e /\ Rabs p <= Rabs c * (2.05 * B + 1.01 * e) + e.
Proof.
  intros Ha Hb p. set (s := a + b) in *. assert (Bs : Rabs s <= 2 * B) by (unfold s; eapply Rle_trans; [apply Rabs_triang|lra]). assert (B0 : 0 <= B) by (pose proof (Rabs_pos a); lra).
  pose proof (HR s) as H1. pose proof (HR (c * rnd s)) as H2. fold p in H2. set (r := rnd s) in *. rewrite Rabs_mult in H2.
  pose proof (Rabs_pos c) as C0. pose proof (Rabs_pos s) as S0. assert (uB : 0 <= u * B) by (apply Rmult_le_pos; lra). assert (uB1 : u * B <= 1 / 100 * B) by (apply Rmult_le_compat_r; lra).
  assert (us : u * Rabs s <= u * (2 * B)) by (apply Rmult_le_compat_l; lra).
  assert (Hr : Rabs r <= 2.02 * B + e). { replace r with (s + (r - s)) by ring. eapply Rle_trans; [apply Rabs_triang|]. lra. }
  assert (T1 : u * (Rabs c * Rabs r) <= Rabs c * (u * (2.02 * B + e))). { rewrite <- Rmult_assoc, (Rmult_comm u), Rmult_assoc. apply Rmult_le_compat_l; auto. apply Rmult_le_compat_l; lra. }
  assert (T2 : Rabs (c * r - c * s) <= Rabs c * (2 * (u * B) + e)). { rewrite <- Rmult_minus_distr_l, Rabs_mult. apply Rmult_le_compat_l; lra. }
  assert (ue : u * e <= 1 / 100 * e) by (apply Rmult_le_compat_r; lra).
  assert (T3 : Rabs c * (u * (2.02 * B + e)) <= Rabs c * (2.02 * (u * B) + 0.01 * e)) by (apply Rmult_le_compat_l; lra).
  assert (Q : Rabs (p - c * s) <= Rabs c * (4.02 * (u * B) + 1.01 * e) + e).
  { replace (p - c * s) with ((p - c * r) + (c * r - c * s)) by ring. eapply Rle_trans; [apply Rabs_triang|]. lra. }
  split; [exact Q|]. replace p with (c * s + (p - c * s)) by ring. eapply Rle_trans; [apply Rabs_triang|]. rewrite Rabs_mult.
  assert (Rabs c * Rabs s <= Rabs c * (2 * B)) by (apply Rmult_le_compat_l; lra). assert (Rabs c * (u * B) <= Rabs c * (1 / 100 * B)) by (apply Rmult_le_compat_l; lra). assert (0 <= Rabs c * B) by (apply Rmult_le_pos; lra). lra.
Qed.
Lemma cdc_round (K : nat) (imco : list R) (reco B : R) (x : nat -> R * R) (t : nat) : let TAPS := (4 * Z.of_nat K + 1)%Z in (1 <= K)%nat -> length imco = K -> INR K * u <= 1 / 4 ->
  (forall k, Rabs (fst (x k)) <= B /\ Rabs (snd (x k)) <= B) -> let s0 := Ok (mkCdc (repeat 0 K) (repeat 0 (2 * K)) imco reco false) in let A := Rsumn K (fun i => Rabs (nth i imco 0)) in
  exists re im re' im', oout (cdc_step (Fn rnd) TAPS) s0 x t = Ok (re, im) /\ oout (cdc_step Rn TAPS) s0 x t = Ok (re', im') /\
  Rabs (re - re') <= u * (Rabs reco * B) + e /\ Rabs (im - im') <= (3 * INR K + 5) * u * B * A + (2 * A + 3 * INR K) * e.
Proof.
  intros TAPS HK HL KU Hx s0 A. destruct (cdc_state (Fn rnd) K HK imco reco HL x t) as [_ E1]. destruct (cdc_state Rn K HK imco reco HL x t) as [_ E2]. cbv zeta in E1, E2.
  change (alt Rn) with (alt (Fn rnd)) in E2. assert (B0 : 0 <= B) by (pose proof (Rabs_pos (fst (x O))); pose proof (Hx O); lra).
  assert (Al : forall y, (forall k, Rabs (y k) <= B) -> forall z, Rabs (alt (Fn rnd) y z) <= B).
  { intros y Hy z. unfold alt. destruct (z <? 0)%Z; [cbn; rewrite Rabs_R0; lra|]. destruct (Z.even z); [apply Hy|]. cbn [nopp Fn]. rewrite Rabs_Ropp. apply Hy. }
  set (v0 := alt (Fn rnd) (fun k => fst (x k))) in *. set (v1 := alt (Fn rnd) (fun k => snd (x k))) in *. set (c := (Z.of_nat t - Z.of_nat K)%Z) in *.
  assert (V0 : forall z, Rabs (v0 z) <= B) by (apply Al; intros; apply Hx). assert (V1 : forall z, Rabs (v1 z) <= B) by (apply Al; intros; apply Hx).
  eexists _, _, _, _. split; [exact E1|]. split; [exact E2|]. split.
  { cbn [nmul Fn Rn]. eapply Rle_trans; [apply HR|]. rewrite Rabs_mult. apply Rplus_le_compat_r, Rmult_le_compat_l; [lra|]. apply Rmult_le_compat_l; [apply Rabs_pos|apply V1]. }
  rewrite acc_Rn. replace (S (K - 1)) with K by lia. set (f := fun i : Z => nmul (Fn rnd) _ _). set (g := fun i : nat => nmul Rn _ _).
  assert (PB : forall i, (i < K)%nat -> Rabs (f (Z.of_nat i) - g i) <= Rabs (nth i imco 0) * (4.02 * (u * B) + 1.01 * e) + e /\ Rabs (f (Z.of_nat i)) <= Rabs (nth i imco 0) * (2.05 * B + 1.01 * e) + e).
  { intros i Hi. unfold f, g, ico. rewrite Nat2Z.id. cbn [nmul nadd Fn Rn n0]. apply cdc_prod; apply V0. }
  pose proof (acc_err rnd u e f ltac:(lra) ltac:(lra) HR (K - 1)) as AE. cbv zeta in AE. replace (S (K - 1)) with K in AE by lia.
  assert (K1 : INR (K - 1) <= INR K) by (apply le_INR; lia). pose proof (pos_INR (K - 1)) as K0. assert (KP : 1 <= INR K) by (change 1 with (INR 1); apply le_INR; lia).
  assert (KU1 : 0 <= INR (K - 1) * u <= INR K * u) by (split; [apply Rmult_le_pos; lra|apply Rmult_le_compat_r; lra]).
  pose proof (grow u (K - 1) ltac:(lra) ltac:(lra)) as G. assert (G1 : 1 <= (1 + u) ^ (K - 1)) by (apply pow_R1_Rle; lra). set (q := (1 + u) ^ (K - 1)) in *. clearbody q.
  assert (A0 : 0 <= A). { replace 0 with (Rsumn K (fun _ => 0)) by (clear; induction K as [|k IH]; cbn [Rsumn]; lra). apply Rsumn_le'. intros i Hi. apply Rabs_pos. }
  assert (LIN : forall a b, Rsumn K (fun i => Rabs (nth i imco 0) * a + b) = A * a + INR K * b).
  { intros a b. transitivity (Rsumn K (fun i => a * Rabs (nth i imco 0) + b)); [|rewrite Rsumn_lin; unfold A; ring]. clear. induction K as [|k IH]; cbn [Rsumn]; [reflexivity|]. rewrite IH. ring. }
  assert (S1 : Rsumn K (fun i => Rabs (f (Z.of_nat i))) <= A * (2.05 * B + 1.01 * e) + INR K * e) by (rewrite <- LIN; apply Rsumn_le'; intros i Hi; apply (PB i Hi)).
  assert (D1 : Rabs (Rsumn K (fun i => f (Z.of_nat i)) - Rsumn K g) <= A * (4.02 * (u * B) + 1.01 * e) + INR K * e).
  { rewrite <- Rsumn_sub, <- LIN. eapply Rle_trans; [apply Rsumn_abs|]. apply Rsumn_le'. intros i Hi. apply (PB i Hi). }
  set (S := Rsumn K (fun i => Rabs (f (Z.of_nat i)))) in *. set (F := Rsumn K (fun i => f (Z.of_nat i))) in *. set (Gs := Rsumn K g) in *. set (ac := acc (Fn rnd) f (K - 1)) in *.
  assert (S0 : 0 <= S) by (unfold S; replace 0 with (Rsumn K (fun _ => 0)) by (clear; induction K as [|k IH]; cbn [Rsumn]; lra); apply Rsumn_le'; intros; apply Rabs_pos).
  clearbody S F Gs ac A. clear PB f g E1 E2 LIN. set (k := INR K) in *. clearbody k. set (j := INR (K - 1)) in *. clearbody j.
  assert (q1 : q - 1 <= 4 / 3 * (k * u)) by lra. assert (q2 : q <= 4 / 3) by lra.
  assert (AB : 0 <= A * B) by (apply Rmult_le_pos; lra). assert (Ae : 0 <= A * e) by (apply Rmult_le_pos; lra). assert (ke : 0 <= k * e) by (apply Rmult_le_pos; lra). assert (ku : 0 <= k * u) by lra.
  assert (T1 : (q - 1) * S <= (q - 1) * (2.05 * (A * B)) + (q - 1) * (1.01 * (A * e) + k * e)) by (rewrite <- Rmult_plus_distr_l; apply Rmult_le_compat_l; lra).
  assert (T2 : (q - 1) * (2.05 * (A * B)) <= 4 / 3 * (k * u) * (2.05 * (A * B))) by (apply Rmult_le_compat_r; lra).
  assert (T3 : (q - 1) * (1.01 * (A * e) + k * e) <= 1 / 3 * (1.01 * (A * e) + k * e)) by (apply Rmult_le_compat_r; lra).
  assert (T4 : j * (q * e) <= 4 / 3 * (k * e)). { replace (4 / 3 * (k * e)) with (k * (4 / 3 * e)) by ring. apply Rmult_le_compat; [lra|apply Rmult_le_pos; lra|lra|apply Rmult_le_compat_r; lra]. }
  replace (ac - Gs) with ((ac - F) + (F - Gs)) by ring. eapply Rle_trans; [apply Rabs_triang|].
  set (w := u * (A * B)). assert (w0 : 0 <= w) by (apply Rmult_le_pos; lra).
  replace ((3 * k + 5) * u * B * A) with (3 * (k * w) + 5 * w) by (unfold w; ring). assert (kw : 0 <= k * w) by (apply Rmult_le_pos; lra).
  replace (4 / 3 * (k * u) * (2.05 * (A * B))) with (4 / 3 * 2.05 * (k * w)) in T2 by (unfold w; ring). replace (A * (4.02 * (u * B) + 1.01 * e)) with (4.02 * w + 1.01 * (A * e)) in D1 by (unfold w; ring). lra.
Qed.
End Rnd.
