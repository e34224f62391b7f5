(* The table of CORDIC computed in long double *)
From Coq Require Import Reals ZArith Lia Lra List.
From Flocq Require Import Core.
From Verif Require Import Model.Cordic Proofs.BaseLemmas Proofs.CordicProofs Proofs.TestRound Model.TestPrograms Spec.Rounding.
Open Scope R_scope.
Lemma table_near (FAC d : Z) : (0 <= FAC <= 131072)%Z -> (0 <= d <= 10 ^ 67)%Z ->
  let N := (5 * 10 ^ 66 + FAC * d)%Z in (10 ^ 57 <= N mod 10 ^ 67 <= 10 ^ 67 - 10 ^ 57)%Z ->
  Zfloor (rnd80 (1 / 2 + rnd80 (IZR FAC * rnd80 (IZR d / IZR (10 ^ 67))))) = (N / 10 ^ 67)%Z.
Proof.
  intros HF Hd N Hm. set (l := IZR d / IZR (10 ^ 67)).
  assert (Q : 0 < IZR (10 ^ 67)) by (apply IZR_lt; reflexivity).
  assert (Hl : 0 <= l <= 1).
  { unfold l. split; [apply Rmult_le_pos; [apply IZR_le; lia|left; apply Rinv_0_lt_compat; auto]|]. apply (Rmult_le_reg_r (IZR (10 ^ 67))); auto.
    unfold Rdiv. rewrite Rmult_assoc, Rinv_l, Rmult_1_r, Rmult_1_l by lra. apply IZR_le. lia. }
  assert (F : 0 <= IZR FAC <= 131072) by (split; apply IZR_le; lia).
  destruct eps80 as (U1 & U2 & U3).
  assert (U : forall z, Rabs z <= 200000 -> Rabs (rnd80 z - z) <= 1.2e-14).
  { intros z Hz. pose proof (fmt80 z) as X. assert (bpow radix2 (-64) * Rabs z <= bpow radix2 (-64) * 200000) by (apply Rmult_le_compat_l; lra). lra. }
  pose proof (small80 l ltac:(apply Rabs_le; lra)) as E1. set (a := rnd80 l) in *.
  assert (E2 : Rabs (IZR FAC * a - IZR FAC * l) <= 131072 * 1.2e-19).
  { rewrite <- Rmult_minus_distr_l, Rabs_mult, (Rabs_pos_eq (IZR FAC)) by lra. apply Rmult_le_compat; auto using Rabs_pos; lra. }
  assert (B2 : 0 <= IZR FAC * l <= 131072) by (split; [apply Rmult_le_pos; lra|apply Rle_trans with (131072 * 1); [apply Rmult_le_compat; lra|lra]]).
  apply Rabs_le_inv in E2.
  pose proof (U (IZR FAC * a) ltac:(apply Rabs_le; lra)) as E3. set (b := rnd80 (IZR FAC * a)) in *. apply Rabs_le_inv in E3.
  pose proof (U (1 / 2 + b) ltac:(apply Rabs_le; lra)) as E4. set (c := rnd80 (1 / 2 + b)) in *. apply Rabs_le_inv in E4.
  assert (V : 1 / 2 + IZR FAC * l = IZR (N / 10 ^ 67) + IZR (N mod 10 ^ 67) / IZR (10 ^ 67)).
  { pose proof (Z.div_mod N (10 ^ 67) ltac:(lia)) as D. apply (Rmult_eq_reg_r (IZR (10 ^ 67))); [|lra].
    replace ((IZR (N / 10 ^ 67) + IZR (N mod 10 ^ 67) / IZR (10 ^ 67)) * IZR (10 ^ 67)) with (IZR (10 ^ 67) * IZR (N / 10 ^ 67) + IZR (N mod 10 ^ 67)) by (field; lra).
    rewrite <- mult_IZR, <- plus_IZR, <- D. unfold N, l. rewrite plus_IZR, (mult_IZR FAC). 
    replace (IZR (5 * 10 ^ 66)) with (1 / 2 * IZR (10 ^ 67)). 2:{ replace (10 ^ 67)%Z with (2 * (5 * 10 ^ 66))%Z by (vm_compute; reflexivity). rewrite (mult_IZR 2). lra. }
    field. lra. }
  assert (W : 1e-10 <= IZR (N mod 10 ^ 67) / IZR (10 ^ 67) <= 1 - 1e-10).
  { destruct Hm as [M1 M2]. apply IZR_le in M1, M2. rewrite minus_IZR in M2. assert (IZR (10 ^ 57) = 1e-10 * IZR (10 ^ 67)).
    { replace (10 ^ 67)%Z with (10 ^ 10 * 10 ^ 57)%Z by (vm_compute; reflexivity). rewrite (mult_IZR (10 ^ 10)). replace (IZR (10 ^ 10)) with 10000000000 by reflexivity. lra. }
    set (X := IZR (10 ^ 67)) in *. set (r := IZR (N mod 10 ^ 67)) in *. assert (G : r / X * X = r) by (field; lra).
    split; apply (Rmult_le_reg_r X); auto; rewrite G; lra. }
  apply Zfloor_imp. rewrite plus_IZR. lra.
Qed.
Definition table_check (FAC : Z) (n : nat) : bool :=
  forallb (fun i => let d := nth i cordic_digits 0%Z in let r := ((5 * 10 ^ 66 + FAC * d) mod 10 ^ 67)%Z in
    ((0 <=? d) && (d <=? 10 ^ 67) && (10 ^ 57 <=? r) && (r <=? 10 ^ 67 - 10 ^ 57))%Z)%bool (seq 0 n).
Lemma table_ok FAC n i : (0 <= FAC <= 131072)%Z -> (n <= 16)%nat -> table_check FAC n = true -> (i < n)%nat ->
  cordic_lut FAC (Z.of_nat i) = Ok (Zfloor (rnd80 (1 / 2 + rnd80 (IZR FAC * rnd80 (IZR (nth i cordic_digits 0%Z) / IZR (10 ^ 67)))))).
Proof.
  intros HF Hn C Hi. unfold table_check in C. rewrite forallb_forall in C. specialize (C i ltac:(apply in_seq; lia)). cbv zeta in C.
  rewrite !Bool.andb_true_iff, !Z.leb_le in C. rewrite table_near by (auto; lia).
  assert (G : get cordic_digits (Z.of_nat i) = Ok (nth i cordic_digits 0%Z)).
  { clear -Hi Hn. do 16 (destruct i as [|i]; [reflexivity|]). lia. }
  unfold cordic_lut. rewrite G. reflexivity.
Qed.
Lemma cordic_table_ok (BYTES : Z) (i : nat) : (BYTES = 1 \/ BYTES = 2)%Z -> (i < Z.to_nat (8 * BYTES))%nat ->
  cordic_lut (BYTES * 2 ^ (8 * BYTES)) (Z.of_nat i) = Ok (Zfloor (rnd80 (1 / 2 + rnd80 (IZR (BYTES * 2 ^ (8 * BYTES)) * rnd80 (IZR (nth i cordic_digits 0%Z) / IZR (10 ^ 67)))))).
Proof. intros [-> | ->] Hi; (eapply table_ok; [..|exact Hi]; [lia|cbn; lia|vm_compute; reflexivity]). Qed.
