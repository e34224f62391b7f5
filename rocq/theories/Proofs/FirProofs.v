(* Proofs about the FIR prototypes *)
From Coq Require Import Reals ZArith Lia Lra.
From Flocq Require Import Core.
From Verif Require Import Model.WinFun Model.FirFun Spec.ExactConst Proofs.ConstProofs.
Open Scope R_scope.

(** arguments for which no int overflows *)
Definition fdom (n N : Z) : Prop := (0 <= n < N)%Z /\ (2 * N <= INT_MAX)%Z.
Definition fx (n N : Z) : R := IZR n - IZR (N - 1) / 2.
Lemma fir_x_eq n N : fdom n N -> fir_x Rc n N = Ok (fx n N).
Proof. intros [H1 H2]. unfold INT_MAX in *. unfold fir_x. rewrite ichk_ok by (unfold INT_MIN, INT_MAX; lia). cbn [bind]. rewrite half_rc. unfold fx. cbn. do 2 f_equal. field. Qed.
Lemma fx_sym n N : fx (N - 1 - n) N = - fx n N.
Proof. unfold fx. rewrite (minus_IZR (N - 1) n). field. Qed.
Lemma fx_twox n N : fx n N = IZR (2 * n - (N - 1)) / 2.
Proof. unfold fx. rewrite (minus_IZR (2 * n)), mult_IZR. field. Qed.
Lemma fir_twox_eq n N : fdom n N -> fir_twox n N = Ok (2 * n - (N - 1))%Z.
Proof. intros [H1 H2]. unfold INT_MAX in *. unfold fir_twox. rewrite !ichk_ok by (unfold INT_MIN, INT_MAX; lia). cbn [bind]. rewrite !ichk_ok by (unfold INT_MIN, INT_MAX; lia). reflexivity. Qed.

Lemma lowpass_eq c n N : fdom n N -> lowpass Rc sin c n N = Ok (2 * c * rsinc (2 * c * fx n N)).
Proof. intros H. unfold lowpass. rewrite fir_x_eq by auto. cbn [bind]. rewrite sinc_rc. reflexivity. Qed.
Lemma highpass_eq c n N : fdom n N -> highpass Rc sin c n N = Ok (rsinc (fx n N) - 2 * c * rsinc (2 * c * fx n N)).
Proof. intros H. unfold highpass. rewrite fir_x_eq by auto. cbn [bind]. rewrite !sinc_rc. reflexivity. Qed.
Lemma bandpass_eq c0 c1 n N : fdom n N -> bandpass Rc sin c0 c1 n N = Ok (2 * c1 * rsinc (2 * c1 * fx n N) - 2 * c0 * rsinc (2 * c0 * fx n N)).
Proof. intros H. unfold bandpass. rewrite fir_x_eq by auto. cbn [bind]. rewrite !sinc_rc. reflexivity. Qed.

(** num/den: non-zero ratio, no int overflow *)
Definition rdom (num den n N : Z) : Prop :=
  num <> 0%Z /\ (1 <= den)%Z /\ (16 * den <= INT_MAX)%Z /\ (2 * Z.abs num <= INT_MAX)%Z /\ (Z.abs num * Z.abs (2 * n - (N - 1)) <= INT_MAX)%Z.
Lemma fir_fac_eq num den n N : rdom num den n N -> fir_fac Rc num den = Ok (2 * (IZR num / IZR den)).
Proof.
  intros (R1 & R2 & R3 & R4 & R5). unfold INT_MAX in *. unfold fir_fac. rewrite ichk_ok by (unfold INT_MIN, INT_MAX; lia). cbn [bind ndiv nofZ Rc]. rewrite mult_IZR. f_equal. unfold Rdiv. ring.
Qed.
Lemma fir_sin_eq num den n N : rdom num den n N -> let tw := (2 * n - (N - 1))%Z in
  fir_sin exact_ptrig tw num den = Ok (sin (PI * (2 * (IZR num / IZR den) * fx n N))).
Proof.
  intros (R1 & R2 & R3 & R4 & R5) tw. unfold INT_MAX in *. unfold fir_sin. rewrite Z.mul_comm.
  assert (Z.abs (num * tw) <= 2147483647)%Z by (rewrite Z.abs_mul; auto).
  rewrite !ichk_ok by (unfold INT_MIN, INT_MAX; lia). cbn [bind]. unfold irem. rewrite (proj2 (Z.eqb_neq (2 * den) 0)) by lia. cbn [bind].
  pose proof (rem_abs (num * tw) (2 * den) ltac:(lia)). rewrite psin_ok by (unfold INT_MAX; lia). rewrite sin_rem by lia. do 2 f_equal.
  rewrite !mult_IZR, fx_twox. fold tw. field. apply not_0_IZR. lia.
Qed.
Lemma lowpass2_eq num den n N : fdom n N -> rdom num den n N -> lowpass2 Rc exact_ptrig num den n N = Ok (2 * (IZR num / IZR den) * rsinc (2 * (IZR num / IZR den) * fx n N)).
Proof.
  intros F R. unfold lowpass2. rewrite (fir_fac_eq num den n N R), fir_twox_eq by auto. cbn [bind]. pose proof R as (R1 & R2 & _).
  assert (Nn : IZR num <> 0) by (apply not_0_IZR; auto). assert (Nd : IZR den <> 0) by (apply not_0_IZR; lia). pose proof PI_RGT_0 as PP.
  destruct (Z.eqb_spec (2 * n - (N - 1)) 0) as [Z|Z].
  - rewrite fx_twox, Z. replace (2 * (IZR num / IZR den) * (0 / 2)) with 0 by (field; auto). rewrite rsinc_0, Rmult_1_r. reflexivity.
  - rewrite (fir_sin_eq num den n N R). cbn [bind]. rewrite halfpi_rc. assert (Nt : IZR (2 * n - (N - 1)) <> 0) by (apply not_0_IZR; auto).
    set (f := 2 * (IZR num / IZR den)). assert (Nf : f <> 0) by (unfold f; apply Rmult_integral_contrapositive; split; [lra|apply Rmult_integral_contrapositive; split; auto; apply Rinv_neq_0_compat; auto]).
    rewrite rsinc_nz by (rewrite fx_twox; apply Rmult_integral_contrapositive; split; auto; unfold Rdiv; apply Rmult_integral_contrapositive; split; auto; lra).
    cbn [nmul ndiv nofZ Rc]. f_equal. rewrite (fx_twox n N). field. repeat split; auto; lra.
Qed.
Lemma highpass2_eq num den n N : fdom n N -> rdom num den n N ->
  highpass2 Rc exact_ptrig num den n N = Ok (rsinc (fx n N) - 2 * (IZR num / IZR den) * rsinc (2 * (IZR num / IZR den) * fx n N)).
Proof.
  intros F R. unfold highpass2. rewrite (fir_fac_eq num den n N R), fir_twox_eq by auto. cbn [bind]. pose proof R as (R1 & R2 & _).
  assert (Nn : IZR num <> 0) by (apply not_0_IZR; auto). assert (Nd : IZR den <> 0) by (apply not_0_IZR; lia). pose proof PI_RGT_0 as PP.
  destruct (Z.eqb_spec (2 * n - (N - 1)) 0) as [Z|Z].
  - rewrite fx_twox, Z. replace (2 * (IZR num / IZR den) * (0 / 2)) with 0 by (field; auto). replace (0 / 2) with 0 by field. rewrite rsinc_0, Rmult_1_r. reflexivity.
  - pose proof (rem_abs (2 * n - (N - 1)) 4 ltac:(lia)). rewrite psin_ok by (unfold INT_MAX; lia). cbn [bind].
    rewrite (fir_sin_eq num den n N R). cbn [bind]. rewrite halfpi_rc, sin_rem by lia. assert (Nt : IZR (2 * n - (N - 1)) <> 0) by (apply not_0_IZR; auto).
    set (f := 2 * (IZR num / IZR den)). assert (Nf : f <> 0) by (unfold f; apply Rmult_integral_contrapositive; split; [lra|apply Rmult_integral_contrapositive; split; auto; apply Rinv_neq_0_compat; auto]).
    assert (Nx : fx n N <> 0) by (rewrite fx_twox; unfold Rdiv; apply Rmult_integral_contrapositive; split; auto; lra).
    rewrite !rsinc_nz by (auto; apply Rmult_integral_contrapositive; split; auto).
    cbn [nmul ndiv nsub nofZ Rc]. f_equal. replace (2 * PI * IZR (2 * n - (N - 1)) / 4) with (PI * fx n N) by (rewrite fx_twox; field).
    replace (IZR (2 * n - (N - 1))) with (2 * fx n N) by (rewrite fx_twox; field). field. repeat split; auto; lra.
Qed.
