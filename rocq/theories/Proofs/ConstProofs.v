(* The exact constants, sinc and the domain of UnitCircle *)
From Coq Require Import Reals ZArith Lia Lra.
From Flocq Require Import Core.
From Verif Require Import Model.Num Model.Const Model.WinFun Model.UnitCircle Model.Utils Spec.ExactConst Proofs.UnitCircleProofs.
Open Scope R_scope.

Ltac lits := unfold exact_lit, Pi_lit, HalfPi_lit, TwoPi_lit, SqrtTwoPi_lit;
  repeat (first [rewrite Req_bool_true by lra | rewrite Req_bool_false by lra]); try reflexivity; try lra.
Lemma pi_rc : Pi Rc = PI. Proof. unfold Pi. cbn [nlit Rc]. lits. Qed.
Lemma halfpi_rc : HalfPi Rc = PI / 2. Proof. unfold HalfPi. cbn [nlit Rc]. lits. Qed.
Lemma twopi_rc : TwoPi Rc = 2 * PI. Proof. unfold TwoPi. cbn [nlit Rc]. lits. Qed.
Lemma sqrttwopi_rc : SqrtTwoPi Rc = sqrt (2 * PI). Proof. unfold SqrtTwoPi. cbn [nlit Rc]. lits. Qed.
Lemma half_rc : nlit Rc 0.5 = 1 / 2. Proof. cbn [nlit Rc]. transitivity 0.5; [lits|lra]. Qed.
Lemma c54_rc : nlit Rc 0.54 = 54 / 100. Proof. cbn [nlit Rc]. transitivity 0.54; [lits|lra]. Qed.
Lemma c46_rc : nlit Rc 0.46 = 46 / 100. Proof. cbn [nlit Rc]. transitivity 0.46; [lits|lra]. Qed.
Lemma one_rc : nlit Rc 1.0 = 1. Proof. cbn [nlit Rc]. transitivity 1.0; [lits|lra]. Qed.

Lemma sinc_rc x : sinc Rc sin x = rsinc x.
Proof.
  unfold sinc, rsinc. rewrite pi_rc. cbn [neqb n0 n1 ndiv nmul Rc]. destruct (Req_bool_spec 0 x), (Req_bool_spec x 0); try reflexivity; exfalso; auto.
Qed.
Lemma rsinc_0 : rsinc 0 = 1. Proof. unfold rsinc. rewrite Req_bool_true; auto. Qed.
Lemma rsinc_nz x : x <> 0 -> rsinc x = sin (PI * x) / (PI * x). Proof. intros. unfold rsinc. rewrite Req_bool_false; auto. Qed.
Lemma rsinc_opp x : rsinc (- x) = rsinc x.
Proof.
  pose proof PI_RGT_0. destruct (Req_dec x 0) as [->|E]; [rewrite Ropp_0; auto|]. rewrite !rsinc_nz by lra. replace (PI * - x) with (- (PI * x)) by ring. rewrite sin_neg. field. lra.
Qed.
Lemma sin_int k : sin (PI * IZR k) = 0. Proof. rewrite Rmult_comm. apply sin_eq_0_1. exists k. ring. Qed.
Lemma rsinc_int k : (k <> 0)%Z -> rsinc (IZR k) = 0.
Proof. intros H. rewrite rsinc_nz by (apply not_0_IZR; auto). rewrite sin_int. unfold Rdiv. ring. Qed.
Lemma sin_le_x x : 0 <= x -> Rabs (sin x) <= x.
Proof.
  intros H. pose proof PI_RGT_0. destruct (Req_dec x 0) as [->|Hx]; [rewrite sin_0, Rabs_R0; lra|]. destruct (Rle_dec x PI) as [L|L].
  - rewrite Rabs_pos_eq by (apply sin_ge_0; auto). apply Rlt_le, sin_lt_x. lra.
  - pose proof (SIN_bound x). pose proof PI2_1. apply Rabs_le. lra.
Qed.
Lemma rsinc_bound x : Rabs (rsinc x) <= 1.
Proof.
  pose proof PI_RGT_0. destruct (Req_dec x 0) as [->|E]; [rewrite rsinc_0, Rabs_R1; lra|].
  assert (P : forall y, 0 < y -> Rabs (rsinc y) <= 1).
  { intros y Y. rewrite rsinc_nz by lra. unfold Rdiv. rewrite Rabs_mult, Rabs_inv, (Rabs_pos_eq (PI * y)) by nra.
    apply (Rmult_le_reg_r (PI * y)); [nra|]. rewrite Rmult_assoc, Rinv_l by nra. pose proof (sin_le_x (PI * y) ltac:(nra)). lra. }
  destruct (Rlt_dec 0 x); [auto|]. rewrite <- rsinc_opp. apply P. lra.
Qed.
Lemma rsinc_pos x : -1 <= x <= 1 -> 0 <= rsinc x.
Proof.
  pose proof PI_RGT_0. assert (P : forall y, 0 < y <= 1 -> 0 <= rsinc y).
  { intros y Y. rewrite rsinc_nz by lra. apply Rmult_le_pos; [apply sin_ge_0; nra|]. apply Rlt_le, Rinv_0_lt_compat. nra. }
  intros [A B]. destruct (Rtotal_order x 0) as [L|[->|L]]; [rewrite <- rsinc_opp; apply P; lra|rewrite rsinc_0; lra|apply P; lra].
Qed.

Lemma uc_dom_ok n N : (1 <= N)%Z -> (Z.abs n <= N)%Z -> (8 * N <= INT_MAX)%Z -> uc_dom n N = true.
Proof. intros. unfold uc_dom. rewrite !andb_true_iff, !Z.leb_le. auto. Qed.
Lemma pcos_ok n N : (1 <= N)%Z -> (Z.abs n <= N)%Z -> (8 * N <= INT_MAX)%Z -> pcos exact_ptrig n N = Ok (cos (2 * PI * IZR n / IZR N)).
Proof. intros. cbn. rewrite uc_dom_ok; auto. Qed.
Lemma psin_ok n N : (1 <= N)%Z -> (Z.abs n <= N)%Z -> (8 * N <= INT_MAX)%Z -> psin exact_ptrig n N = Ok (sin (2 * PI * IZR n / IZR N)).
Proof. intros. cbn. rewrite uc_dom_ok; auto. Qed.
Lemma ichk_ok z : (INT_MIN <= z <= INT_MAX)%Z -> ichk z = Ok z.
Proof. intros H. unfold ichk, int_ok. destruct (Z.leb_spec INT_MIN z), (Z.leb_spec z INT_MAX); cbn; auto; lia. Qed.

(** adding whole turns *)
Lemma cos_turn x k : cos (x + 2 * IZR k * PI) = cos x.
Proof.
  destruct (Z_le_gt_dec 0 k) as [H|H].
  - replace k with (Z.of_nat (Z.to_nat k)) by lia. rewrite <- INR_IZR_INZ. apply cos_period.
  - rewrite <- (cos_period (x + 2 * IZR k * PI) (Z.to_nat (- k))). rewrite INR_IZR_INZ, Z2Nat.id, opp_IZR by lia. f_equal. ring.
Qed.
Lemma sin_turn x k : sin (x + 2 * IZR k * PI) = sin x.
Proof.
  destruct (Z_le_gt_dec 0 k) as [H|H].
  - replace k with (Z.of_nat (Z.to_nat k)) by lia. rewrite <- INR_IZR_INZ. apply sin_period.
  - rewrite <- (sin_period (x + 2 * IZR k * PI) (Z.to_nat (- k))). rewrite INR_IZR_INZ, Z2Nat.id, opp_IZR by lia. f_equal. ring.
Qed.
Lemma turn_rem (a N : Z) : (0 < N)%Z -> exists k, 2 * PI * IZR (Z.rem a N) / IZR N = 2 * PI * IZR a / IZR N + 2 * IZR k * PI.
Proof.
  intros H. exists (- (Z.quot a N))%Z. pose proof (Z.quot_rem' a N) as E. assert (Hn : IZR N <> 0) by (apply not_0_IZR; lia).
  rewrite opp_IZR. replace (Z.rem a N) with (a - N * Z.quot a N)%Z by lia. rewrite minus_IZR, mult_IZR. field. auto.
Qed.
Lemma cos_rem a N : (0 < N)%Z -> cos (2 * PI * IZR (Z.rem a N) / IZR N) = cos (2 * PI * IZR a / IZR N).
Proof. intros H. destruct (turn_rem a N H) as [k ->]. apply cos_turn. Qed.
Lemma sin_rem a N : (0 < N)%Z -> sin (2 * PI * IZR (Z.rem a N) / IZR N) = sin (2 * PI * IZR a / IZR N).
Proof. intros H. destruct (turn_rem a N H) as [k ->]. apply sin_turn. Qed.
Lemma rem_abs a N : (0 < N)%Z -> (Z.abs (Z.rem a N) < N)%Z.
Proof. intros. pose proof (Z.rem_bound_abs a N). lia. Qed.
Lemma cos_sym a b N : (a + b = N)%Z -> (0 < N)%Z -> cos (2 * PI * IZR a / IZR N) = cos (2 * PI * IZR b / IZR N).
Proof.
  intros E H. assert (Hn : IZR N <> 0) by (apply not_0_IZR; lia). replace a with (N - b)%Z by lia. rewrite minus_IZR.
  replace (2 * PI * (IZR N - IZR b) / IZR N) with (- (2 * PI * IZR b / IZR N) + 2 * IZR 1 * PI) by (field; auto). rewrite cos_turn, cos_neg. reflexivity.
Qed.
