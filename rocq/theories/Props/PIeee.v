(* C94: UnitCircle, atan and atan2 (unit_circle.hh, atan2.hh) in IEEE 754 arithmetic with overflow, infinities and NaN *)
From Coq Require Import ZArith Reals Lia Lra.
From Flocq Require Import Core BinarySingleNaN.
From Interval Require Import Tactic.
From Verif Require Import Model.Base Model.Num Model.NumIeee Spec.Rounding Model.UnitCircle Model.Atan2 Spec.Angle Proofs.Atan2Proofs Proofs.UcRound Proofs.AtRound Proofs.IeeeProofs Proofs.IeeeFun.
Open Scope R_scope.

(** UnitCircle<TYPE>::cos(n, N) and sin(n, N) are finite and accurate: no operation overflows *)
Theorem C94_unit_circle (prec emax : Z) (Hp : Prec_gt_0 prec) (Hpe : Prec_lt_emax prec emax) (n N : Z) :
  (24 <= prec)%Z -> (128 <= emax)%Z -> (1 <= N)%Z -> (Z.abs n <= N)%Z -> (8 * N <= INT_MAX)%Z ->
  exists c s, uc_cos (Bn prec emax) n N = Ok c /\ uc_sin (Bn prec emax) n N = Ok s /\ is_finite c = true /\ is_finite s = true /\
  Rabs (B2R c - cos (2 * PI * IZR n / IZR N)) <= 8 * bpow radix2 (- prec) + 3e-17 /\ Rabs (B2R s - sin (2 * PI * IZR n / IZR N)) <= 8 * bpow radix2 (- prec) + 3e-17.
Proof.
  intros P E HN Hn HI. destruct (uc_rep prec emax P E n N HN Hn HI) as (bc & bs & c & s & E1 & E2 & E3 & E4 & [F1 R1] & [F2 R2]).
  pose proof (uu_range prec P) as U.
  destruct (uc_round (uu prec) (ee prec emax) (brnd prec emax) ltac:(lra) (ee_range6 prec emax P E) (rnd_ok prec emax P E) n N HN Hn HI) as (c' & s' & E5 & E6 & A & A').
  rewrite E3 in E5. rewrite E4 in E6. inversion E5. inversion E6. subst c' s'. exists bc, bs. rewrite R1, R2. unfold uu in *. auto 10.
Qed.
Print Assumptions C94_unit_circle.
Theorem C94_unit_circle_binary64 (n N : Z) : (1 <= N)%Z -> (Z.abs n <= N)%Z -> (8 * N <= INT_MAX)%Z ->
  exists c s, uc_cos b64 n N = Ok c /\ uc_sin b64 n N = Ok s /\ is_finite c = true /\ is_finite s = true /\
  Rabs (B2R c - cos (2 * PI * IZR n / IZR N)) <= 1e-15 /\ Rabs (B2R s - sin (2 * PI * IZR n / IZR N)) <= 1e-15.
Proof.
  intros HN Hn HI. destruct (C94_unit_circle 53 1024 _ _ n N ltac:(lia) ltac:(lia) HN Hn HI) as (c & s & E1 & E2 & F1 & F2 & A & A').
  change (bpow radix2 (- (53))) with (/ 9007199254740992) in *. exists c, s. refine (conj E1 (conj E2 (conj F1 (conj F2 (conj _ _))))); lra.
Qed.
Print Assumptions C94_unit_circle_binary64.

(** atan2<double>(y, x): for all finite y, x - even if y/x overflows - the result is finite and accurate; not both zero, y not -0, and
    not within 1e-33 (as a slope) of the negative x axis, which is otherwise reached with the other sign of pi *)
Theorem C94_atan2_binary64 (y x : binary_float 53 1024) : is_finite y = true -> is_finite x = true -> ~ (B2R x = 0 /\ B2R y = 0) -> (B2R y = 0 -> Bsign y = false) ->
  0 <= B2R x \/ B2R y = 0 \/ 1e-33 <= Rabs (B2R y / B2R x) ->
  exists t, angle_of (B2R x) (B2R y) t /\ is_finite (atan2 b64 (Bsign y) y x) = true /\ Rabs (B2R (atan2 b64 (Bsign y) y x) - t) <= 1.6e-15.
Proof.
  intros Fy Fx NZ S H. destruct (ieee_atan2 53 1024 ltac:(lia) ltac:(lia) y x Fy Fx NZ S H) as (t & A & F & B). exists t. split; auto. split; auto.
  unfold uu in B. change (bpow radix2 (- (53))) with (/ 9007199254740992) in *. unfold b64. lra.
Qed.
Print Assumptions C94_atan2_binary64.
Theorem C94_atan2_binary32 (y x : binary_float 24 128) : is_finite y = true -> is_finite x = true -> ~ (B2R x = 0 /\ B2R y = 0) -> (B2R y = 0 -> Bsign y = false) ->
  0 <= B2R x \/ B2R y = 0 \/ 1e-33 <= Rabs (B2R y / B2R x) ->
  exists t, angle_of (B2R x) (B2R y) t /\ is_finite (atan2 b32 (Bsign y) y x) = true /\ Rabs (B2R (atan2 b32 (Bsign y) y x) - t) <= 7.8e-7.
Proof.
  intros Fy Fx NZ S H. destruct (ieee_atan2 24 128 ltac:(lia) ltac:(lia) y x Fy Fx NZ S H) as (t & A & F & B). exists t. split; auto. split; auto.
  unfold uu in B. change (bpow radix2 (- (24))) with (/ 16777216) in *. unfold b32. lra.
Qed.
Print Assumptions C94_atan2_binary32.

(** whatever the arguments, as long as they are finite, the result is finite: no NaN, no infinity *)
Theorem C94_atan2_finite (prec emax : Z) (Hp : Prec_gt_0 prec) (Hpe : Prec_lt_emax prec emax) (sy : bool) (y x : binary_float prec emax) :
  (24 <= prec)%Z -> (128 <= emax)%Z -> is_finite y = true -> is_finite x = true -> is_finite (atan2 (Bn prec emax) sy y x) = true.
Proof. intros P E Fy Fx. destruct (atan2_rep prec emax P E sy y x (B2R y) (B2R x)) as [[F _] _]; [split; auto|split; auto|]. exact F. Qed.
Print Assumptions C94_atan2_finite.

(** y = -0: -0 on the positive side, minus pi (rounded) on the negative side *)
Theorem C94_atan2_minus_zero (x : binary_float 53 1024) : is_finite x = true ->
  atan2 b64 true (B754_zero true) x = B754_zero true /\ 0 <= B2R x \/ Rabs (B2R (atan2 b64 true (B754_zero true) x) + PI) <= 4e-16 /\ B2R x < 0.
Proof.
  intros Fx. unfold atan2. change (neqb b64 (B754_zero true) (n0 b64)) with true. cbv iota.
  rewrite (rep_leb 53 1024 (n0 b64) x 0 (B2R x)); [|split; reflexivity|split; auto]. cbn [nleb Fn]. destruct (Rle_bool_spec 0 (B2R x)) as [S|S]; [left; split; auto|right; split; auto].
  destruct (rk_lit 53 1024 ltac:(lia) ltac:(lia) Pi_lit 2) as [[F R] _]; [lia|unfold Pi_lit; change (bpow radix2 2) with 4; apply Rabs_le; lra|].
  unfold copysign, Pi. change (nopp b64) with (@Bopp 53 1024). rewrite B2R_Bopp. change (nlit b64) with (nlit (Bn 53 1024)). rewrite R. cbn [nlit Fn].
  pose proof (rnd_ok 53 1024 ltac:(lia) ltac:(lia) Pi_lit) as Q. unfold uu, ee in Q. change (2 - 1024 - 53)%Z with (-53 + -1022)%Z in Q. rewrite bpow_plus in Q.
  assert (B0 : bpow radix2 (-1022) <= bpow radix2 (-10)) by (apply bpow_le; lia). change (bpow radix2 (-10)) with (/ 1024) in B0. change (bpow radix2 (- (53))) with (/ 9007199254740992) in Q. change (bpow radix2 (-53)) with (/ 9007199254740992) in Q.
  assert (PL : Rabs (Pi_lit - PI) <= 1e-30) by (unfold Pi_lit; interval with (i_prec 200)). apply Rabs_le_inv in PL. assert (P3 : 3 <= PI <= 3.2) by (split; interval).
  rewrite (Rabs_pos_eq Pi_lit) in Q by lra. apply Rabs_le_inv in Q. apply Rabs_le. lra.
Qed.
Print Assumptions C94_atan2_minus_zero.

(** atan of any finite number or infinity *)
Theorem C94_atan (prec emax : Z) (Hp : Prec_gt_0 prec) (Hpe : Prec_lt_emax prec emax) (x : binary_float prec emax) : (24 <= prec)%Z -> (128 <= emax)%Z -> is_nan x = false ->
  is_finite (atan (Bn prec emax) x) = true /\
  Rabs (B2R (atan (Bn prec emax) x) - match x with B754_infinity s => if s then - (PI / 2) else PI / 2 | _ => Ratan.atan (B2R x) end) <= 5.9 * bpow radix2 (- prec) + 1.1e-16.
Proof.
  intros P E NN. pose proof (uu_range prec P) as U. pose proof (ee_range prec emax E) as EE. assert (A := fun z => atan_round (uu prec) (ee prec emax) (brnd prec emax) U ltac:(lra) (rnd_ok prec emax P E) z). unfold uu in A.
  destruct (is_finite x) eqn:F.
  - destruct (atan_rep prec emax P E x (B2R x)) as [[F1 R1] _]; [split; auto|]. split; auto. rewrite R1. specialize (A (B2R x)). destruct x; try discriminate F; lra.
  - destruct x as [|s| |]; try discriminate. destruct (atan_inf prec emax P E s) as [[F1 R1] _]. split; auto. rewrite R1. specialize (A (if s then - huge prec emax else huge prec emax)).
    pose proof (huge_big prec emax P E) as HB. pose proof (bpow_gt_0 radix2 100) as B1. assert (I : / bpow radix2 100 <= 1e-30). { change (bpow radix2 100) with 1267650600228229401496703205376. lra. }
    assert (HH : Rabs (Ratan.atan (huge prec emax) - PI / 2) <= 1e-30).
    { set (h := huge prec emax) in *. assert (0 < / h) by (apply Rinv_0_lt_compat; lra). assert (/ h <= / bpow radix2 100) by (apply Rinv_le; auto). pose proof (atan_lip (/ h) 0) as L.
      rewrite Ratan.atan_0, !Rminus_0_r, (Rabs_pos_eq (/ h)), (atan_inv h) in L by lra. rewrite Rabs_minus_sym. lra. }
    apply Rabs_le_inv in HH. apply Rabs_le_inv in A. apply Rabs_le. destruct s; [rewrite Ratan.atan_opp in A|]; lra.
Qed.
Print Assumptions C94_atan.

(** atan2(inf, inf), pi/4 in the C library, is NaN here: y/x is not a number *)
Section Nan.
Context (prec emax : Z) {Hp : Prec_gt_0 prec} {Hpe : Prec_lt_emax prec emax}.
Notation B := (Bn prec emax). Notation bf := (binary_float prec emax).
Lemma nan_l (a b : bf) : is_nan a = true -> is_nan (nadd B a b) = true /\ is_nan (nsub B a b) = true /\ is_nan (nmul B a b) = true /\ is_nan (ndiv B a b) = true.
Proof. intros H. destruct a; try discriminate H. auto. Qed.
Lemma nan_r (a b : bf) : is_nan b = true -> is_nan (nadd B a b) = true /\ is_nan (nsub B a b) = true /\ is_nan (nmul B a b) = true /\ is_nan (ndiv B a b) = true.
Proof. intros H. destruct b; try discriminate H. destruct a; auto. Qed.
Lemma nan_atan (x : bf) : is_nan x = true -> is_nan (atan B x) = true.
Proof.
  intros H. assert (K : forall z : bf, is_nan z = true -> is_nan (atan_kernel B z) = true) by (intros z Z; unfold atan_kernel; apply nan_l; auto).
  assert (G : forall z : bf, is_nan z = true -> is_nan (atan_approx B z) = true).
  { intros z Z. unfold atan_approx. destruct (nleb B z _); auto. destruct (nltb B _ z); apply nan_r, K; [apply nan_r; auto|apply nan_l, nan_l; auto]. }
  unfold atan. destruct (nleb B (n0 B) x); auto. destruct x; try discriminate H. pose proof (G B754_nan eq_refl) as Q.
  change (nopp B B754_nan) with (@B754_nan prec emax). destruct (atan_approx B B754_nan); try discriminate Q. reflexivity.
Qed.
End Nan.
Theorem C94_atan2_infinite_refuted : ~ (forall y x : binary_float 53 1024, is_nan y = false -> is_nan x = false -> is_nan (atan2 b64 (Bsign y) y x) = false).
Proof.
  intros H. specialize (H (B754_infinity false) (B754_infinity false) eq_refl eq_refl). unfold atan2 in H.
  change (neqb b64 (B754_infinity false) (n0 b64)) with false in H. change (nltb b64 (B754_infinity false) (n0 b64)) with false in H. cbv iota zeta in H.
  change (ndiv b64 (B754_infinity false) (B754_infinity false)) with (@B754_nan 53 1024) in H. pose proof (nan_atan 53 1024 B754_nan eq_refl) as Q. unfold b64 in H. congruence.
Qed.
Print Assumptions C94_atan2_infinite_refuted.

(** C94  2^1000 and 2^-1000: the quotient overflows, the result is still pi/2 *)
Definition bp (k : Z) : binary_float 53 1024 := binary_normalize 53 1024 _ _ mode_NE 1 k false.
Lemma bp_R k : (-1000 <= k <= 1000)%Z -> is_finite (bp k) = true /\ B2R (bp k) = bpow radix2 k.
Proof.
  intros H. pose proof (binary_normalize_correct 53 1024 _ _ mode_NE 1 k false) as P. cbn [round_mode] in P. unfold F2R in P. cbn [Fnum Fexp] in P. rewrite Rmult_1_l in P.
  rewrite (round_generic radix2 _ _ (bpow radix2 k)) in P.
  - rewrite Rlt_bool_true in P; [unfold bp; tauto|]. rewrite Rabs_pos_eq by apply bpow_ge_0. apply bpow_lt. lia.
  - apply generic_format_bpow. unfold SpecFloat.fexp, SpecFloat.emin. lia.
Qed.
Example C94_example : ndiv b64 (bp 1000) (bp (-1000)) = B754_infinity false /\ Rabs (B2R (atan2 b64 false (bp 1000) (bp (-1000))) - PI / 2) <= 1.61e-15.
Proof.
  split; [vm_compute; reflexivity|]. destruct (bp_R 1000 ltac:(lia)) as [F1 R1]. destruct (bp_R (-1000) ltac:(lia)) as [F2 R2].
  pose proof (bpow_gt_0 radix2 1000) as G1. pose proof (bpow_gt_0 radix2 (-1000)) as G2.
  destruct (C94_atan2_binary64 (bp 1000) (bp (-1000)) F1 F2) as (t & A & _ & B); rewrite ?R1, ?R2; try lra.
  change (Bsign (bp 1000)) with false in B. rewrite R1, R2 in A. apply angle_right in A; auto. rewrite <- (Rinv_involutive (bpow radix2 (-1000))) in A by lra.
  rewrite <- bpow_opp in A. unfold Rdiv in A. rewrite Rinv_involutive in A by (apply Rgt_not_eq, bpow_gt_0). rewrite <- bpow_plus in A. change (1000 + - (-1000))%Z with 2000%Z in A.
  pose proof (atan_inv (bpow radix2 2000) (bpow_gt_0 _ _)) as I. pose proof (atan_lip (/ bpow radix2 2000) 0) as L. rewrite Ratan.atan_0, !Rminus_0_r, I, <- A in L.
  assert (Z : / bpow radix2 2000 <= / bpow radix2 100) by (apply Rinv_le; [apply bpow_gt_0|apply bpow_le; lia]). assert (J : / bpow radix2 100 <= 1e-30). { change (bpow radix2 100) with 1267650600228229401496703205376. lra. }
  rewrite (Rabs_pos_eq (/ _)) in L by (apply Rlt_le, Rinv_0_lt_compat, bpow_gt_0). apply Rabs_le_inv in L. apply Rabs_le_inv in B. apply Rabs_le. lra.
Qed.
