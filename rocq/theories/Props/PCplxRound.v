(* C83: complex arithmetic in floating point (complex.hh) *)
From Coq Require Import Reals Lra Lia ZArith Floats.
From Flocq Require Import Core Relative.
From Coquelicot Require Import Complex.
From Verif Require Import Proofs.BaseLemmas Spec.Rounding Model.Complex Model.Num64 Proofs.CplxRound Props.PFftRound.
Open Scope R_scope.

(** C83  A product computed with rounded operations is, as a complex number, within 3u of the exact product, relative to its modulus. *)
Theorem C83_product (u e : R) (rnd : R -> R) (a b : C) : rounding u e rnd -> 0 <= u <= 1 / 100 -> 0 <= e ->
  Cmod (cmul (Fn rnd) a b - a * b)%C <= 3 * u * Cmod (a * b)%C + 5 * e.
Proof. intros Hr Hu He. rewrite Cmod_mult. apply (mul_round u e rnd); auto. Qed.
Print Assumptions C83_product.
(** C83  Without overflow and underflow a quotient is within 8u and the modulus within 3u. *)
Theorem C83_quotient (u : R) (rnd : R -> R) (a b : C) : rounding u 0 rnd -> 0 <= u <= 1 / 100 -> b <> 0%C ->
  Cmod (cdiv (Fn rnd) a b - a / b)%C <= 8 * u * Cmod (a / b)%C.
Proof. intros Hr Hu Hb. apply (div_round u rnd); auto. Qed.
Print Assumptions C83_quotient.
Theorem C83_abs (u : R) (rnd : R -> R) (a : C) : rounding u 0 rnd -> 0 <= u <= 1 / 100 -> Rabs (cabs (Fn rnd) a - Cmod a) <= 3 * u * Cmod a.
Proof. intros Hr Hu. apply (abs_round u rnd); auto. Qed.
Print Assumptions C83_abs.
(** C83  The components of a product need not be accurate: the real part of (1+2^-30 + i)(1-2^-30 + i) is -2^-60, in double it is 0. *)
Theorem C83_componentwise_refuted :
  fst (cmul Dn (0x1.00000004p0, 1)%float (0x0.fffffffcp0, 1)%float) = 0%float /\
  fst (cmul Rn (1 + / 2 ^ 30, 1) (1 - / 2 ^ 30, 1)) = - / 2 ^ 60 /\
  Prim2SF 0x1.00000004p0 = S754_finite false (2 ^ 52 + 2 ^ 22) (-52) /\ Prim2SF 0x0.fffffffcp0 = S754_finite false (2 ^ 53 - 2 ^ 23) (-53).
Proof. split; [vm_compute; reflexivity|]. split; [cbn; field|]. split; vm_compute; reflexivity. Qed.
Print Assumptions C83_componentwise_refuted.
(** C83  The range is halved: in double 2^600 / 2^600 and 2^-600 / 2^-600 are not numbers, and |2^600| is infinite and |2^-600| zero. *)
Theorem C83_range_refuted : let big := (0x1p600, 0)%float in let tiny := (0x1p-600, 0)%float in
  is_nan (fst (cdiv Dn big big)) = true /\ is_nan (fst (cdiv Dn tiny tiny)) = true /\
  cabs Dn big = infinity /\ cabs Dn tiny = 0%float.
Proof. repeat split; vm_compute; reflexivity. Qed.
Print Assumptions C83_range_refuted.
(** rounding to 53 bits without limits on the exponent is such a rounding *)
Example C83_flx : rounding (bpow radix2 (-53)) 0 (round radix2 (FLX_exp 53) ZnearestE).
Proof.
  intros x. assert (Pp : Prec_gt_0 53) by reflexivity. rewrite Rplus_0_r. eapply Rle_trans; [apply (relative_error_N_FLX radix2 53 Pp (fun x => negb (Z.even x)))|]. right.
  assert (E : / 2 * bpow radix2 (- (53) + 1) = bpow radix2 (-53)) by (change (- (53) + 1)%Z with (-52)%Z; change (-53)%Z with (-52 + -1)%Z; rewrite bpow_plus; change (bpow radix2 (-1)) with (/ 2); ring).
  rewrite E. reflexivity.
Qed.
Example C83_double (a b : C) : Cmod (cmul (Fn rnd64) a b - a * b)%C <= 3 * bpow radix2 (-53) * Cmod (a * b)%C + 5 * bpow radix2 (-1075).
Proof. destruct (fmt_range (-53) (-1075)) as [Hu He]; try lia. apply C83_product; [apply fmt64|lra|lra]. Qed.
