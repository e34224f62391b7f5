(* IEEE 754 binary formats as template arguments, with overflow, infinities, NaN and signed zeros: the arithmetic of
   Flocq's binary_float (one NaN), rounding to nearest even.  Nothing here models a particular function of /repo. *)
From Coq Require Import ZArith Reals.
From Flocq Require Import Core BinarySingleNaN.
From Verif Require Import Model.Num.

Section Ieee.
Context (prec emax : Z) {Hp : Prec_gt_0 prec} {Hpe : Prec_lt_emax prec emax}.
Notation bf := (binary_float prec emax).
Notation fexp := (SpecFloat.fexp prec emax).
(** a literal: the real number rounded to the format (an infinity if it is too large) *)
Definition ieee_lit (x : R) : bf := binary_normalize prec emax _ _ mode_NE (ZnearestE (scaled_mantissa radix2 fexp x)) (cexp radix2 fexp x) (Rlt_bool x 0).
Definition Bn : num bf := {|
  n0 := B754_zero false; n1 := Bone;
  nadd := Bplus mode_NE; nsub := Bminus mode_NE; nmul := Bmult mode_NE; ndiv := Bdiv mode_NE;
  nopp := Bopp; nabs := Babs; nsqrt := Bsqrt mode_NE;
  nofZ := fun z => binary_normalize prec emax _ _ mode_NE z 0 false; nlit := ieee_lit;
  nltb := Bltb; nleb := Bleb; neqb := Beqb |}.
End Ieee.
(** float and double *)
#[global] Instance prec24 : Prec_gt_0 24. Proof. reflexivity. Qed.
#[global] Instance prec53 : Prec_gt_0 53. Proof. reflexivity. Qed.
#[global] Instance emax128 : Prec_lt_emax 24 128. Proof. reflexivity. Qed.
#[global] Instance emax1024 : Prec_lt_emax 53 1024. Proof. reflexivity. Qed.
Definition b32 : num (binary_float 24 128) := Bn 24 128.
Definition b64 : num (binary_float 53 1024) := Bn 53 1024.
