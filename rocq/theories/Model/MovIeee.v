(* Model of MovMin and MovMax of /repo/movext.hh for TYPE float or double *)
From Coq Require Import ZArith.
From Flocq Require Import Core IEEE754.BinarySingleNaN.
From Verif Require Export Model.MovExt Model.NumIeee.

Section MovIeee.
Context (prec emax : Z) {Hp : Prec_gt_0 prec} {Hpe : Prec_lt_emax prec emax}.
Notation bf := (binary_float prec emax).
(** numeric_limits<TYPE>::max(), the largest finite number, and numeric_limits<TYPE>::min(), the smallest positive
    normal number *)
Definition limits_max : bf := Bmax_float.
Definition limits_min : bf := Bldexp mode_NE Bone (2 - emax).
(** movext.hh:46-58: operator == and std::less *)
Definition movmin_ieee (NUM : Z) (xs : list bf) : outcome (movext bf * list bf) := movext_run Beqb Bltb NUM limits_max xs.
(** movext.hh:60-72: std::greater *)
Definition movmax_ieee (NUM : Z) (xs : list bf) : outcome (movext bf * list bf) := movext_run Beqb (fun a b => Bltb b a) NUM limits_min xs.
End MovIeee.
