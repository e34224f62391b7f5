(* IEEE 754 double precision as a template argument, executable: Coq's primitive floats.  Used for concrete
   cases that involve NaN, infinities or rounding. *)
From Coq Require Import ZArith Floats Uint63.
From Verif Require Import Model.Num.

(** conversion of an int: exact for |z| < 2^53 *)
Definition float_ofZ (z : Z) : float :=
  if (z <? 0)%Z then PrimFloat.opp (PrimFloat.of_uint63 (Uint63.of_Z (- z))) else PrimFloat.of_uint63 (Uint63.of_Z z).
(** decimal literals are real numbers in the models and cannot be converted by computation: no model that
    uses [nlit] is run with this instance *)
Definition Dn : num float := {|
  n0 := 0%float; n1 := 1%float;
  nadd := PrimFloat.add; nsub := PrimFloat.sub; nmul := PrimFloat.mul; ndiv := PrimFloat.div;
  nopp := PrimFloat.opp; nabs := PrimFloat.abs; nsqrt := PrimFloat.sqrt;
  nofZ := float_ofZ; nlit := fun _ => PrimFloat.nan;
  nltb := PrimFloat.ltb; nleb := PrimFloat.leb; neqb := PrimFloat.eqb |}.
