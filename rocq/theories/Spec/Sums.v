(* Specification vocabulary: sums and means *)
From Coq Require Import List ZArith Reals.
Import ListNotations.

(** sum of a list in an arbitrary additive structure *)
Definition gsum {A} (zero : A) (add : A -> A -> A) (l : list A) : A := fold_right add zero l.

(** real sum and mean *)
Definition Rsum (l : list R) : R := gsum 0%R Rplus l.
Definition Rmean (l : list R) : R := (Rsum l / INR (length l))%R.

(** two's complement wrap-around to [w] bits: representative in [-2^(w-1), 2^(w-1)) *)
Definition swrap (w : Z) (z : Z) : Z := ((z + 2 ^ (w - 1)) mod 2 ^ w - 2 ^ (w - 1))%Z.
(** unsigned wrap-around *)
Definition uwrap (w : Z) (z : Z) : Z := (z mod 2 ^ w)%Z.
Definition Zsum (l : list Z) : Z := gsum 0%Z Z.add l.
