(* Specification vocabulary: exact arithmetic in which also the named constants of const.hh are the exact numbers, and
   exact trigonometry on the domain of UnitCircle *)
From Coq Require Import Reals ZArith Lra.
From Flocq Require Import Core.
From Verif Require Import Model.Num Model.Const Model.WinFun.
Open Scope R_scope.

Definition exact_lit (x : R) : R :=
  if Req_bool x Pi_lit then PI else if Req_bool x HalfPi_lit then PI / 2 else if Req_bool x TwoPi_lit then 2 * PI
  else if Req_bool x SqrtTwoPi_lit then sqrt (2 * PI) else x.
Definition Rc : num R := {|
  n0 := 0; n1 := 1; nadd := Rplus; nsub := Rminus; nmul := Rmult; ndiv := Rdiv;
  nopp := Ropp; nabs := Rabs; nsqrt := sqrt; nofZ := IZR; nlit := exact_lit;
  nltb := Rlt_bool; nleb := Rle_bool; neqb := Req_bool |}.

(** n/N of a turn, |n| <= N, and 8 N an int *)
Definition uc_dom (n N : Z) : bool := ((1 <=? N) && (Z.abs n <=? N) && (8 * N <=? INT_MAX))%Z.
Definition exact_ptrig : ptrig R := {|
  pcos := fun n N => if uc_dom n N then Ok (cos (2 * PI * IZR n / IZR N)) else Undefined;
  psin := fun n N => if uc_dom n N then Ok (sin (2 * PI * IZR n / IZR N)) else Undefined |}.

(** sin(pi x) / (pi x) *)
Definition rsinc (x : R) : R := if Req_bool x 0 then 1 else sin (PI * x) / (PI * x).
