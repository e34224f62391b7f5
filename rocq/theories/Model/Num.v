(* Arithmetic the numeric headers are templates over.  Nothing here models a particular function of /repo:
   [num T] lists the operations a template argument such as float or double provides. *)
From Coq Require Import ZArith Reals.
From Flocq Require Import Core.

Record num (T : Type) := mkNum {
  n0 : T; n1 : T;
  nadd : T -> T -> T; nsub : T -> T -> T; nmul : T -> T -> T; ndiv : T -> T -> T;
  nopp : T -> T; nabs : T -> T; nsqrt : T -> T;
  nofZ : Z -> T;          (* conversion of an int *)
  nlit : R -> T;          (* a decimal literal or constant, converted to T *)
  nltb : T -> T -> bool; nleb : T -> T -> bool; neqb : T -> T -> bool
}.
Arguments n0 {T}. Arguments n1 {T}. Arguments nadd {T}. Arguments nsub {T}. Arguments nmul {T}.
Arguments ndiv {T}. Arguments nopp {T}. Arguments nabs {T}. Arguments nsqrt {T}. Arguments nofZ {T}.
Arguments nlit {T}. Arguments nltb {T}. Arguments nleb {T}. Arguments neqb {T}.

(** exact arithmetic *)
Definition Rn : num R := {|
  n0 := 0%R; n1 := 1%R; nadd := Rplus; nsub := Rminus; nmul := Rmult; ndiv := Rdiv;
  nopp := Ropp; nabs := Rabs; nsqrt := sqrt; nofZ := IZR; nlit := fun x => x;
  nltb := Rlt_bool; nleb := Rle_bool; neqb := Req_bool |}.

(** every operation computed exactly and then rounded by [rnd] (IEEE 754 without overflow and special
    values when [rnd] is a rounding to a floating point format; sign change and absolute value are exact) *)
Definition Fn (rnd : R -> R) : num R := {|
  n0 := 0%R; n1 := 1%R;
  nadd := fun a b => rnd (a + b)%R; nsub := fun a b => rnd (a - b)%R;
  nmul := fun a b => rnd (a * b)%R; ndiv := fun a b => rnd (a / b)%R;
  nopp := Ropp; nabs := Rabs; nsqrt := fun a => rnd (sqrt a);
  nofZ := fun z => rnd (IZR z); nlit := rnd;
  nltb := Rlt_bool; nleb := Rle_bool; neqb := Req_bool |}.
