(* The conversion of literals in C++: a floating-point literal is first of all a double, or a long double if it has
   the suffix L, and then converted to the type of the constant it initialises.  The other models convert the decimal
   number at once. *)
From Coq Require Import Reals.
From Flocq Require Import Core.
From Verif Require Export Model.Num Model.TestPrograms.

(** [long x]: the literal x has the suffix L *)
Definition Cn (long : R -> bool) (rnd : R -> R) : num R := {|
  n0 := n0 (Fn rnd); n1 := n1 (Fn rnd); nadd := nadd (Fn rnd); nsub := nsub (Fn rnd); nmul := nmul (Fn rnd); ndiv := ndiv (Fn rnd);
  nopp := nopp (Fn rnd); nabs := nabs (Fn rnd); nsqrt := nsqrt (Fn rnd); nofZ := nofZ (Fn rnd);
  nlit := fun x => if long x then rnd (rnd80 x) else rnd (round radix2 (FLT_exp (-1074) 53) ZnearestE x);
  nltb := nltb (Fn rnd); nleb := nleb (Fn rnd); neqb := neqb (Fn rnd) |}.
