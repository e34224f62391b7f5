(* Model of /repo/utils.hh *)
From Coq Require Import Reals ZArith.
From Verif Require Export Model.Signal Model.Const.
Open Scope Z_scope.

Section Utils.
Context {T : Type} (N : num T).
(** utils.hh:13-17 *)
Definition signum (v : T) : Z := (if nltb N (n0 N) v then 1 else 0) - (if nltb N v (n0 N) then 1 else 0).
(** utils.hh:19-23 *)
Definition lerp {V} (M : vsp T V) (a b : V) (x : T) : V := vadd M (vscale M (nsub N (n1 N) x) a) (vscale M x b).
(** utils.hh:25-29 *)
Definition clamp (x a b : T) : T := if nltb N x a then a else if nltb N b x then b else x.
(** utils.hh:31-35; [expf] and [square] stand for exp and pow(., 2) *)
Definition normal_pdf (expf square : T -> T) (x m s : T) : T :=
  ndiv N (expf (ndiv N (nopp N (square (ndiv N (nsub N x m) s))) (nofZ N 2))) (nmul N (SqrtTwoPi N) s).
(** utils.hh:37-41 *)
Definition sinc (sinf : T -> T) (x : T) : T :=
  if neqb N (n0 N) x then n1 N else ndiv N (sinf (nmul N (Pi N) x)) (nmul N (Pi N) x).
(** utils.hh:43-47 *)
Definition delta (x : T) : T := if neqb N (n0 N) x then n1 N else n0 N.
End Utils.
