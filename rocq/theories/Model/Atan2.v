(* Model of /repo/atan2.hh *)
From Coq Require Import Reals Bool.
From Verif Require Export Model.Num Model.Const.
Open Scope R_scope.

(** atan2.hh:20-30, 41  the literals *)
Definition at_P0 : R := -8.750608600031904122785E-1.
Definition at_P1 : R := -1.615753718733365076637E1.
Definition at_P2 : R := -7.500855792314704667340E1.
Definition at_P3 : R := -1.228866684490136173410E2.
Definition at_P4 : R := -6.485021904942025371773E1.
Definition at_Q0 : R := 2.485846490142306297962E1.
Definition at_Q1 : R := 1.650270098316988542046E2.
Definition at_Q2 : R := 4.328810604912902668951E2.
Definition at_Q3 : R := 4.853903996359136964868E2.
Definition at_Q4 : R := 1.945506571482613964425E2.
Definition at_MOREBITS : R := 6.123233995736765886130E-17.

Section Atan2.
Context {T : Type} (N : num T).
Notation "a ⊕ b" := (nadd N a b) (at level 50, left associativity).
Notation "a ⊖ b" := (nsub N a b) (at level 50, left associativity).
Notation "a ⊗ b" := (nmul N a b) (at level 40, left associativity).
Notation "a ⊘ b" := (ndiv N a b) (at level 40, left associativity).
Notation l := (nlit N).

(** atan2.hh:18-35 *)
Definition atan_kernel (x : T) : T :=
  let xx := x ⊗ x in
  x ⊕ x ⊗ xx ⊗
    (xx ⊗ (xx ⊗ (xx ⊗ (xx ⊗ l at_P0 ⊕ l at_P1) ⊕ l at_P2) ⊕ l at_P3) ⊕ l at_P4) ⊘
    (xx ⊗ (xx ⊗ (xx ⊗ (xx ⊗ (xx ⊕ l at_Q0) ⊕ l at_Q1) ⊕ l at_Q2) ⊕ l at_Q3) ⊕ l at_Q4).

(** atan2.hh:37-49 *)
Definition atan_approx (x : T) : T :=
  if nleb N x (l 0.66) then atan_kernel x
  else if nltb N (l 2.41421356237309504880) x then
    HalfPi N ⊕ l at_MOREBITS ⊖ atan_kernel (n1 N ⊘ x)
  else FourthPi N ⊕ l 0.5 ⊗ l at_MOREBITS ⊕ atan_kernel ((x ⊖ n1 N) ⊘ (x ⊕ n1 N)).

(** atan2.hh:51-55 *)
Definition atan (x : T) : T := if nleb N (n0 N) x then atan_approx x else nopp N (atan_approx (nopp N x)).

(** copysign(v, y) for v >= 0; [sy] is the sign bit of y, which exists also for a zero *)
Definition copysign (v : T) (sy : bool) : T := if sy then nopp N v else v.

(** atan2.hh:57-72; [sy] is the sign bit of y *)
Definition atan2 (sy : bool) (y x : T) : T :=
  if neqb N y (n0 N) then
    if nleb N (n0 N) x then copysign (n0 N) sy else copysign (Pi N) sy
  else if neqb N x (n0 N) then copysign (HalfPi N) sy
  else
    let phase := atan (y ⊘ x) in
    if nltb N x (n0 N) then
      if nltb N (n0 N) phase then phase ⊖ Pi N else phase ⊕ Pi N
    else phase.
End Atan2.
