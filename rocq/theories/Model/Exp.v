(* Model of /repo/exp.hh and /repo/decibel.hh *)
From Coq Require Import Reals ZArith.
From Verif Require Export Model.Base Model.Num.
Open Scope Z_scope.

(** exp.hh:30-40  the literals *)
Definition ex_LOG210 : R := 3.32192809488736234787e0%R.
Definition ex_LG102A : R := 3.01025390625000000000E-1%R.
Definition ex_LG102B : R := 4.60503898119521373889E-6%R.
Definition ex_P0 : R := 4.09962519798587023075E-2%R.
Definition ex_P1 : R := 1.17452732554344059015E1%R.
Definition ex_P2 : R := 4.06717289936872725516E2%R.
Definition ex_P3 : R := 2.39423741207388267439E3%R.
Definition ex_Q0 : R := 8.50936160849306532625E1%R.
Definition ex_Q1 : R := 1.27209271178345121210E3%R.
Definition ex_Q2 : R := 2.07960819286001865907E3%R.
(** decibel.hh:22 *)
Definition db_scale : R := 8894.350989378597430295120259412072085389250678859091274024013479236%R.

(** 1 << a for an int: 1 << 31 is INT_MIN (C++14 to C++17: the unsigned value converted back; C++20: by
    definition), larger shift counts are undefined *)
Definition shl1 (a : Z) : outcome Z :=
  if (a <? 0) || (32 <=? a) then Undefined else if a =? 31 then Ok INT_MIN else Ok (2 ^ a).

Section Exp.
Context {T : Type} (N : num T).
Notation "a ⊕ b" := (nadd N a b) (at level 50, left associativity).
Notation "a ⊖ b" := (nsub N a b) (at level 50, left associativity).
Notation "a ⊗ b" := (nmul N a b) (at level 40, left associativity).
Notation "a ⊘ b" := (ndiv N a b) (at level 40, left associativity).
Notation l := (nlit N).

(** exp.hh:14-26 *)
Definition ldexp (x : T) (n : Z) : outcome T :=
  a <- (if n <? 0 then ichk (- n) else Ok n) ;;
  let a8 := Z.quot a 8 in
  let ar := a - a8 * 8 in
  t0 <- shl1 a8 ;;
  let t := nofZ N t0 in
  let t := t ⊗ t in
  let t := t ⊗ t in
  let t := t ⊗ t in
  s <- shl1 ar ;;
  let t := t ⊗ nofZ N s in
  Ok (if n <? 0 then x ⊘ t else x ⊗ t).

(** exp.hh:28-50; [rint] is nearbyint.  nearbyint returns a TYPE, converted to int for the call of ldexp; the
    model has [rint] return the integer and converts it to T. *)
Context (rint : T -> Z).
Definition exp10 (x : T) : outcome T :=
  let k := rint (x ⊗ l ex_LOG210) in
  let i := nofZ N k in
  let x := x ⊖ i ⊗ l ex_LG102A in
  let x := x ⊖ i ⊗ l ex_LG102B in
  let xx := x ⊗ x in
  let py := x ⊗ (xx ⊗ (xx ⊗ (xx ⊗ l ex_P0 ⊕ l ex_P1) ⊕ l ex_P2) ⊕ l ex_P3) in
  let qy := xx ⊗ (xx ⊗ (xx ⊕ l ex_Q0) ⊕ l ex_Q1) ⊕ l ex_Q2 in
  let pq := n1 N ⊕ nofZ N 2 ⊗ py ⊘ (qy ⊖ py) in
  n <- ichk k ;; ldexp pq n.

(** decibel.hh:14-40 *)
Definition db_inv (k : Z) : T := n1 N ⊘ nofZ N k.
Definition decibel (v : T) : T :=
  let x := Nat.iter 10 (nsqrt N) v in
  let x := (x ⊖ n1 N) ⊘ (x ⊕ n1 N) in
  let xx := x ⊗ x in
  l db_scale ⊗ x ⊗ (xx ⊗ (xx ⊗ (xx ⊗ (xx ⊗ (xx ⊗ (xx ⊗
    db_inv 13 ⊕ db_inv 11) ⊕ db_inv 9) ⊕ db_inv 7) ⊕ db_inv 5) ⊕ db_inv 3) ⊕ db_inv 1).

(** decibel.hh:42-46 *)
Definition idecibel (dB : T) : outcome T := exp10 (dB ⊘ nofZ N 10).
End Exp.
