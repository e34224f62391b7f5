(* Model of /repo/biquad.hh *)
From Coq Require Import List ZArith.
From Verif Require Export Model.Base Model.Signal Model.Const Model.Exp Model.Fft.
Import ListNotations.
Open Scope Z_scope.

(** biquad.hh:19  VALUE b0a0, b1a0, b2a0, a1a0, a2a0 *)
Record coefs (T : Type) := mkCoefs { b0a0 : T; b1a0 : T; b2a0 : T; a1a0 : T; a2a0 : T }.
Arguments mkCoefs {T}. Arguments b0a0 {T}. Arguments b1a0 {T}. Arguments b2a0 {T}. Arguments a1a0 {T}. Arguments a2a0 {T}.
(** biquad.hh:18  TYPE x1, x2, y1, y2 *)
Record biquad (T V : Type) := mkBiquad { bq_x1 : V; bq_x2 : V; bq_y1 : V; bq_y2 : V; bq_c : coefs T }.
Arguments mkBiquad {T V}. Arguments bq_x1 {T V}. Arguments bq_x2 {T V}. Arguments bq_y1 {T V}. Arguments bq_y2 {T V}. Arguments bq_c {T V}.

Section Biquad.
Context {T : Type} (N : num T) (tr : trig T).
Notation "a ⊕ b" := (nadd N a b) (at level 50, left associativity).
Notation "a ⊖ b" := (nsub N a b) (at level 50, left associativity).
Notation "a ⊗ b" := (nmul N a b) (at level 40, left associativity).
Notation "a ⊘ b" := (ndiv N a b) (at level 40, left associativity).
Notation one := (n1 N).
Notation two := (nofZ N 2).

(** biquad.hh:35-39 and the same lines of the other designs *)
Definition bq_div (b0 b1 b2 a0 a1 a2 : T) : coefs T := mkCoefs (b0 ⊘ a0) (b1 ⊘ a0) (b2 ⊘ a0) (a1 ⊘ a0) (a2 ⊘ a0).

(** biquad.hh:25-40  lowpass *)
Definition bq_lowpass (n M : Z) (Q : T) : coefs T :=
  let alpha := tsin tr n M ⊘ (two ⊗ Q) in
  let cn := tcos tr n M in
  bq_div ((one ⊖ cn) ⊘ two) (one ⊖ cn) ((one ⊖ cn) ⊘ two) (one ⊕ alpha) (nopp N two ⊗ cn) (one ⊖ alpha).
(** biquad.hh:41-56  highpass *)
Definition bq_highpass (n M : Z) (Q : T) : coefs T :=
  let alpha := tsin tr n M ⊘ (two ⊗ Q) in
  let cn := tcos tr n M in
  bq_div ((one ⊕ cn) ⊘ two) (nopp N (one ⊕ cn)) ((one ⊕ cn) ⊘ two) (one ⊕ alpha) (nopp N two ⊗ cn) (one ⊖ alpha).
(** biquad.hh:57-72  notch, [Q] being idecibel(QdB) *)
Definition bq_notch_Q (n M : Z) (Q : T) : coefs T :=
  let alpha := tsin tr n M ⊘ (two ⊗ Q) in
  let cn := tcos tr n M in
  bq_div one (nopp N two ⊗ cn) one (one ⊕ alpha) (nopp N two ⊗ cn) (one ⊖ alpha).
(** biquad.hh:73-88  bandpass *)
Definition bq_bandpass_Q (n M : Z) (Q : T) : coefs T :=
  let alpha := tsin tr n M ⊘ (two ⊗ Q) in
  let cn := tcos tr n M in
  bq_div alpha (n0 N) (nopp N alpha) (one ⊕ alpha) (nopp N two ⊗ cn) (one ⊖ alpha).
(** biquad.hh:89-104  allpass *)
Definition bq_allpass_Q (n M : Z) (Q : T) : coefs T :=
  let alpha := tsin tr n M ⊘ (two ⊗ Q) in
  let cn := tcos tr n M in
  bq_div (one ⊖ alpha) (nopp N two ⊗ cn) (one ⊕ alpha) (one ⊕ alpha) (nopp N two ⊗ cn) (one ⊖ alpha).
Definition bq_notch (rint : T -> Z) (n M : Z) (QdB : T) : outcome (coefs T) :=
  Q <- idecibel N rint QdB ;; Ok (bq_notch_Q n M Q).
Definition bq_bandpass (rint : T -> Z) (n M : Z) (QdB : T) : outcome (coefs T) :=
  Q <- idecibel N rint QdB ;; Ok (bq_bandpass_Q n M Q).
Definition bq_allpass (rint : T -> Z) (n M : Z) (QdB : T) : outcome (coefs T) :=
  Q <- idecibel N rint QdB ;; Ok (bq_allpass_Q n M Q).

Context {V : Type} (M : vsp T V).
(** biquad.hh:21-24 *)
Definition biquad_new : biquad T V := mkBiquad (v0 M) (v0 M) (v0 M) (v0 M) (mkCoefs one (n0 N) (n0 N) (n0 N) (n0 N)).
(** the designs change the coefficients and keep the samples *)
Definition biquad_set (s : biquad T V) (c : coefs T) : biquad T V := mkBiquad (bq_x1 s) (bq_x2 s) (bq_y1 s) (bq_y2 s) c.
(** biquad.hh:105-112  operator() *)
Definition biquad_step (s : biquad T V) (x0 : V) : biquad T V * V :=
  let c := bq_c s in
  let y0 := vsub M (vsub M (vadd M (vadd M (vscale M (b0a0 c) x0) (vscale M (b1a0 c) (bq_x1 s))) (vscale M (b2a0 c) (bq_x2 s)))
                                   (vscale M (a1a0 c) (bq_y1 s))) (vscale M (a2a0 c) (bq_y2 s)) in
  (mkBiquad x0 (bq_x1 s) y0 (bq_y1 s) c, y0).

(** biquad.hh:115-141  BiquadCascade: a list of NUM sections *)
Definition bqc_new (NUM : nat) : list (biquad T V) := repeat biquad_new NUM.
(** biquad.hh:121-126, 127-132: the section's Q, VALUE(1) / (VALUE(2) * cos(2*i+1, 4*ORDER)) with ORDER = 2*NUM *)
Definition bqc_Q (NUM i : Z) : T := one ⊘ (two ⊗ tcos tr (2 * i + 1) (4 * (2 * NUM))).
Definition bqc_lowpass (s : list (biquad T V)) (n K : Z) : list (biquad T V) :=
  map (fun p => biquad_set (snd p) (bq_lowpass n K (bqc_Q (Z.of_nat (length s)) (Z.of_nat (fst p))))) (combine (seq 0 (length s)) s).
Definition bqc_highpass (s : list (biquad T V)) (n K : Z) : list (biquad T V) :=
  map (fun p => biquad_set (snd p) (bq_highpass n K (bqc_Q (Z.of_nat (length s)) (Z.of_nat (fst p))))) (combine (seq 0 (length s)) s).
(** biquad.hh:133-138 *)
Fixpoint bqc_step (s : list (biquad T V)) (input : V) : list (biquad T V) * V :=
  match s with
  | [] => ([], input)
  | b :: s' => let '(b', y) := biquad_step b input in let '(s'', o) := bqc_step s' y in (b' :: s'', o)
  end.
End Biquad.
