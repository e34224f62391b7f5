(* Specification vocabulary: computing in an IEEE format against computing with unbounded exponents *)
From Coq Require Import ZArith Reals.
From Flocq Require Import IEEE754.BinarySingleNaN.
From Verif Require Import Model.Base Model.Biquad.

Section Ieee.
Context {prec emax : Z}.
Notation bf := (binary_float prec emax).
(** [oB x t], [oF x t]: the value returned by call t of an object called with the signal x, in the format and with real
    numbers.  Whenever the former is finite it is the latter: overflow is never passed over silently. *)
Definition faithful (oB : (nat -> bf) -> nat -> bf) (oF : (nat -> R) -> nat -> R) : Prop :=
  forall x t, is_finite (oB x t) = true -> B2R (oB x t) = oF (fun k => B2R (x k)) t.
(** real and imaginary part, each for itself *)
Definition cagree (z : bf * bf) (w : R * R) : Prop := (is_finite (fst z) = true -> B2R (fst z) = fst w) /\ (is_finite (snd z) = true -> B2R (snd z) = snd w).
Definition cfaithful (oB : (nat -> bf * bf) -> nat -> bf * bf) (oF : (nat -> R * R) -> nat -> R * R) : Prop :=
  forall x t, cagree (oB x t) (oF (fun k => (B2R (fst (x k)), B2R (snd (x k)))) t).
(** the same for objects whose calls may fail *)
Definition ofaithful (oB : (nat -> bf) -> nat -> outcome bf) (oF : (nat -> R) -> nat -> outcome R) : Prop :=
  forall x t v, oB x t = Ok v -> is_finite v = true -> oF (fun k => B2R (x k)) t = Ok (B2R v).
Definition ocfaithful {I} (oB : (nat -> I) -> nat -> outcome (bf * bf)) (oF : (nat -> I) -> nat -> outcome (R * R)) : Prop :=
  forall x t v, oB x t = Ok v -> exists w, oF x t = Ok w /\ cagree v w.
(** the numbers a complex number, the coefficients and a Biquad in the format stand for *)
Definition cR2 (z : bf * bf) : R * R := (B2R (fst z), B2R (snd z)).
Definition coefs_R (c : coefs bf) : coefs R := mkCoefs (B2R (b0a0 c)) (B2R (b1a0 c)) (B2R (b2a0 c)) (B2R (a1a0 c)) (B2R (a2a0 c)).
Definition bq_R {V W} (f : V -> W) (b : biquad bf V) : biquad R W := mkBiquad (f (bq_x1 b)) (f (bq_x2 b)) (f (bq_y1 b)) (f (bq_y2 b)) (coefs_R (bq_c b)).
(** finite coefficients with the values c *)
Definition crep (cb : coefs bf) (c : coefs R) : Prop := coefs_R cb = c /\ is_finite (b0a0 cb) = true /\ is_finite (b1a0 cb) = true /\ is_finite (b2a0 cb) = true /\ is_finite (a1a0 cb) = true /\ is_finite (a2a0 cb) = true.
(** a finite number of magnitude at most m *)
Definition fm (b : bf) (m : R) : Prop := is_finite b = true /\ (Rabs (B2R b) <= m)%R.
End Ieee.
