(* Specification vocabulary: signals that come to rest *)
From Coq Require Import Arith.

(** from some time on the signal is exactly r *)
Definition rests_at {A : Type} (f : nat -> A) (r : A) : Prop := exists T, forall t, (T <= t)%nat -> f t = r.
