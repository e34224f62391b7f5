(* Vocabulary for objects called once per sample whose calls may fail, and array idioms shared by several headers.
   Only [shift_in] models code of /repo. *)
From Coq Require Import ZArith.
From Verif Require Export Model.Base.
Open Scope Z_scope.

(** state before call t and value returned by call t *)
Section OSignal.
Context {St I Out : Type} (step : St -> I -> outcome (St * Out)) (s0 : outcome St) (x : nat -> I).
Fixpoint ostate_at (t : nat) : outcome St :=
  match t with O => s0 | S t' => s <- ostate_at t' ;; r <- step s (x t') ;; Ok (fst r) end.
Definition oout (t : nat) : outcome Out := s <- ostate_at t ;; r <- step s (x t) ;; Ok (snd r).
End OSignal.

(** for (int i = 0; i < len-1; ++i) a[i] = a[i+1]; a[len-1] = v;   (cdc.hh:40-42, 43-45, hilbert.hh:40-42) *)
Definition shift_in {A} (len : Z) (a : list A) (v : A) : outcome (list A) :=
  a <- for_loop (Z.to_nat (len - 1)) 0 (fun i a => w <- get a (i + 1) ;; set a i w) a ;;
  set a (len - 1) v.
(** a[i] = f(i) for i = i0, i0+1, ...: the values of an array filled in a loop *)
Fixpoint ofill {A} (f : Z -> outcome A) (k : nat) (i : Z) : outcome (list A) :=
  match k with O => Ok [] | S k' => v <- f i ;; r <- ofill f k' (i + 1) ;; Ok (v :: r) end.
