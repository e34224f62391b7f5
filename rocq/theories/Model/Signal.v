(* Vocabulary for sample-by-sample objects.  Nothing here models a particular function of /repo. *)
From Coq Require Import List ZArith.
From Verif Require Export Model.Num Model.Complex.
Import ListNotations.

(** The operations a filter uses on its samples (TYPE) and coefficients (VALUE): TYPE may be VALUE itself or
    Complex<VALUE>. *)
Record vsp (T V : Type) := mkVsp {
  v0 : V; vadd : V -> V -> V; vsub : V -> V -> V; vopp : V -> V; vscale : T -> V -> V }.
Arguments v0 {T V}. Arguments vadd {T V}. Arguments vsub {T V}. Arguments vopp {T V}. Arguments vscale {T V}.
(** TYPE = VALUE *)
Definition vreal {T} (N : num T) : vsp T T :=
  {| v0 := n0 N; vadd := nadd N; vsub := nsub N; vopp := nopp N; vscale := nmul N |}.
(** TYPE = Complex<VALUE> *)
Definition vcplx {T} (N : num T) : vsp T (cplx T) :=
  {| v0 := cofr N (n0 N); vadd := cadd N; vsub := csub N; vopp := copp N; vscale := cscale N |}.

(** An object with state S called once per sample of the signal x: its state before call t and the value
    returned by call t. *)
Section Signal.
Context {St I Out : Type} (step : St -> I -> St * Out) (s0 : St) (x : nat -> I).
Fixpoint state_at (t : nat) : St := match t with O => s0 | S t' => fst (step (state_at t') (x t')) end.
Definition out (t : nat) : Out := snd (step (state_at t) (x t)).
End Signal.

(** the same for a finite history *)
Fixpoint calls {S I O} (step : S -> I -> S * O) (s : S) (xs : list I) : S * list O :=
  match xs with
  | [] => (s, [])
  | x :: xs' => let '(s1, o) := step s x in let '(s2, os) := calls step s1 xs' in (s2, o :: os)
  end.
