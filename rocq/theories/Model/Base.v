(* Shared conventions of the model of aicodix/dsp.
   Nothing in this file models a particular function of /repo; it fixes how C++
   behaviour is represented. *)
From Coq Require Export List Arith ZArith Lia Bool.
Export ListNotations.

Set Implicit Arguments.

(** Result of executing a piece of C++:
    [Ok a]      normal termination with value [a];
    [AssertFail] a failing [assert];
    [Undefined]  undefined behaviour (out-of-bounds access, read of an
                 uninitialised cell, signed overflow, division by zero, ...);
    [NoFuel]     the loop/recursion fuel of the model was exhausted (models
                 non-termination; theorems always exclude it by stating [= Ok _]). *)
Inductive outcome (A : Type) : Type :=
| Ok (a : A)
| AssertFail
| Undefined
| NoFuel.
Arguments Ok {A} a.
Arguments AssertFail {A}.
Arguments Undefined {A}.
Arguments NoFuel {A}.

Definition bind {A B} (m : outcome A) (k : A -> outcome B) : outcome B :=
  match m with
  | Ok a => k a
  | AssertFail => AssertFail
  | Undefined => Undefined
  | NoFuel => NoFuel
  end.

Declare Scope outcome_scope.
Delimit Scope outcome_scope with outcome.
Notation "x <- m ;; k" := (bind m (fun x => k))
  (at level 61, m at next level, right associativity) : outcome_scope.
Notation "' p <- m ;; k" := (bind m (fun x => match x with p => k end))
  (at level 61, p pattern, m at next level, right associativity) : outcome_scope.
Open Scope outcome_scope.

(** C [assert(b)] *)
Definition cassert (b : bool) : outcome unit := if b then Ok tt else AssertFail.

(** Arrays: lists with C [int] (here [Z]) indices. *)
Definition zlen {A} (l : list A) : Z := Z.of_nat (length l).

Definition znth {A} (l : list A) (i : Z) : option A :=
  if (i <? 0)%Z then None else nth_error l (Z.to_nat i).

Fixpoint upd {A} (l : list A) (i : nat) (v : A) : list A :=
  match l, i with
  | [], _ => []
  | _ :: t, O => v :: t
  | h :: t, S i' => h :: upd t i' v
  end.

Definition zupd {A} (l : list A) (i : Z) (v : A) : list A := upd l (Z.to_nat i) v.

(** [a[i]] as an rvalue of an initialised array *)
Definition get {A} (l : list A) (i : Z) : outcome A :=
  match znth l i with Some v => Ok v | None => Undefined end.

(** [a[i] = v] *)
Definition set {A} (l : list A) (i : Z) (v : A) : outcome (list A) :=
  if ((0 <=? i) && (i <? zlen l))%Z then Ok (zupd l i v) else Undefined.

(** [a[i]] for an array whose cells may be uninitialised ([None]) *)
Definition geti {A} (l : list (option A)) (i : Z) : outcome A :=
  match znth l i with Some (Some v) => Ok v | _ => Undefined end.

(** Range of C [int] (32 bit two's complement). *)
Definition INT_MAX : Z := 2147483647.
Definition INT_MIN : Z := (-2147483648)%Z.
Definition int_ok (z : Z) : bool := ((INT_MIN <=? z) && (z <=? INT_MAX))%Z.
(** Result of a signed [int] operation: overflow is undefined behaviour. *)
Definition ichk (z : Z) : outcome Z := if int_ok z then Ok z else Undefined.

(** Feeding a list of inputs, one call each, to an object: final state and outputs. *)
Fixpoint run {S I O} (step : S -> I -> outcome (S * O)) (s : S) (xs : list I)
  : outcome (S * list O) :=
  match xs with
  | [] => Ok (s, [])
  | x :: xs' =>
      '(s1, o) <- step s x ;;
      '(s2, os) <- run step s1 xs' ;;
      Ok (s2, o :: os)
  end.

(** [for (int i = i0; ...; ++i) body] executed [n] times with [i = i0, i0+1, ...],
    threading a state through the body. *)
Fixpoint for_loop {S} (n : nat) (i : Z) (body : Z -> S -> outcome S) (s : S) : outcome S :=
  match n with
  | O => Ok s
  | Datatypes.S n' => s' <- body i s ;; for_loop n' (i + 1)%Z body s'
  end.
