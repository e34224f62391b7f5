(* Abstract specifications of the fixed-size stack and deque: a plain list. *)
From Verif Require Import Model.Base.
Open Scope Z_scope.

(** Value returned by an API call. *)
Inductive ret (A : Type) :=
| RVoid
| RVal (a : A)
| RBool (b : bool)
| RInt (z : Z).
Arguments RVoid {A}. Arguments RVal {A} a. Arguments RBool {A} b. Arguments RInt {A} z.

(** API of DSP::Stack *)
Inductive stack_op (A : Type) :=
| SClear | SPush (x : A) | SPop | STop | SFirst | SEmpty | SFull | SSize | SMaxSize.
Arguments SClear {A}. Arguments SPush {A} x. Arguments SPop {A}. Arguments STop {A}.
Arguments SFirst {A}. Arguments SEmpty {A}. Arguments SFull {A}. Arguments SSize {A}.
Arguments SMaxSize {A}.

(** Specification: the state is the list of stacked values, oldest first.
    Misuse (push on a full, pop/top/first on an empty stack) is an assertion failure,
    nothing else is. *)
Definition stack_spec {A} (SIZE : Z) (l : list A) (o : stack_op A) : outcome (list A * ret A) :=
  match o with
  | SClear => Ok ([], RVoid)
  | SPush x => if (zlen l <? SIZE) then Ok (l ++ [x], RVoid) else AssertFail
  | SPop => match l with [] => AssertFail | _ => Ok (removelast l, RVoid) end
  | STop => match l with [] => AssertFail | x :: _ => Ok (l, RVal (last l x)) end
  | SFirst => match l with [] => AssertFail | x :: _ => Ok (l, RVal x) end
  | SEmpty => Ok (l, RBool (zlen l =? 0))
  | SFull => Ok (l, RBool (zlen l =? SIZE))
  | SSize => Ok (l, RInt (zlen l))
  | SMaxSize => Ok (l, RInt SIZE)
  end.

(** API of DSP::Deque *)
Inductive deque_op (A : Type) :=
| DClear | DPushBack (x : A) | DPushFront (x : A) | DPopBack | DPopFront | DBack | DFront
| DEmpty | DFull | DSize | DMaxSize.
Arguments DClear {A}. Arguments DPushBack {A} x. Arguments DPushFront {A} x.
Arguments DPopBack {A}. Arguments DPopFront {A}. Arguments DBack {A}. Arguments DFront {A}.
Arguments DEmpty {A}. Arguments DFull {A}. Arguments DSize {A}. Arguments DMaxSize {A}.

(** Specification: the state is the list of queued values from front to back. *)
Definition deque_spec {A} (SIZE : Z) (l : list A) (o : deque_op A) : outcome (list A * ret A) :=
  match o with
  | DClear => Ok ([], RVoid)
  | DPushBack x => if (zlen l <? SIZE) then Ok (l ++ [x], RVoid) else AssertFail
  | DPushFront x => if (zlen l <? SIZE) then Ok (x :: l, RVoid) else AssertFail
  | DPopBack => match l with [] => AssertFail | _ => Ok (removelast l, RVoid) end
  | DPopFront => match l with [] => AssertFail | _ :: t => Ok (t, RVoid) end
  | DBack => match l with [] => AssertFail | x :: _ => Ok (l, RVal (last l x)) end
  | DFront => match l with [] => AssertFail | x :: _ => Ok (l, RVal x) end
  | DEmpty => Ok (l, RBool (zlen l =? 0))
  | DFull => Ok (l, RBool (zlen l =? SIZE))
  | DSize => Ok (l, RInt (zlen l))
  | DMaxSize => Ok (l, RInt SIZE)
  end.

(** The observable part of a run: the list of returned values (or the failure). *)
Definition observe {S O} (m : outcome (S * list O)) : outcome (list O) :=
  '(_, os) <- m ;; Ok os.
