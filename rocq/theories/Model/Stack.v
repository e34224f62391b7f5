(* Model of /repo/stack.hh *)
From Verif Require Export Model.Base Spec.Containers.
Open Scope Z_scope.

(** stack.hh:12-15  class Stack: [TYPE buf[SIZE]; int pos;].  The buffer cells are not
    initialised by the constructor: [None] is an indeterminate cell. *)
Record stack (A : Type) := mkStack { s_buf : list (option A); s_pos : Z }.
Arguments mkStack {A}. Arguments s_buf {A}. Arguments s_pos {A}.

Section Stack.
Context {A : Type} (SIZE : Z).

(** stack.hh:17-19  Stack() : pos(-1) *)
Definition stack_new : stack A := mkStack (repeat None (Z.to_nat SIZE)) (-1).

(** stack.hh:20-23  clear *)
Definition stack_clear (s : stack A) : stack A := mkStack (s_buf s) (-1).

(** stack.hh:24-28  push: assert(pos < SIZE-1); buf[++pos] = input; *)
Definition stack_push (s : stack A) (x : A) : outcome (stack A) :=
  _ <- cassert (s_pos s <? SIZE - 1) ;;
  b <- set (s_buf s) (s_pos s + 1) (Some x) ;;
  Ok (mkStack b (s_pos s + 1)).

(** stack.hh:29-33  pop: assert(pos >= 0); --pos; *)
Definition stack_pop (s : stack A) : outcome (stack A) :=
  _ <- cassert (0 <=? s_pos s) ;;
  Ok (mkStack (s_buf s) (s_pos s - 1)).

(** stack.hh:34-38  top: assert(pos >= 0); return buf[pos]; *)
Definition stack_top (s : stack A) : outcome A :=
  _ <- cassert (0 <=? s_pos s) ;;
  geti (s_buf s) (s_pos s).

(** stack.hh:39-43  first: assert(pos >= 0); return buf[0]; *)
Definition stack_first (s : stack A) : outcome A :=
  _ <- cassert (0 <=? s_pos s) ;;
  geti (s_buf s) 0.

(** stack.hh:44-47  empty *)
Definition stack_empty (s : stack A) : bool := s_pos s =? -1.
(** stack.hh:48-51  full *)
Definition stack_full (s : stack A) : bool := s_pos s =? SIZE - 1.
(** stack.hh:52-55  size *)
Definition stack_size (s : stack A) : Z := s_pos s + 1.
(** stack.hh:56-59  max_size *)
Definition stack_max_size : Z := SIZE.

(** Dispatch of one API call (test harness, no counterpart in the source). *)
Definition stack_step (s : stack A) (o : stack_op A) : outcome (stack A * ret A) :=
  match o with
  | SClear => Ok (stack_clear s, RVoid)
  | SPush x => s' <- stack_push s x ;; Ok (s', RVoid)
  | SPop => s' <- stack_pop s ;; Ok (s', RVoid)
  | STop => v <- stack_top s ;; Ok (s, RVal v)
  | SFirst => v <- stack_first s ;; Ok (s, RVal v)
  | SEmpty => Ok (s, RBool (stack_empty s))
  | SFull => Ok (s, RBool (stack_full s))
  | SSize => Ok (s, RInt (stack_size s))
  | SMaxSize => Ok (s, RInt stack_max_size)
  end.
End Stack.
