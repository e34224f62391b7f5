(* Model of /repo/deque.hh *)
From Verif Require Export Model.Base Spec.Containers.
Open Scope Z_scope.

(** deque.hh:12-15  class Deque: [TYPE buf[SIZE]; int head, tail, count;].
    [None] is an uninitialised cell. *)
Record deque (A : Type) := mkDeque
  { d_buf : list (option A); d_head : Z; d_tail : Z; d_count : Z }.
Arguments mkDeque {A}. Arguments d_buf {A}. Arguments d_head {A}.
Arguments d_tail {A}. Arguments d_count {A}.

Section Deque.
Context {A : Type} (SIZE : Z).

(** deque.hh:17-19  Deque() : head(SIZE-1), tail(0), count(0) *)
Definition deque_new : deque A := mkDeque (repeat None (Z.to_nat SIZE)) (SIZE - 1) 0 0.

(** deque.hh:20-25  clear *)
Definition deque_clear (d : deque A) : deque A := mkDeque (d_buf d) (SIZE - 1) 0 0.

(** deque.hh:26-33  push_back: assert(count < SIZE); ++count; if (--tail < 0) tail = SIZE-1;
    buf[tail] = input; *)
Definition deque_push_back (d : deque A) (x : A) : outcome (deque A) :=
  _ <- cassert (d_count d <? SIZE) ;;
  let count := d_count d + 1 in
  let tail := d_tail d - 1 in
  let tail := if tail <? 0 then SIZE - 1 else tail in
  b <- set (d_buf d) tail (Some x) ;;
  Ok (mkDeque b (d_head d) tail count).

(** deque.hh:34-41  push_front: assert(count < SIZE); ++count; if (++head >= SIZE) head = 0;
    buf[head] = input; *)
Definition deque_push_front (d : deque A) (x : A) : outcome (deque A) :=
  _ <- cassert (d_count d <? SIZE) ;;
  let count := d_count d + 1 in
  let head := d_head d + 1 in
  let head := if SIZE <=? head then 0 else head in
  b <- set (d_buf d) head (Some x) ;;
  Ok (mkDeque b head (d_tail d) count).

(** deque.hh:42-48  pop_back: assert(count > 0); --count; if (++tail >= SIZE) tail = 0; *)
Definition deque_pop_back (d : deque A) : outcome (deque A) :=
  _ <- cassert (0 <? d_count d) ;;
  let count := d_count d - 1 in
  let tail := d_tail d + 1 in
  let tail := if SIZE <=? tail then 0 else tail in
  Ok (mkDeque (d_buf d) (d_head d) tail count).

(** deque.hh:49-55  pop_front: assert(count > 0); --count; if (--head < 0) head = SIZE-1; *)
Definition deque_pop_front (d : deque A) : outcome (deque A) :=
  _ <- cassert (0 <? d_count d) ;;
  let count := d_count d - 1 in
  let head := d_head d - 1 in
  let head := if head <? 0 then SIZE - 1 else head in
  Ok (mkDeque (d_buf d) head (d_tail d) count).

(** deque.hh:56-60  back: assert(count > 0); return buf[tail]; *)
Definition deque_back (d : deque A) : outcome A :=
  _ <- cassert (0 <? d_count d) ;;
  geti (d_buf d) (d_tail d).

(** deque.hh:61-65  front: assert(count > 0); return buf[head]; *)
Definition deque_front (d : deque A) : outcome A :=
  _ <- cassert (0 <? d_count d) ;;
  geti (d_buf d) (d_head d).

(** deque.hh:66-69, 70-73, 74-77, 78-81  empty, full, size, max_size *)
Definition deque_empty (d : deque A) : bool := d_count d =? 0.
Definition deque_full (d : deque A) : bool := d_count d =? SIZE.
Definition deque_size (d : deque A) : Z := d_count d.
Definition deque_max_size : Z := SIZE.

(** Dispatch of one API call (no counterpart in the source). *)
Definition deque_step (d : deque A) (o : deque_op A) : outcome (deque A * ret A) :=
  match o with
  | DClear => Ok (deque_clear d, RVoid)
  | DPushBack x => d' <- deque_push_back d x ;; Ok (d', RVoid)
  | DPushFront x => d' <- deque_push_front d x ;; Ok (d', RVoid)
  | DPopBack => d' <- deque_pop_back d ;; Ok (d', RVoid)
  | DPopFront => d' <- deque_pop_front d ;; Ok (d', RVoid)
  | DBack => v <- deque_back d ;; Ok (d, RVal v)
  | DFront => v <- deque_front d ;; Ok (d, RVal v)
  | DEmpty => Ok (d, RBool (deque_empty d))
  | DFull => Ok (d, RBool (deque_full d))
  | DSize => Ok (d, RInt (deque_size d))
  | DMaxSize => Ok (d, RInt deque_max_size)
  end.
End Deque.
