(* Model of /repo/movext.hh *)
From Verif Require Export Model.Base Model.Delay Model.Stack.
Open Scope Z_scope.

(** movext.hh:17-20  members: Delay<TYPE, NUM> window; Stack<TYPE, NUM> dispenser, refill;
    EQUAL equal (never used); COMP comp *)
Record movext (A : Type) := mkMovExt
  { m_window : delay A; m_disp : stack A; m_refill : stack A }.
Arguments mkMovExt {A}. Arguments m_window {A}. Arguments m_disp {A}. Arguments m_refill {A}.

Section MovExt.
(** [eqb] is TYPE's operator == (movext.hh:28 uses it, not the functor EQUAL); [comp] is COMP. *)
Context {A : Type} (eqb comp : A -> A -> bool) (NUM : Z).

(** movext.hh:22-25  MovExt(TYPE init) : window(init) { dispenser.push(init); } *)
Definition movext_new (init : A) : outcome (movext A) :=
  d <- stack_push NUM (stack_new NUM) init ;;
  Ok (mkMovExt (delay_new NUM init) d (stack_new NUM)).

(** movext.hh:31-32  while (!refill.empty() && comp(input, refill.top())) refill.pop();
    Every iteration pops, so [fuel] = current size suffices. *)
Fixpoint movext_drop (fuel : nat) (r : stack A) (input : A) : outcome (stack A) :=
  if stack_empty r then Ok r else
  t <- stack_top r ;;
  if comp input t then
    match fuel with
    | O => NoFuel
    | S f => r' <- stack_pop r ;; movext_drop f r' input
    end
  else Ok r.

(** movext.hh:36-39  while (!refill.empty()) { dispenser.push(refill.top()); refill.pop(); } *)
Fixpoint movext_transfer (fuel : nat) (d r : stack A) : outcome (stack A * stack A) :=
  if stack_empty r then Ok (d, r) else
  match fuel with
  | O => NoFuel
  | S f =>
      t <- stack_top r ;;
      d' <- stack_push NUM d t ;;
      r' <- stack_pop r ;;
      movext_transfer f d' r'
  end.

(** movext.hh:26-43  operator() *)
Definition movext_call (m : movext A) (input : A) : outcome (movext A * A) :=
  (* 28-29 *)
  '(w, old) <- delay_call NUM (m_window m) input ;;
  top <- stack_top (m_disp m) ;;
  d <- (if eqb old top then stack_pop (m_disp m) else Ok (m_disp m)) ;;
  (* 31-33 *)
  r <- movext_drop (Z.to_nat (stack_size (m_refill m))) (m_refill m) input ;;
  r <- stack_push NUM r input ;;
  if stack_empty d then
    (* 35-41 *)
    '(d, r) <- movext_transfer (Z.to_nat (stack_size r)) d r ;;
    t <- stack_top d ;;
    Ok (mkMovExt w d r, t)
  else
    (* 42 *)
    t <- stack_top d ;;
    f <- stack_first r ;;
    Ok (mkMovExt w d r, if comp t f then t else f).

(** Constructor followed by a history of calls. *)
Definition movext_run (init : A) (xs : list A) : outcome (movext A * list A) :=
  m <- movext_new init ;; run movext_call m xs.
End MovExt.

(** movext.hh:46-58  MovMin: equal_to, less, init = numeric_limits<TYPE>::max(), here for a 32 bit
    signed integer TYPE. *)
Definition movmin_int (NUM : Z) := movext_run Z.eqb Z.ltb NUM INT_MAX.
(** movext.hh:60-72  MovMax: equal_to, greater, init = numeric_limits<TYPE>::min() *)
Definition movmax_int (NUM : Z) := movext_run Z.eqb Z.gtb NUM INT_MIN.
