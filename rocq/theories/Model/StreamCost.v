(* Models of /repo/movext.hh and /repo/swa.hh that also count work: applications of ==, COMP, OP and the pushes and
   pops of the stacks.  The functions are those of Model/MovExt.v and Model/Swa.v statement by statement;
   Proofs/StreamCostProofs.v shows that forgetting the counter gives those back. *)
From Verif Require Export Model.MovExt Model.Swa Model.QuickCost.
Open Scope Z_scope.

(** one unit of work *)
Definition unit_of {A} (m : outcome A) : counted A := x <- m ;; Ok (x, 1).

(** a history of calls, the work added up *)
Fixpoint crun {S I O} (step : S -> I -> counted (S * O)) (s : S) (xs : list I) : counted (S * list O) :=
  match xs with
  | [] => cret (s, [])
  | x :: xs => '(s, o) <~ step s x ;; '(s, os) <~ crun step s xs ;; cret (s, o :: os)
  end.

Section MovCost.
Context {A : Type} (eqb comp : A -> A -> bool) (NUM : Z).

(** movext.hh:22-25 *)
Definition cmovext_new (init : A) : counted (movext A) :=
  d <~ unit_of (stack_push NUM (stack_new NUM) init) ;;
  cret (mkMovExt (delay_new NUM init) d (stack_new NUM)).

(** movext.hh:31-32: COMP is not applied if the stack is empty *)
Fixpoint cmovext_drop (fuel : nat) (r : stack A) (input : A) : counted (stack A) :=
  if stack_empty r then cret r else
  t <~ free (stack_top r) ;;
  b <~ unit_of (Ok (comp input t)) ;;
  if b then
    match fuel with
    | O => NoFuel
    | S f => r' <~ unit_of (stack_pop r) ;; cmovext_drop f r' input
    end
  else cret r.

(** movext.hh:36-39 *)
Fixpoint cmovext_transfer (fuel : nat) (d r : stack A) : counted (stack A * stack A) :=
  if stack_empty r then cret (d, r) else
  match fuel with
  | O => NoFuel
  | S f =>
      t <~ free (stack_top r) ;;
      d' <~ unit_of (stack_push NUM d t) ;;
      r' <~ unit_of (stack_pop r) ;;
      cmovext_transfer f d' r'
  end.

(** movext.hh:26-43 *)
Definition cmovext_call (m : movext A) (input : A) : counted (movext A * A) :=
  '(w, old) <~ free (delay_call NUM (m_window m) input) ;;
  top <~ free (stack_top (m_disp m)) ;;
  b <~ unit_of (Ok (eqb old top)) ;;
  d <~ (if b then unit_of (stack_pop (m_disp m)) else cret (m_disp m)) ;;
  r <~ cmovext_drop (Z.to_nat (stack_size (m_refill m))) (m_refill m) input ;;
  r <~ unit_of (stack_push NUM r input) ;;
  if stack_empty d then
    '(d, r) <~ cmovext_transfer (Z.to_nat (stack_size r)) d r ;;
    t <~ free (stack_top d) ;;
    cret (mkMovExt w d r, t)
  else
    t <~ free (stack_top d) ;;
    f <~ free (stack_first r) ;;
    b <~ unit_of (Ok (comp t f)) ;;
    cret (mkMovExt w d r, if b then t else f).

Definition cmovext_run (init : A) (xs : list A) : counted (movext A * list A) :=
  m <~ cmovext_new init ;; crun cmovext_call m xs.
End MovCost.

Section SwaCost.
Context {A : Type} (op : A -> A -> A) (NUM : Z).
(** swa.hh:26-27 *)
Fixpoint cswa_up (fuel : nat) (tree : list A) (child : Z) : counted (list A) :=
  let parent := child / 2 in
  if parent =? 0 then cret tree else
  match fuel with
  | O => NoFuel
  | S f =>
      a <~ free (get tree child) ;;
      b <~ free (get tree (Z.lxor child 1)) ;;
      v <~ unit_of (Ok (op a b)) ;;
      t <~ free (set tree parent v) ;;
      cswa_up f t parent
  end.
(** swa.hh:23-31 *)
Definition cswa_call (s : swa A) (input : A) : counted (swa A * A) :=
  t <~ free (set (w_tree s) (w_leaf s) input) ;;
  t <~ cswa_up (Z.to_nat (w_leaf s)) t (w_leaf s) ;;
  let leaf := w_leaf s + 1 in
  let leaf := if 2 * NUM <=? leaf then NUM else leaf in
  r <~ free (get t 1) ;;
  cret (mkSwa t leaf, r).
End SwaCost.
