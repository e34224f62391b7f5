(* Model of /repo/swa.hh *)
From Verif Require Export Model.Base.
Open Scope Z_scope.

(** swa.hh:12-16  class SWA: [TYPE tree[2*NUM]; int leaf; OP op;] *)
Record swa (A : Type) := mkSwa { w_tree : list A; w_leaf : Z }.
Arguments mkSwa {A}. Arguments w_tree {A}. Arguments w_leaf {A}.

Section Swa.
Context {A : Type} (op : A -> A -> A) (NUM : Z).

(** swa.hh:18-22  SWA(ident): leaf(NUM), tree[i] = ident *)
Definition swa_new (ident : A) : swa A := mkSwa (repeat ident (Z.to_nat (2 * NUM))) NUM.

(** swa.hh:26-27  for (child = leaf, parent = leaf/2; parent; child = parent, parent /= 2)
                    tree[parent] = op(tree[child], tree[child^1]);
    The argument is [child]; the C++ variable [parent] is always [child/2] when the condition is
    tested.  [fuel] bounds the iterations. *)
Fixpoint swa_up (fuel : nat) (tree : list A) (child : Z) : outcome (list A) :=
  let parent := child / 2 in
  if parent =? 0 then Ok tree else
  match fuel with
  | O => NoFuel
  | S f =>
      a <- get tree child ;;
      b <- get tree (Z.lxor child 1) ;;
      t <- set tree parent (op a b) ;;
      swa_up f t parent
  end.

(** swa.hh:23-31  operator(): tree[leaf] = input; update parents; if (++leaf >= 2*NUM) leaf = NUM;
    return tree[1]; *)
Definition swa_call (s : swa A) (input : A) : outcome (swa A * A) :=
  t <- set (w_tree s) (w_leaf s) input ;;
  t <- swa_up (Z.to_nat (w_leaf s)) t (w_leaf s) ;;
  let leaf := w_leaf s + 1 in
  let leaf := if 2 * NUM <=? leaf then NUM else leaf in
  r <- get t 1 ;;
  Ok (mkSwa t leaf, r).
End Swa.
