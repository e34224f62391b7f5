(* Specification vocabulary for sorting and selecting *)
From Coq Require Import List.
Import ListNotations.

(** strict weak order given as a boolean comparison *)
Record strict_weak_order {A} (lt : A -> A -> bool) : Prop := {
  swo_irrefl : forall a, lt a a = false;
  swo_trans : forall a b c, lt a b = true -> lt b c = true -> lt a c = true;
  swo_negtrans : forall a b c, lt a b = true -> lt a c = true \/ lt c b = true
}.

(** ascending: nothing is smaller than something before it *)
Definition ascending {A} (lt : A -> A -> bool) (l : list A) : Prop :=
  forall i j x y, i < j -> nth_error l i = Some x -> nth_error l j = Some y -> lt y x = false.

(** [v] is a [k]-th smallest value (k = 0 is the minimum) of [l]: it occurs in [l], at most [k] values
    are smaller and at least [k+1] values are not larger. *)
Definition kth_smallest {A} (lt : A -> A -> bool) (k : nat) (l : list A) (v : A) : Prop :=
  In v l /\ length (filter (fun x => lt x v) l) <= k /\ k < length (filter (fun x => negb (lt v x)) l).

(** at most [d] different values occur in [l] *)
Definition at_most_different {A} (lt : A -> A -> bool) (d : nat) (l : list A) : Prop :=
  exists reps, length reps <= d /\ forall x, In x l -> exists r, In r reps /\ lt x r = false /\ lt r x = false.
