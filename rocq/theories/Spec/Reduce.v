(* Specification vocabulary: reduction of a list by a binary operation, and the last values of a history. *)
From Coq Require Import List.
Import ListNotations.

(** [x1 op x2 op ... op xn] for a non-empty list ([d] only for the empty one). *)
Definition reduce {A} (op : A -> A -> A) (d : A) (l : list A) : A :=
  match l with
  | [] => d
  | x :: t => fold_left op t x
  end.

(** The last [n] values of a history (all of it if it is shorter), chronological order. *)
Definition lastn {A} (n : nat) (xs : list A) : list A := skipn (length xs - n) xs.
