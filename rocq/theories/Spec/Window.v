(* Specification vocabulary: the sliding window over a history of inputs. *)
From Coq Require Import List ZArith.
Import ListNotations.

(** The last [n] values of the history [xs] (in chronological order, newest last);
    where fewer than [n] inputs exist the window is filled with [pad] on the old side. *)
Definition window {A} (n : nat) (pad : A) (xs : list A) : list A :=
  skipn (length xs) (repeat pad n ++ xs).

(** All non-empty prefixes of a history, in chronological order: entry [t] is the history up to and
    including call [t]. *)
Definition prefixes {A} (xs : list A) : list (list A) :=
  map (fun t => firstn t xs) (seq 1 (length xs)).
