(* Model of /repo/kahan.hh, over an arbitrary type with + - == *)
From Verif Require Export Model.Base.

(** kahan.hh:14  T high, low; *)
Record kahan (A : Type) := mkKahan { k_high : A; k_low : A }.
Arguments mkKahan {A}. Arguments k_high {A}. Arguments k_low {A}.

Section Kahan.
Context {A : Type} (zero : A) (add sub : A -> A -> A) (eqb : A -> A -> bool).

(** kahan.hh:16  Kahan() : high(0), low(0) *)
Definition kahan_default : kahan A := mkKahan zero zero.
(** kahan.hh:17  Kahan(T init) : high(init), low(0) *)
Definition kahan_new (init : A) : kahan A := mkKahan init zero.

(** kahan.hh:26-32  operator()(input): tmp = input - low; sum = high + tmp;
    low = (sum - high) - tmp; return high = sum; *)
Definition kahan_call (k : kahan A) (input : A) : kahan A * A :=
  let tmp := sub input (k_low k) in
  let sum := add (k_high k) tmp in
  let low := sub (sub sum (k_high k)) tmp in
  (mkKahan sum low, sum).

(** kahan.hh:33-36  operator == *)
Definition kahan_eq (a b : kahan A) : bool := eqb (k_low a) (k_low b) && eqb (k_high a) (k_high b).

(** kahan.hh:37-42  same(input): copy, feed, compare *)
Definition kahan_same (k : kahan A) (input : A) : kahan A * bool :=
  let tmp := k in
  let k' := fst (kahan_call k input) in
  (k', kahan_eq tmp k').

(** kahan.hh:43  operator()() *)
Definition kahan_value (k : kahan A) : A := k_high k.

(** kahan.hh:46-53  kahan_sum(begin, end, init); the iterator range is a list *)
Definition kahan_sum (xs : list A) (init : A) : A :=
  kahan_value (fold_left (fun k x => fst (kahan_call k x)) xs (kahan_new init)).
End Kahan.
