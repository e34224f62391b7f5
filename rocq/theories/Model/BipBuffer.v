(* Model of /repo/bip_buffer.hh *)
From Verif Require Export Model.Base.
Open Scope Z_scope.

(** bip_buffer.hh:12-15  class BipBuffer: [TYPE buf[2*NUM]; int pos0, pos1;] *)
Record bip (A : Type) := mkBip { b_buf : list A; b_pos0 : Z; b_pos1 : Z }.
Arguments mkBip {A}. Arguments b_buf {A}. Arguments b_pos0 {A}. Arguments b_pos1 {A}.

Section Bip.
Context {A : Type} (NUM : Z).

(** bip_buffer.hh:17-21  BipBuffer(): pos0(0), pos1(NUM), buf[i] = 0.  [zero] is TYPE's 0. *)
Definition bip_new (zero : A) : bip A := mkBip (repeat zero (Z.to_nat (2 * NUM))) 0 NUM.

(** bip_buffer.hh:22-25  operator()(): return buf + min(pos0, pos1).
    A pointer into [buf] is modelled by its offset. *)
Definition bip_ptr (b : bip A) : Z := Z.min (b_pos0 b) (b_pos1 b).

(** bip_buffer.hh:26-34  operator()(input): buf[pos0] = buf[pos1] = input; advance both. *)
Definition bip_push (b : bip A) (input : A) : outcome (bip A * Z) :=
  u <- set (b_buf b) (b_pos1 b) input ;;
  u <- set u (b_pos0 b) input ;;
  let pos0 := b_pos0 b + 1 in
  let pos0 := if 2 * NUM <=? pos0 then 0 else pos0 in
  let pos1 := b_pos1 b + 1 in
  let pos1 := if 2 * NUM <=? pos1 then 0 else pos1 in
  let b' := mkBip u pos0 pos1 in
  Ok (b', bip_ptr b').

(** What a user of the returned pointer reads: [p[i]] for an offset [p] (bounds checked
    against the object's array). *)
Definition bip_read (b : bip A) (p i : Z) : outcome A := get (b_buf b) (p + i).

(** Reading [p[0..NUM-1]] through the returned pointer (user code). *)
Fixpoint bip_view_from (b : bip A) (p : Z) (n : nat) : outcome (list A) :=
  match n with
  | O => Ok []
  | S n' => v <- get (b_buf b) p ;; vs <- bip_view_from b (p + 1) n' ;; Ok (v :: vs)
  end.
Definition bip_view (b : bip A) (p : Z) : outcome (list A) := bip_view_from b p (Z.to_nat NUM).

(** One call followed by reading the whole window through the pointer. *)
Definition bip_step (b : bip A) (input : A) : outcome (bip A * list A) :=
  '(b', p) <- bip_push b input ;;
  v <- bip_view b' p ;;
  Ok (b', v).
End Bip.
