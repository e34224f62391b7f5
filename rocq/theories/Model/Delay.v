(* Model of /repo/delay.hh *)
From Verif Require Export Model.Base.
Open Scope Z_scope.

(** delay.hh:12-15  class Delay: [TYPE buf[NUM]; int pos;] *)
Record delay (A : Type) := mkDelay { dl_buf : list A; dl_pos : Z }.
Arguments mkDelay {A}. Arguments dl_buf {A}. Arguments dl_pos {A}.

Section Delay.
Context {A : Type} (NUM : Z).

(** delay.hh:17-21  Delay(TYPE init = 0): fills buf with init *)
Definition delay_new (init : A) : delay A := mkDelay (repeat init (Z.to_nat NUM)) 0.

(** delay.hh:22-29  operator(): tmp = buf[pos]; buf[pos] = input; if (++pos >= NUM) pos = 0;
    return tmp; *)
Definition delay_call (d : delay A) (input : A) : outcome (delay A * A) :=
  tmp <- get (dl_buf d) (dl_pos d) ;;
  b <- set (dl_buf d) (dl_pos d) input ;;
  let pos := dl_pos d + 1 in
  let pos := if NUM <=? pos then 0 else pos in
  Ok (mkDelay b pos, tmp).
End Delay.
