(* Model of /repo/trigger.hh *)
From Coq Require Import Bool.

Section Trigger.
Context {T : Type} (ltb : T -> T -> bool) (opp : T -> T).
(** trigger.hh:14-15 *)
Record schmitt := mkSchmitt { st_low : T; st_high : T; st_previous : bool }.
(** trigger.hh:17-22 *)
Definition schmitt_threshold (threshold : T) (previous : bool) : schmitt := mkSchmitt (opp threshold) threshold previous.
Definition schmitt_new (low high : T) (previous : bool) : schmitt := mkSchmitt low high previous.
(** trigger.hh:23-33 *)
Definition schmitt_step (s : schmitt) (input : T) : schmitt * bool :=
  let previous :=
    if st_previous s then (if ltb input (st_low s) then false else st_previous s)
    else (if ltb (st_high s) input then true else st_previous s) in
  (mkSchmitt (st_low s) (st_high s) previous, previous).
End Trigger.
Arguments schmitt T : clear implicits.
(** trigger.hh:36-49 *)
Definition falling_step (previous input : bool) : bool * bool := (input, previous && negb input).
(** trigger.hh:51-64 *)
Definition rising_step (previous input : bool) : bool * bool := (input, negb previous && input).
