(* Model of /repo/lms.hh *)
From Coq Require Import ZArith.
From Verif Require Export Model.OSignal Model.BipBuffer Model.Num Model.Complex.
Open Scope Z_scope.

(** lms.hh:16-17, 50-52  BipBuffer<TYPE, SIZE> history; TYPE filter[SIZE]; *)
Record lms (V : Type) := mkLms { lm_history : bip V; lm_filter : list V }.
Arguments mkLms {V}. Arguments lm_history {V}. Arguments lm_filter {V}.

Section Lms.
Context {T : Type} (M : num T) (SIZE : Z).
(** lms.hh:19-23 *)
Definition nlms_new : lms T := mkLms (bip_new SIZE (n0 M)) (repeat (n0 M) (Z.to_nat SIZE)).
(** lms.hh:28-44  operator()(input, desired, mu) *)
Definition nlms_step (s : lms T) (x : T * T * T) : outcome (lms T * T) :=
  let '(input, desired, mu) := x in
  '(b, hist) <- bip_push SIZE (lm_history s) input ;;
  estimate <- for_loop (Z.to_nat SIZE) 0 (fun i acc =>
    f <- get (lm_filter s) i ;; h <- bip_read b hist i ;; Ok (nadd M acc (nmul M f h))) (n0 M) ;;
  let error := nsub M desired estimate in
  power <- for_loop (Z.to_nat SIZE) 0 (fun i acc =>
    h <- bip_read b hist i ;; Ok (nadd M acc (nmul M h h))) (n0 M) ;;
  if neqb M power (nofZ M 0) then Ok (mkLms b (lm_filter s), error) else
  let rate := ndiv M mu power in
  filter <- for_loop (Z.to_nat SIZE) 0 (fun i fl =>
    f <- get fl i ;; h <- bip_read b hist i ;; set fl i (nadd M f (nmul M (nmul M rate error) h))) (lm_filter s) ;;
  Ok (mkLms b filter, error).

(** lms.hh:54-58 *)
Definition nclms_new : lms (cplx T) := mkLms (bip_new SIZE (czero M)) (repeat (cofr M (n0 M)) (Z.to_nat SIZE)).
(** lms.hh:63-79 *)
Definition nclms_step (s : lms (cplx T)) (x : cplx T * cplx T * T) : outcome (lms (cplx T) * cplx T) :=
  let '(input, desired, mu) := x in
  '(b, hist) <- bip_push SIZE (lm_history s) (cconj M input) ;;
  estimate <- for_loop (Z.to_nat SIZE) 0 (fun i acc =>
    f <- get (lm_filter s) i ;; h <- bip_read b hist i ;; Ok (cadd_eq M acc (cmul M (cconj M f) h))) (cofr M (n0 M)) ;;
  let error := cconj M (csub M (cconj M desired) estimate) in
  power <- for_loop (Z.to_nat SIZE) 0 (fun i acc =>
    h <- bip_read b hist i ;; Ok (nadd M acc (cnorm M h))) (n0 M) ;;
  if neqb M power (nofZ M 0) then Ok (mkLms b (lm_filter s), error) else
  let rate := ndiv M mu power in
  filter <- for_loop (Z.to_nat SIZE) 0 (fun i fl =>
    f <- get fl i ;; h <- bip_read b hist i ;; set fl i (cadd_eq M f (cmul M (cscale M rate error) h))) (lm_filter s) ;;
  Ok (mkLms b filter, error).
End Lms.
