(* Model of /repo/fdzp.hh *)
From Coq Require Import Reals.
From Verif Require Export Model.Base Model.Complex Model.Fft.
Open Scope Z_scope.

Section Fdzp.
Context {T : Type} (N : num T) (tr : trig T).
Notation C := (cplx T).

(** all cells of an array about to be read completely; an uninitialised one is Undefined *)
Fixpoint inited (l : list (option C)) : outcome (list C) :=
  match l with
  | [] => Ok []
  | None :: _ => Undefined
  | Some v :: l => r <- inited l ;; Ok (v :: r)
  end.

(** fdzp.hh:19  tmp[OUTPUT] after construction: Complex() zeroes each element (complex.hh:17) *)
Definition fdzp_new (OUTPUT : Z) : list (option C) := repeat (Some (czero N)) (Z.to_nat OUTPUT).

(** fdzp.hh:24-39  operator()(output, input): the new tmp and the new output *)
Definition fdzp (OUTPUT INPUT : Z) (tmp output : list (option C)) (input : list C) : outcome (list (option C) * list (option C)) :=
  let SCALE := ndiv N (nofZ N 1) (nofZ N INPUT) in
  tmp <- fft N tr INPUT (-1) tmp input ;;
  tmp <- (if INPUT mod 2 =? 0 then
      v <- geti tmp (INPUT / 2) ;; tmp <- set tmp (INPUT / 2) (Some (cscale_eq N v (nlit N (1/2)%R))) ;;
      v <- geti tmp (INPUT / 2) ;; set tmp (OUTPUT - INPUT / 2) (Some v)
    else Ok tmp) ;;
  let first := (INPUT + 1) / 2 + 1 in
  tmp <- for_loop (Z.to_nat (INPUT - first)) first (fun i tmp =>
    v <- geti tmp i ;; set tmp (OUTPUT - INPUT + i) (Some v)) tmp ;;
  tmp <- for_loop (Z.to_nat (INPUT - first)) first (fun i tmp => set tmp i (Some (cofr N (n0 N)))) tmp ;;
  src <- inited tmp ;;
  output <- fft N tr OUTPUT 1 output src ;;
  output <- for_loop (Z.to_nat OUTPUT) 0 (fun i output =>
    v <- geti output i ;; set output i (Some (cscale_eq N v SCALE))) output ;;
  Ok (tmp, output).

(** successive calls on one object, each with its own output array *)
Fixpoint fdzp_calls (OUTPUT INPUT : Z) (tmp : list (option C)) (calls : list (list (option C) * list C)) : outcome (list (list (option C))) :=
  match calls with
  | [] => Ok []
  | (output, input) :: calls =>
      '(tmp, output) <- fdzp OUTPUT INPUT tmp output input ;;
      rest <- fdzp_calls OUTPUT INPUT tmp calls ;;
      Ok (output :: rest)
  end.
End Fdzp.
