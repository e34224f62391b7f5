(* Model of /repo/window.hh *)
From Coq Require Import Reals ZArith.
From Verif Require Export Model.Base Model.Num Model.Const Model.Utils Model.Kahan Model.UnitCircle.
Open Scope Z_scope.

(** UnitCircle<TYPE>::cos and ::sin as partial functions of two ints *)
Record ptrig (T : Type) := mkPtrig { pcos : Z -> Z -> outcome T; psin : Z -> Z -> outcome T }.
Arguments mkPtrig {T}. Arguments pcos {T}. Arguments psin {T}.
(** the ones of the library *)
Definition uc_ptrig {T} (N : num T) : ptrig T := mkPtrig (uc_cos N) (uc_sin N).

(** C++ a % b on ints: truncated, undefined for b = 0 *)
Definition irem (a b : Z) : outcome Z := if b =? 0 then Undefined else Ok (Z.rem a b).

Section Window.
Context {T : Type} (M : num T) (U : ptrig T).
Local Notation "a + b" := (nadd M a b) : T_scope.
Local Notation "a - b" := (nsub M a b) : T_scope.
Local Notation "a * b" := (nmul M a b) : T_scope.
Local Notation "a / b" := (ndiv M a b) : T_scope.

(** window.hh:16-20 *)
Definition win_rect (n N : Z) : outcome T := Ok (if (0 <=? n) && (n <? N) then n1 M else n0 M).
(** window.hh:22-29 *)
Definition win_hann (n N : Z) : outcome T :=
  d <- ichk (N - 1) ;; c <- pcos U n d ;; Ok (nlit M 0.5 * (n1 M - c))%T.
(** window.hh:31-38 *)
Definition win_hamming (n N : Z) : outcome T :=
  d <- ichk (N - 1) ;; c <- pcos U n d ;; Ok (nlit M 0.54 - nlit M 0.46 * c)%T.
(** window.hh:40-52 *)
Definition win_lanczos (n N : Z) : outcome T :=
  n2 <- ichk (2 * n) ;; d <- ichk (N - 1) ;;
  if n2 =? d then Ok (n1 M) else
  a <- ichk (n2 - d) ;; d2 <- ichk (2 * d) ;; s <- psin U a d2 ;;
  Ok (s / (Pi M * nofZ M a / nofZ M d))%T.

(** window.hh:54-67 *)
Record blackman := mkBlackman { bl_a0 : T; bl_a1 : T; bl_a2 : T }.
Definition blackman_of (a : T) : blackman := mkBlackman ((n1 M - a) / nofZ M 2)%T (nlit M 0.5) (a / nofZ M 2)%T.
Definition blackman_exact : blackman :=
  mkBlackman (nofZ M 7938 / nofZ M 18608)%T (nofZ M 9240 / nofZ M 18608)%T (nofZ M 1430 / nofZ M 18608)%T.
Definition win_blackman (b : blackman) (n N : Z) : outcome T :=
  d <- ichk (N - 1) ;; c1 <- pcos U n d ;; n2 <- ichk (2 * n) ;; r <- irem n2 d ;; c2 <- pcos U r d ;;
  Ok (bl_a0 b - bl_a1 b * c1 + bl_a2 b * c2)%T.

(** window.hh:69-79; [expf] and [square] stand for exp and pow(., 2) *)
Definition win_gauss (expf square : T -> T) (o : T) (n N : Z) : outcome T :=
  d <- ichk (N - 1) ;;
  Ok (expf (nopp M (nlit M 0.5) * square ((nofZ M n - nofZ M d / nofZ M 2) / (o * nofZ M d / nofZ M 2))))%T.

(** window.hh:93-106  i0: [k] iterations remain, [n] is the loop variable *)
Fixpoint i0_loop (x : T) (k : nat) (n : Z) (sum : kahan T) (val : T) : T :=
  match k with
  | O => kahan_value sum
  | S k' =>
    let val := (val * (x / nofZ M (2 * n)))%T in
    let '(sum, same) := kahan_same (nadd M) (nsub M) (neqb M) sum (val * val)%T in
    if same then kahan_value sum else i0_loop x k' (n + 1) sum val
  end.
Definition i0 (x : T) : T := i0_loop x 34 1 (kahan_new (n0 M) (nlit M 1.0)) (nlit M 1.0).
(** window.hh:107-116 *)
Definition kaiser_arg (n N : Z) : T := let q := (nofZ M (2 * n) / nofZ M (N - 1) - n1 M)%T in (n1 M - q * q)%T.
Definition win_kaiser (a : T) (n N : Z) : outcome T :=
  _ <- ichk (2 * n) ;; _ <- ichk (N - 1) ;;
  Ok (i0 (Pi M * a * nsqrt M (kaiser_arg n N)) / i0 (Pi M * a))%T.
End Window.
Arguments blackman T : clear implicits.
