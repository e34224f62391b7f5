(* Model of /repo/filter.hh *)
From Coq Require Import Reals ZArith.
From Verif Require Export Model.WinFun.
Open Scope Z_scope.

Section Filter.
Context {T : Type} (M : num T) (U : ptrig T) (sinf : T -> T).
Local Notation "a + b" := (nadd M a b) : T_scope.
Local Notation "a - b" := (nsub M a b) : T_scope.
Local Notation "a * b" := (nmul M a b) : T_scope.
Local Notation "a / b" := (ndiv M a b) : T_scope.

(** the distance from the middle, TYPE(n) - TYPE(0.5) * TYPE(N - 1) (filter.hh:23, 52, 85, 99), and twice it,
    2 * n - (N - 1) in int (filter.hh:37, 68) *)
Definition fir_x (n N : Z) : outcome T := d <- ichk (N - 1) ;; Ok (nofZ M n - nlit M 0.5 * nofZ M d)%T.
Definition fir_twox (n N : Z) : outcome Z := n2 <- ichk (2 * n) ;; d <- ichk (N - 1) ;; ichk (n2 - d).

(** filter.hh:15-26; the argument of the constructor is the cutoff *)
Definition lowpass (cutoff : T) (n N : Z) : outcome T :=
  let f := (nofZ M 2 * cutoff)%T in x <- fir_x n N ;; Ok (f * sinc M sinf (f * x))%T.
(** filter.hh:28-42; UnitCircle::sin((twox * num) % (2 * den), 2 * den) *)
Definition fir_sin (twox num den : Z) : outcome T :=
  p <- ichk (twox * num) ;; d <- ichk (2 * den) ;; r <- irem p d ;; psin U r d.
Definition fir_fac (num den : Z) : outcome T := a <- ichk (2 * num) ;; Ok (nofZ M a / nofZ M den)%T.
Definition lowpass2 (num den n N : Z) : outcome T :=
  fac <- fir_fac num den ;; twox <- fir_twox n N ;;
  if twox =? 0 then Ok fac else
  s <- fir_sin twox num den ;; Ok (fac * s / (HalfPi M * fac * nofZ M twox))%T.
(** filter.hh:44-57 *)
Definition highpass (cutoff : T) (n N : Z) : outcome T :=
  let f := (nofZ M 2 * cutoff)%T in x <- fir_x n N ;; Ok (sinc M sinf x - f * sinc M sinf (f * x))%T.
(** filter.hh:59-74 *)
Definition highpass2 (num den n N : Z) : outcome T :=
  fac <- fir_fac num den ;; twox <- fir_twox n N ;;
  if twox =? 0 then Ok (n1 M - fac)%T else
  s1 <- psin U (Z.rem twox 4) 4 ;; s2 <- fir_sin twox num den ;;
  Ok (s1 / (HalfPi M * nofZ M twox) - fac * s2 / (HalfPi M * fac * nofZ M twox))%T.
(** filter.hh:76-88 *)
Definition bandpass (cutoff0 cutoff1 : T) (n N : Z) : outcome T :=
  let f0 := (nofZ M 2 * cutoff0)%T in let f1 := (nofZ M 2 * cutoff1)%T in
  x <- fir_x n N ;; Ok (f1 * sinc M sinf (f1 * x) - f0 * sinc M sinf (f0 * x))%T.
(** filter.hh:90-103; the bit tests N&1 and x&1 are parity also for negative ints *)
Definition hilbert_transform (n N : Z) : outcome T :=
  if Z.odd N then
    d <- ichk (N - 1) ;; x <- ichk (n - Z.quot d 2) ;;
    Ok (if Z.odd x then nofZ M 2 / (Pi M * nofZ M x) else n0 M)%T
  else x <- fir_x n N ;; Ok (n1 M / (Pi M * x))%T.
End Filter.
