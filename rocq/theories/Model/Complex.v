(* Model of /repo/complex.hh *)
From Coq Require Import Bool.
From Verif Require Export Model.Num.

Section Complex.
Context {T : Type} (N : num T).

(** complex.hh:12-14  class Complex: (re, im) *)
Definition cplx : Type := T * T.
(** complex.hh:17-21  constructors and accessors *)
Definition czero : cplx := (n0 N, n0 N).
Definition cofr (r : T) : cplx := (r, n0 N).
Definition cmk (r i : T) : cplx := (r, i).
Definition creal (a : cplx) : T := fst a.
Definition cimag (a : cplx) : T := snd a.
(** complex.hh:22-23  real(r), imag(i) *)
Definition cset_real (a : cplx) (r : T) : cplx := (r, snd a).
Definition cset_imag (a : cplx) (i : T) : cplx := (fst a, i).
(** complex.hh:24-29  operator = (T) *)
Definition cassign_r (_ : cplx) (a : T) : cplx := (a, n0 N).

(** complex.hh:56-66  ==, != *)
Definition ceqb (a b : cplx) : bool := neqb N (creal a) (creal b) && neqb N (cimag a) (cimag b).
Definition cneb (a b : cplx) : bool := negb (neqb N (creal a) (creal b)) || negb (neqb N (cimag a) (cimag b)).
(** complex.hh:68-72  binary + *)
Definition cadd (a b : cplx) : cplx := (nadd N (creal a) (creal b), nadd N (cimag a) (cimag b)).
(** complex.hh:74-78  unary + *)
Definition cplus1 (a : cplx) : cplx := a.
(** complex.hh:80-84  binary - *)
Definition csub (a b : cplx) : cplx := (nsub N (creal a) (creal b), nsub N (cimag a) (cimag b)).
(** complex.hh:86-90  unary - *)
Definition copp (a : cplx) : cplx := (nopp N (creal a), nopp N (cimag a)).
(** complex.hh:92-96  T * Complex *)
Definition cscale (a : T) (b : cplx) : cplx := (nmul N a (creal b), nmul N a (cimag b)).
(** complex.hh:98-102  Complex / T *)
Definition cdivr (a : cplx) (b : T) : cplx := (ndiv N (creal a) b, ndiv N (cimag a) b).
(** complex.hh:104-108  Complex * Complex *)
Definition cmul (a b : cplx) : cplx :=
  (nsub N (nmul N (creal a) (creal b)) (nmul N (cimag a) (cimag b)),
   nadd N (nmul N (creal a) (cimag b)) (nmul N (cimag a) (creal b))).
(** complex.hh:110-115  T / Complex *)
Definition crdiv (a : T) (b : cplx) : cplx :=
  (ndiv N (nmul N a (creal b)) (nadd N (nmul N (creal b) (creal b)) (nmul N (cimag b) (cimag b))),
   ndiv N (nopp N (nmul N a (cimag b))) (nadd N (nmul N (creal b) (creal b)) (nmul N (cimag b) (cimag b)))).
(** complex.hh:117-122  Complex / Complex *)
Definition cdiv (a b : cplx) : cplx :=
  (ndiv N (nadd N (nmul N (creal a) (creal b)) (nmul N (cimag a) (cimag b)))
          (nadd N (nmul N (creal b) (creal b)) (nmul N (cimag b) (cimag b))),
   ndiv N (nsub N (nmul N (cimag a) (creal b)) (nmul N (creal a) (cimag b)))
          (nadd N (nmul N (creal b) (creal b)) (nmul N (cimag b) (cimag b)))).
(** complex.hh:124-128  conj *)
Definition cconj (a : cplx) : cplx := (creal a, nopp N (cimag a)).
(** complex.hh:130-134  norm *)
Definition cnorm (a : cplx) : T := nadd N (nmul N (creal a) (creal a)) (nmul N (cimag a) (cimag a)).
(** complex.hh:136-140  abs *)
Definition cabs (a : cplx) : T := nsqrt N (cnorm a).

(** complex.hh:30-53  compound assignments: the new value of *this *)
Definition cadd_eq (this a : cplx) : cplx := cadd a this.
Definition csub_eq (this a : cplx) : cplx := csub this a.
Definition cmul_eq (this a : cplx) : cplx := cmul a this.
Definition cscale_eq (this : cplx) (a : T) : cplx := cscale a this.
Definition cdivr_eq (this : cplx) (a : T) : cplx := cdivr this a.
Definition cdiv_eq (this a : cplx) : cplx := cdiv this a.
End Complex.
Arguments cplx T : clear implicits.

(** complex.hh:142-152  arg and polar: [atan2], [cos] and [sin] are the functions found by name lookup *)
Definition carg {T} (atan2 : T -> T -> T) (a : cplx T) : T := atan2 (cimag a) (creal a).
Definition cpolar {T} (N : num T) (cos sin : T -> T) (a b : T) : cplx T := (nmul N a (cos b), nmul N a (sin b)).
