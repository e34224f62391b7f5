(* Model of /repo/fft.hh *)
From Coq Require Import Reals.
From Verif Require Export Model.Base Model.Complex.
Open Scope Z_scope.

(** fft.hh:46-49 *)
Definition pow2 (N : Z) : bool := Z.land N (N - 1) =? 0.
(** fft.hh:51-54 *)
Definition pow4 (N : Z) : bool := pow2 N && negb (Z.land N 0x55555555 =? 0).
(** fft.hh:56-59 *)
Definition pow8 (N : Z) : bool := pow2 N && negb (Z.land N 0x49249249 =? 0).

(** fft.hh:61-79  split(N), N > 0 *)
Definition split (N : Z) : Z :=
  if N mod 31 =? 0 then 31 else
  if N mod 29 =? 0 then 29 else
  if N mod 23 =? 0 then 23 else
  if N mod 19 =? 0 then 19 else
  if N mod 17 =? 0 then 17 else
  if N mod 13 =? 0 then 13 else
  if N mod 11 =? 0 then 11 else
  if N mod 7 =? 0 then 7 else
  if N mod 5 =? 0 then 5 else
  if N mod 3 =? 0 then 3 else
  if (N mod 8 =? 0) && pow8 N then 8 else
  if (N mod 8 =? 0) && pow8 (N / 2) then 2 else
  if (N mod 4 =? 0) && pow4 N then 4 else
  if N mod 2 =? 0 then 2 else
  1.

(** Straight-line code of the odd radices p: every radix has (p-1)/2 pairs of lines
      TYPE c_k(cx<i1,p>(a1) + cx<i2,p>(a2) + ...);
      TYPE s_k(sx<j1,p>(t1) +- sx<j2,p>(t2) ...);
    of which only the indices and signs differ.  They are tabulated here, row k holding [i1; i2; ...] and
    [j1; +-j2; ...] in source order; [kernel_odd] below gives the code around them. *)
(** fft.hh:138-149 *)
Definition table3 : list (list Z * list Z) := [
  ([1], [1])].
(** fft.hh:248-264 *)
Definition table5 : list (list Z * list Z) := [
  ([1; 2], [1; 2]);
  ([2; 1], [2; -1])].
(** fft.hh:308-329 *)
Definition table7 : list (list Z * list Z) := [
  ([1; 2; 3], [1; 2; 3]);
  ([2; 3; 1], [2; -3; -1]);
  ([3; 1; 2], [3; -1; 2])].
(** fft.hh:436-467 *)
Definition table11 : list (list Z * list Z) := [
  ([1; 2; 3; 4; 5], [1; 2; 3; 4; 5]);
  ([2; 4; 5; 3; 1], [2; 4; -5; -3; -1]);
  ([3; 5; 2; 1; 4], [3; -5; -2; 1; 4]);
  ([4; 3; 1; 5; 2], [4; -3; 1; 5; -2]);
  ([5; 1; 4; 2; 3], [5; -1; 4; -2; 3])].
(** fft.hh:511-547 *)
Definition table13 : list (list Z * list Z) := [
  ([1; 2; 3; 4; 5; 6], [1; 2; 3; 4; 5; 6]);
  ([2; 4; 6; 5; 3; 1], [2; 4; 6; -5; -3; -1]);
  ([3; 6; 4; 1; 2; 5], [3; 6; -4; -1; 2; 5]);
  ([4; 5; 1; 3; 6; 2], [4; -5; -1; 3; -6; -2]);
  ([5; 3; 2; 6; 1; 4], [5; -3; 2; -6; -1; 4]);
  ([6; 1; 5; 2; 4; 3], [6; -1; 5; -2; 4; -3])].
(** fft.hh:591-637 *)
Definition table17 : list (list Z * list Z) := [
  ([1; 2; 3; 4; 5; 6; 7; 8], [1; 2; 3; 4; 5; 6; 7; 8]);
  ([2; 4; 6; 8; 7; 5; 3; 1], [2; 4; 6; 8; -7; -5; -3; -1]);
  ([3; 6; 8; 5; 2; 1; 4; 7], [3; 6; -8; -5; -2; 1; 4; 7]);
  ([4; 8; 5; 1; 3; 7; 6; 2], [4; 8; -5; -1; 3; 7; -6; -2]);
  ([5; 7; 2; 3; 8; 4; 1; 6], [5; -7; -2; 3; 8; -4; 1; 6]);
  ([6; 5; 1; 7; 4; 2; 8; 3], [6; -5; 1; 7; -4; 2; 8; -3]);
  ([7; 3; 4; 6; 1; 8; 2; 5], [7; -3; 4; -6; 1; 8; -2; 5]);
  ([8; 1; 7; 2; 6; 3; 5; 4], [8; -1; 7; -2; 6; -3; 5; -4])].
(** fft.hh:681-732 *)
Definition table19 : list (list Z * list Z) := [
  ([1; 2; 3; 4; 5; 6; 7; 8; 9], [1; 2; 3; 4; 5; 6; 7; 8; 9]);
  ([2; 4; 6; 8; 9; 7; 5; 3; 1], [2; 4; 6; 8; -9; -7; -5; -3; -1]);
  ([3; 6; 9; 7; 4; 1; 2; 5; 8], [3; 6; 9; -7; -4; -1; 2; 5; 8]);
  ([4; 8; 7; 3; 1; 5; 9; 6; 2], [4; 8; -7; -3; 1; 5; 9; -6; -2]);
  ([5; 9; 4; 1; 6; 8; 3; 2; 7], [5; -9; -4; 1; 6; -8; -3; 2; 7]);
  ([6; 7; 1; 5; 8; 2; 4; 9; 3], [6; -7; -1; 5; -8; -2; 4; -9; -3]);
  ([7; 5; 2; 9; 3; 4; 8; 1; 6], [7; -5; 2; 9; -3; 4; -8; -1; 6]);
  ([8; 3; 5; 6; 2; 9; 1; 7; 4], [8; -3; 5; -6; 2; -9; -1; 7; -4]);
  ([9; 1; 8; 2; 7; 3; 6; 4; 5], [9; -1; 8; -2; 7; -3; 6; -4; 5])].
(** fft.hh:776-837 *)
Definition table23 : list (list Z * list Z) := [
  ([1; 2; 3; 4; 5; 6; 7; 8; 9; 10; 11], [1; 2; 3; 4; 5; 6; 7; 8; 9; 10; 11]);
  ([2; 4; 6; 8; 10; 11; 9; 7; 5; 3; 1], [2; 4; 6; 8; 10; -11; -9; -7; -5; -3; -1]);
  ([3; 6; 9; 11; 8; 5; 2; 1; 4; 7; 10], [3; 6; 9; -11; -8; -5; -2; 1; 4; 7; 10]);
  ([4; 8; 11; 7; 3; 1; 5; 9; 10; 6; 2], [4; 8; -11; -7; -3; 1; 5; 9; -10; -6; -2]);
  ([5; 10; 8; 3; 2; 7; 11; 6; 1; 4; 9], [5; 10; -8; -3; 2; 7; -11; -6; -1; 4; 9]);
  ([6; 11; 5; 1; 7; 10; 4; 2; 8; 9; 3], [6; -11; -5; 1; 7; -10; -4; 2; 8; -9; -3]);
  ([7; 9; 2; 5; 11; 4; 3; 10; 6; 1; 8], [7; -9; -2; 5; -11; -4; 3; 10; -6; 1; 8]);
  ([8; 7; 1; 9; 6; 2; 10; 5; 3; 11; 4], [8; -7; 1; 9; -6; 2; 10; -5; 3; 11; -4]);
  ([9; 5; 4; 10; 1; 8; 6; 3; 11; 2; 7], [9; -5; 4; -10; -1; 8; -6; 3; -11; -2; 7]);
  ([10; 3; 7; 6; 4; 9; 1; 11; 2; 8; 5], [10; -3; 7; -6; 4; -9; 1; 11; -2; 8; -5]);
  ([11; 1; 10; 2; 9; 3; 8; 4; 7; 5; 6], [11; -1; 10; -2; 9; -3; 8; -4; 7; -5; 6])].
(** fft.hh:881-957 *)
Definition table29 : list (list Z * list Z) := [
  ([1; 2; 3; 4; 5; 6; 7; 8; 9; 10; 11; 12; 13; 14], [1; 2; 3; 4; 5; 6; 7; 8; 9; 10; 11; 12; 13; 14]);
  ([2; 4; 6; 8; 10; 12; 14; 13; 11; 9; 7; 5; 3; 1], [2; 4; 6; 8; 10; 12; 14; -13; -11; -9; -7; -5; -3; -1]);
  ([3; 6; 9; 12; 14; 11; 8; 5; 2; 1; 4; 7; 10; 13], [3; 6; 9; 12; -14; -11; -8; -5; -2; 1; 4; 7; 10; 13]);
  ([4; 8; 12; 13; 9; 5; 1; 3; 7; 11; 14; 10; 6; 2], [4; 8; 12; -13; -9; -5; -1; 3; 7; 11; -14; -10; -6; -2]);
  ([5; 10; 14; 9; 4; 1; 6; 11; 13; 8; 3; 2; 7; 12], [5; 10; -14; -9; -4; 1; 6; 11; -13; -8; -3; 2; 7; 12]);
  ([6; 12; 11; 5; 1; 7; 13; 10; 4; 2; 8; 14; 9; 3], [6; 12; -11; -5; 1; 7; 13; -10; -4; 2; 8; 14; -9; -3]);
  ([7; 14; 8; 1; 6; 13; 9; 2; 5; 12; 10; 3; 4; 11], [7; 14; -8; -1; 6; 13; -9; -2; 5; 12; -10; -3; 4; 11]);
  ([8; 13; 5; 3; 11; 10; 2; 6; 14; 7; 1; 9; 12; 4], [8; -13; -5; 3; 11; -10; -2; 6; 14; -7; 1; 9; -12; -4]);
  ([9; 11; 2; 7; 13; 4; 5; 14; 6; 3; 12; 8; 1; 10], [9; -11; -2; 7; -13; -4; 5; 14; -6; 3; 12; -8; 1; 10]);
  ([10; 9; 1; 11; 8; 2; 12; 7; 3; 13; 6; 4; 14; 5], [10; -9; 1; 11; -8; 2; 12; -7; 3; 13; -6; 4; 14; -5]);
  ([11; 7; 4; 14; 3; 8; 10; 1; 12; 6; 5; 13; 2; 9], [11; -7; 4; -14; -3; 8; -10; 1; 12; -6; 5; -13; -2; 9]);
  ([12; 5; 7; 10; 2; 14; 3; 9; 8; 4; 13; 1; 11; 6], [12; -5; 7; -10; 2; 14; -3; 9; -8; 4; -13; -1; 11; -6]);
  ([13; 3; 10; 6; 7; 9; 4; 12; 1; 14; 2; 11; 5; 8], [13; -3; 10; -6; 7; -9; 4; -12; 1; 14; -2; 11; -5; 8]);
  ([14; 1; 13; 2; 12; 3; 11; 4; 10; 5; 9; 6; 8; 7], [14; -1; 13; -2; 12; -3; 11; -4; 10; -5; 9; -6; 8; -7])].
(** fft.hh:1001-1082 *)
Definition table31 : list (list Z * list Z) := [
  ([1; 2; 3; 4; 5; 6; 7; 8; 9; 10; 11; 12; 13; 14; 15], [1; 2; 3; 4; 5; 6; 7; 8; 9; 10; 11; 12; 13; 14; 15]);
  ([2; 4; 6; 8; 10; 12; 14; 15; 13; 11; 9; 7; 5; 3; 1], [2; 4; 6; 8; 10; 12; 14; -15; -13; -11; -9; -7; -5; -3; -1]);
  ([3; 6; 9; 12; 15; 13; 10; 7; 4; 1; 2; 5; 8; 11; 14], [3; 6; 9; 12; 15; -13; -10; -7; -4; -1; 2; 5; 8; 11; 14]);
  ([4; 8; 12; 15; 11; 7; 3; 1; 5; 9; 13; 14; 10; 6; 2], [4; 8; 12; -15; -11; -7; -3; 1; 5; 9; 13; -14; -10; -6; -2]);
  ([5; 10; 15; 11; 6; 1; 4; 9; 14; 12; 7; 2; 3; 8; 13], [5; 10; 15; -11; -6; -1; 4; 9; 14; -12; -7; -2; 3; 8; 13]);
  ([6; 12; 13; 7; 1; 5; 11; 14; 8; 2; 4; 10; 15; 9; 3], [6; 12; -13; -7; -1; 5; 11; -14; -8; -2; 4; 10; -15; -9; -3]);
  ([7; 14; 10; 3; 4; 11; 13; 6; 1; 8; 15; 9; 2; 5; 12], [7; 14; -10; -3; 4; 11; -13; -6; 1; 8; 15; -9; -2; 5; 12]);
  ([8; 15; 7; 1; 9; 14; 6; 2; 10; 13; 5; 3; 11; 12; 4], [8; -15; -7; 1; 9; -14; -6; 2; 10; -13; -5; 3; 11; -12; -4]);
  ([9; 13; 4; 5; 14; 8; 1; 10; 12; 3; 6; 15; 7; 2; 11], [9; -13; -4; 5; 14; -8; 1; 10; -12; -3; 6; 15; -7; 2; 11]);
  ([10; 11; 1; 9; 12; 2; 8; 13; 3; 7; 14; 4; 6; 15; 5], [10; -11; -1; 9; -12; -2; 8; -13; -3; 7; -14; -4; 6; -15; -5]);
  ([11; 9; 2; 13; 7; 4; 15; 5; 6; 14; 3; 8; 12; 1; 10], [11; -9; 2; 13; -7; 4; 15; -5; 6; -14; -3; 8; -12; -1; 10]);
  ([12; 7; 5; 14; 2; 10; 9; 3; 15; 4; 8; 11; 1; 13; 6], [12; -7; 5; -14; -2; 10; -9; 3; 15; -4; 8; -11; 1; 13; -6]);
  ([13; 5; 8; 10; 3; 15; 2; 11; 7; 6; 12; 1; 14; 4; 9], [13; -5; 8; -10; 3; -15; -2; 11; -7; 6; -12; 1; 14; -4; 9]);
  ([14; 3; 11; 6; 8; 9; 5; 12; 2; 15; 1; 13; 4; 10; 7], [14; -3; 11; -6; 8; -9; 5; -12; 2; -15; -1; 13; -4; 10; -7]);
  ([15; 1; 14; 2; 13; 3; 12; 4; 11; 5; 10; 6; 9; 7; 8], [15; -1; 14; -2; 13; -3; 12; -4; 11; -5; 10; -6; 9; -7; 8])].

Definition odd_table (p : Z) : option (list (list Z * list Z)) :=
  if p =? 3 then Some table3 else if p =? 5 then Some table5 else if p =? 7 then Some table7 else
  if p =? 11 then Some table11 else if p =? 13 then Some table13 else if p =? 17 then Some table17 else
  if p =? 19 then Some table19 else if p =? 23 then Some table23 else if p =? 29 then Some table29 else
  if p =? 31 then Some table31 else None.

(** UnitCircle<value_type>::cos and sin and Const<..>::InvSqrtTwo, as far as the FFT uses them *)
Record trig (T : Type) := { tcos : Z -> Z -> T; tsin : Z -> Z -> T; trsqrt2 : T }.
Arguments tcos {T}. Arguments tsin {T}. Arguments trsqrt2 {T}.

Section Fft.
Context {T : Type} (N : num T) (tr : trig T).
Notation C := (cplx T).
Notation "a +c b" := (cadd N a b) (at level 50, left associativity).
Notation "a -c b" := (csub N a b) (at level 50, left associativity).

(** fft.hh:15-31  rsqrt2, cx, sx *)
Definition rsqrt2 (a : C) : C := cscale N (trsqrt2 tr) a.
Definition cx (n M : Z) (a : C) : C := cscale N (tcos tr n M) a.
Definition sx (n M : Z) (a : C) : C := cscale N (tsin tr n M) a.
(** fft.hh:33-38  fiddle *)
Definition fiddle (a b : C) : C :=
  let c := a +c b in let d := a -c b in
  (nadd N (creal d) (cimag c), nsub N (cimag d) (creal c)).
(** fft.hh:40-44  twiddle *)
Definition twiddle (a b : C) : C :=
  (nsub N (cimag a) (cimag b), nsub N (creal b) (creal a)).

(** Dit<2,2>::dft, fft.hh:97-101; the values stored to *out0, *out1 *)
Definition kernel2 (i0 i1 : C) : list C := [i0 +c i1; i0 -c i1].

(** Dit<4,4,..,1>::dft, fft.hh:190-199 *)
Definition kernel4 (i0 i1 i2 i3 : C) : list C :=
  let a := i0 +c i2 in let b := i0 -c i2 in
  let c := i1 +c i3 in let d := twiddle i1 i3 in
  [a +c c; b -c d; a -c c; b +c d].

(** Dit<8,8,..,1>::dft, fft.hh:375-392 *)
Definition kernel8 (i0 i1 i2 i3 i4 i5 i6 i7 : C) : list C :=
  let a := i0 +c i4 in let b := i0 -c i4 in
  let c := i1 +c i5 in let d := i1 -c i5 in
  let e := i2 +c i6 in let f := twiddle i2 i6 in
  let g := i3 +c i7 in let h := i3 -c i7 in
  let cpg := c +c g in let tcg := twiddle c g in
  let fdh := rsqrt2 (fiddle d h) in let fhd := rsqrt2 (fiddle h d) in
  [a +c e +c cpg; b -c f -c fhd; a -c e -c tcg; b +c f -c fdh;
   a +c e -c cpg; b -c f +c fhd; a -c e +c tcg; b +c f +c fdh].

(** one right hand side  cx<i1,p>(a1) + cx<i2,p>(a2) + ... *)
Definition crow (p : Z) (idx : list Z) (a : list C) : C :=
  match combine idx a with
  | [] => czero N
  | (i1, a1) :: l => fold_left (fun acc '(i, x) => acc +c cx i p x) l (cx i1 p a1)
  end.
(** one right hand side  sx<j1,p>(t1) +- sx<j2,p>(t2) +- ... *)
Definition srow (p : Z) (idx : list Z) (t : list C) : C :=
  match combine idx t with
  | [] => czero N
  | (j1, t1) :: l =>
      fold_left (fun acc '(j, x) => if j <? 0 then acc -c sx (- j) p x else acc +c sx j p x) l (sx j1 p t1)
  end.

(** Dit<p,p,..,1>::dft for the odd radices: a_j = in_j + in_(p-j), t_j = twiddle(in_j, in_(p-j)), the table
    rows, *out0 = in0 + a1 + a2 + ..., *out_k = in0 + c_k - s_k and *out_(p-k) = in0 + c_k + s_k *)
Definition kernel_odd (p : Z) (tab : list (list Z * list Z)) (ins : list C) : list C :=
  match ins with
  | [] => []
  | in0 :: rest =>
      let pairs := firstn (length tab) (combine rest (rev rest)) in
      let a := map (fun '(x, y) => x +c y) pairs in
      let t := map (fun '(x, y) => twiddle x y) pairs in
      let cs := map (fun '(ci, si) => (crow p ci a, srow p si t)) tab in
      fold_left (fun acc x => acc +c x) a in0
        :: map (fun '(c, s) => in0 +c c -c s) cs ++ rev (map (fun '(c, s) => in0 +c c +c s) cs)
  end.

(** Dit<R,R,..,1>::dft *)
Definition kernel (R : Z) (ins : list C) : outcome (list C) :=
  match ins with
  | [i0; i1] => if R =? 2 then Ok (kernel2 i0 i1) else Undefined
  | [i0; i1; i2; i3] => if R =? 4 then Ok (kernel4 i0 i1 i2 i3) else Undefined
  | [i0; i1; i2; i3; i4; i5; i6; i7] => if R =? 8 then Ok (kernel8 i0 i1 i2 i3 i4 i5 i6 i7) else Undefined
  | _ => match odd_table R with Some tab => Ok (kernel_odd R tab ins) | None => Undefined end
  end.

(** Dit<R,R,..,SIGN>::dft.  SIGN = -1 calls the code of SIGN = 1 with the output pointers out1, ..., out_(R-1)
    in reverse order (e.g. fft.hh:121-126); for R = 2 both signs share the code.  Outputs are listed in the
    order *out0, *out1, ... *)
Definition dft (SIGN R : Z) (ins : list C) : outcome (list C) :=
  l <- kernel R ins ;;
  if SIGN =? 1 then Ok l else match l with [] => Ok [] | x :: l => Ok (x :: rev l) end.

(** in[i], in[i + STRIDE], ..., [n] values *)
Fixpoint gets (inp : list C) (i stride : Z) (n : nat) : outcome (list C) :=
  match n with
  | O => Ok []
  | S n' => v <- get inp i ;; l <- gets inp (i + stride) stride n' ;; Ok (v :: l)
  end.
(** out[o], out[o + step], ... = values; cells of out may be uninitialised *)
Fixpoint sets (out : list (option C)) (o step : Z) (vs : list C) : outcome (list (option C)) :=
  match vs with
  | [] => Ok out
  | v :: vs => out <- set out o (Some v) ;; sets out (o + step) step vs
  end.
(** z[l_j] * out[k_j] for j = 1, 2, ... with l_j = j*l1 and k_j = k + j*step, [n] values *)
Fixpoint twiddled (out : list (option C)) (z : list C) (k step l l1 : Z) (n : nat) : outcome (list C) :=
  match n with
  | O => Ok []
  | S n' =>
      w <- get z l ;; x <- geti out k ;;
      r <- twiddled out z (k + step) step (l + l1) l1 n' ;;
      Ok (cmul N w x :: r)
  end.

(** Dit<RADIX,BINS,STRIDE,TYPE,SIGN>::dit(out + o, in + i, z).  [out] and [in] are the whole (disjoint)
    arrays.  Each of the three kinds of template specialisation is one branch:
    Dit<1,1> fft.hh:84-91; Dit<R,R> e.g. fft.hh:102-105, 155-159; Dit<R,BINS> e.g. fft.hh:108-121, 162-183.
    The recursion of the templates is the recursion of the model; a missing specialisation (Dit<1,BINS> with
    BINS <> 1, a compile time error in C++) is [Undefined]. *)
Fixpoint dit (fuel : nat) (SIGN RADIX BINS STRIDE : Z) (out : list (option C)) (o : Z) (inp : list C) (i : Z)
    (z : list C) : outcome (list (option C)) :=
  match fuel with
  | O => NoFuel
  | S fuel =>
      if (RADIX =? 1) && (BINS =? 1) then
        v <- get inp i ;; set out o (Some v)
      else if RADIX =? 1 then Undefined
      else if BINS =? RADIX then
        ins <- gets inp i STRIDE (Z.to_nat RADIX) ;;
        outs <- dft SIGN RADIX ins ;;
        sets out o 1 outs
      else
        let QUOTIENT := BINS / RADIX in
        (* for (int o = 0, i = 0; o < BINS; o += QUOTIENT, i += STRIDE): BINS/QUOTIENT rounded up iterations *)
        out <- for_loop (Z.to_nat ((BINS + QUOTIENT - 1) / QUOTIENT)) 0 (fun j out =>
          dit fuel SIGN (split QUOTIENT) QUOTIENT (RADIX * STRIDE) out (o + j * QUOTIENT) inp (i + j * STRIDE) z) out ;;
        (* k_j = k0 + j*QUOTIENT, l_j = k0*j*STRIDE *)
        for_loop (Z.to_nat QUOTIENT) 0 (fun k0 out =>
          x0 <- geti out (o + k0) ;;
          xs <- twiddled out z (o + k0 + QUOTIENT) QUOTIENT (k0 * STRIDE) (k0 * STRIDE) (Z.to_nat (RADIX - 1)) ;;
          outs <- dft SIGN RADIX (x0 :: xs) ;;
          sets out (o + k0) QUOTIENT outs) out
  end.

(** fft.hh:1117-1121  FastFourierTransform(): the table of twiddle factors *)
Definition fft_factors (BINS SIGN : Z) : list C :=
  map (fun n => (tcos tr (Z.of_nat n) BINS, nmul N (nofZ N SIGN) (tsin tr (Z.of_nat n) BINS))) (seq 0 (Z.to_nat BINS)).

(** fft.hh:1122-1125  operator()(out, in); the recursion depth is at most BINS *)
Definition fft (BINS SIGN : Z) (out : list (option C)) (inp : list C) : outcome (list (option C)) :=
  dit (Z.to_nat BINS) SIGN (split BINS) BINS 1 out 0 inp 0 (fft_factors BINS SIGN).

(** fft.hh:1137-1147  RealToHalfComplexTransform(): factors, A, B *)
Definition rhct_factors (BINS : Z) : list C :=
  let M := BINS / 2 in
  map (fun n => (tcos tr (Z.of_nat n) M, nopp N (tsin tr (Z.of_nat n) M))) (seq 0 (Z.to_nat M)).
Definition rhct_A (BINS : Z) : list C :=
  map (fun n => cscale N (nlit N (1/2)%R) (csub N (cofr N (n1 N)) (tsin tr (Z.of_nat n) BINS, tcos tr (Z.of_nat n) BINS)))
      (seq 0 (Z.to_nat (BINS / 2))).
Definition rhct_B (BINS : Z) : list C :=
  map (fun n => cscale N (nlit N (1/2)%R) (cadd N (cofr N (n1 N)) (tsin tr (Z.of_nat n) BINS, tcos tr (Z.of_nat n) BINS)))
      (seq 0 (Z.to_nat (BINS / 2))).

(** reinterpret_cast<const TYPE *>(in): consecutive values are real and imaginary parts *)
Fixpoint pairup (l : list T) : list C :=
  match l with x :: y :: l => (x, y) :: pairup l | _ => [] end.

(** fft.hh:1148-1159  operator()(out, in) *)
Definition rhct (BINS : Z) (out : list (option C)) (inp : list T) : outcome (list (option C)) :=
  let M := BINS / 2 in
  let half := nlit N (1/2)%R in
  out <- dit (Z.to_nat M) (-1) (split M) M 1 out 0 (pairup inp) 0 (rhct_factors BINS) ;;
  o0 <- geti out 0 ;;
  out <- set out M (Some (cofr N (nmul N half (nsub N (creal o0) (cimag o0))))) ;;
  o0 <- geti out 0 ;;
  out <- set out 0 (Some (cofr N (nmul N half (nadd N (creal o0) (cimag o0))))) ;;
  for_loop (Z.to_nat (M / 2)) 1 (fun i out =>
    oi <- geti out i ;; ai <- get (rhct_A BINS) i ;;
    on <- geti out (M - i) ;; bi <- get (rhct_B BINS) i ;;
    let tmp := cadd N (cmul N oi ai) (cmul N (cconj N on) bi) in
    an <- get (rhct_A BINS) (M - i) ;; bn <- get (rhct_B BINS) (M - i) ;;
    out <- set out (M - i) (Some (cadd N (cmul N on an) (cmul N (cconj N oi) bn))) ;;
    set out i (Some tmp)) out.
End Fft.
