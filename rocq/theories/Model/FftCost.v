(* Model of /repo/fft.hh that also counts the additions, subtractions and multiplications of value_type made by an
   FFT.  The functions are those of Model/Fft.v statement by statement; Proofs/FftCostProofs.v shows that forgetting the
   counter gives back Model/Fft.v.  The constants cos(n, N), sin(n, N), InvSqrtTwo are compile time constants and the
   twiddle factors are computed once by the constructor: they are not counted. *)
From Verif Require Export Model.Fft Model.QuickCost.
Open Scope Z_scope.

(** [n] operations *)
Definition ops {A} (n : Z) (x : A) : counted A := Ok (x, n).

Section FftCost.
Context {T : Type} (N : num T) (tr : trig T).
Notation C := (cplx T).

(** complex.hh:68-72, 80-84, 92-96, 104-108 *)
Definition kadd (a b : C) : counted C := ops 2 (cadd N a b).
Definition ksub (a b : C) : counted C := ops 2 (csub N a b).
Definition kmul (a b : C) : counted C := ops 6 (cmul N a b).
(** fft.hh:15-31: a real factor, complex.hh:92-96 *)
Definition krsqrt2 (a : C) : counted C := ops 2 (rsqrt2 N tr a).
Definition kcx (n M : Z) (a : C) : counted C := ops 2 (cx N tr n M a).
Definition ksx (n M : Z) (a : C) : counted C := ops 2 (sx N tr n M a).
(** fft.hh:33-38 *)
Definition kfiddle (a b : C) : counted C :=
  c <~ kadd a b ;; d <~ ksub a b ;;
  ops 2 (nadd N (creal d) (cimag c), nsub N (cimag d) (creal c)).
(** fft.hh:40-44 *)
Definition ktwiddle (a b : C) : counted C := ops 2 (twiddle N a b).

(** fft.hh:97-101 *)
Definition kkernel2 (i0 i1 : C) : counted (list C) :=
  o0 <~ kadd i0 i1 ;; o1 <~ ksub i0 i1 ;; cret [o0; o1].

(** fft.hh:190-199 *)
Definition kkernel4 (i0 i1 i2 i3 : C) : counted (list C) :=
  a <~ kadd i0 i2 ;; b <~ ksub i0 i2 ;;
  c <~ kadd i1 i3 ;; d <~ ktwiddle i1 i3 ;;
  o0 <~ kadd a c ;; o1 <~ ksub b d ;; o2 <~ ksub a c ;; o3 <~ kadd b d ;;
  cret [o0; o1; o2; o3].

(** x +- y +- z, the flags say which are additions *)
Definition k3 (p q : bool) (x y z : C) : counted C :=
  t <~ (if p then kadd x y else ksub x y) ;; if q then kadd t z else ksub t z.
(** fft.hh:375-392 *)
Definition kkernel8 (i0 i1 i2 i3 i4 i5 i6 i7 : C) : counted (list C) :=
  a <~ kadd i0 i4 ;; b <~ ksub i0 i4 ;;
  c <~ kadd i1 i5 ;; d <~ ksub i1 i5 ;;
  e <~ kadd i2 i6 ;; f <~ ktwiddle i2 i6 ;;
  g <~ kadd i3 i7 ;; h <~ ksub i3 i7 ;;
  cpg <~ kadd c g ;; tcg <~ ktwiddle c g ;;
  x <~ kfiddle d h ;; fdh <~ krsqrt2 x ;;
  y <~ kfiddle h d ;; fhd <~ krsqrt2 y ;;
  o0 <~ k3 true true a e cpg ;; o1 <~ k3 false false b f fhd ;;
  o2 <~ k3 false false a e tcg ;; o3 <~ k3 true false b f fdh ;;
  o4 <~ k3 true false a e cpg ;; o5 <~ k3 false true b f fhd ;;
  o6 <~ k3 false true a e tcg ;; o7 <~ k3 true true b f fdh ;;
  cret [o0; o1; o2; o3; o4; o5; o6; o7].

Fixpoint kmap {A B} (f : A -> counted B) (l : list A) : counted (list B) :=
  match l with [] => cret [] | x :: l => y <~ f x ;; l <~ kmap f l ;; cret (y :: l) end.
Fixpoint kfold {A B} (f : A -> B -> counted A) (l : list B) (a : A) : counted A :=
  match l with [] => cret a | x :: l => a <~ f a x ;; kfold f l a end.

(** the lines of the odd radices, see Model/Fft.v *)
Definition kcrow (p : Z) (idx : list Z) (a : list C) : counted C :=
  match combine idx a with
  | [] => cret (czero N)
  | (i1, a1) :: l =>
      x1 <~ kcx i1 p a1 ;; kfold (fun acc '(i, x) => y <~ kcx i p x ;; kadd acc y) l x1
  end.
Definition ksrow (p : Z) (idx : list Z) (t : list C) : counted C :=
  match combine idx t with
  | [] => cret (czero N)
  | (j1, t1) :: l =>
      x1 <~ ksx j1 p t1 ;;
      kfold (fun acc '(j, x) =>
        if j <? 0 then y <~ ksx (- j) p x ;; ksub acc y else y <~ ksx j p x ;; kadd acc y) l x1
  end.
Definition kkernel_odd (p : Z) (tab : list (list Z * list Z)) (ins : list C) : counted (list C) :=
  match ins with
  | [] => cret []
  | in0 :: rest =>
      let pairs := firstn (length tab) (combine rest (rev rest)) in
      a <~ kmap (fun '(x, y) => kadd x y) pairs ;;
      t <~ kmap (fun '(x, y) => ktwiddle x y) pairs ;;
      cs <~ kmap (fun '(ci, si) => c <~ kcrow p ci a ;; s <~ ksrow p si t ;; cret (c, s)) tab ;;
      o0 <~ kfold kadd a in0 ;;
      lo <~ kmap (fun '(c, s) => k3 true false in0 c s) cs ;;
      hi <~ kmap (fun '(c, s) => k3 true true in0 c s) cs ;;
      cret (o0 :: lo ++ rev hi)
  end.
Definition kkernel (R : Z) (ins : list C) : counted (list C) :=
  match ins with
  | [i0; i1] => if R =? 2 then kkernel2 i0 i1 else Undefined
  | [i0; i1; i2; i3] => if R =? 4 then kkernel4 i0 i1 i2 i3 else Undefined
  | [i0; i1; i2; i3; i4; i5; i6; i7] => if R =? 8 then kkernel8 i0 i1 i2 i3 i4 i5 i6 i7 else Undefined
  | _ => match odd_table R with Some tab => kkernel_odd R tab ins | None => Undefined end
  end.
Definition kdft (SIGN R : Z) (ins : list C) : counted (list C) :=
  l <~ kkernel R ins ;;
  cret (if SIGN =? 1 then l else match l with [] => [] | x :: l => x :: rev l end).

Fixpoint ktwiddled (out : list (option C)) (z : list C) (k step l l1 : Z) (n : nat) : counted (list C) :=
  match n with
  | O => cret []
  | S n' =>
      w <~ free (get z l) ;; x <~ free (geti out k) ;;
      y <~ kmul w x ;;
      r <~ ktwiddled out z (k + step) step (l + l1) l1 n' ;;
      cret (y :: r)
  end.

(** Dit<RADIX,BINS,STRIDE,TYPE,SIGN>::dit *)
Fixpoint kdit (fuel : nat) (SIGN RADIX BINS STRIDE : Z) (out : list (option C)) (o : Z) (inp : list C) (i : Z)
    (z : list C) : counted (list (option C)) :=
  match fuel with
  | O => NoFuel
  | S fuel =>
      if (RADIX =? 1) && (BINS =? 1) then
        v <~ free (get inp i) ;; free (set out o (Some v))
      else if RADIX =? 1 then Undefined
      else if BINS =? RADIX then
        ins <~ free (gets inp i STRIDE (Z.to_nat RADIX)) ;;
        outs <~ kdft SIGN RADIX ins ;;
        free (sets out o 1 outs)
      else
        let QUOTIENT := BINS / RADIX in
        out <~ cfor (Z.to_nat ((BINS + QUOTIENT - 1) / QUOTIENT)) 0 (fun j out =>
          kdit fuel SIGN (Fft.split QUOTIENT) QUOTIENT (RADIX * STRIDE) out (o + j * QUOTIENT) inp (i + j * STRIDE) z) out ;;
        cfor (Z.to_nat QUOTIENT) 0 (fun k0 out =>
          x0 <~ free (geti out (o + k0)) ;;
          xs <~ ktwiddled out z (o + k0 + QUOTIENT) QUOTIENT (k0 * STRIDE) (k0 * STRIDE) (Z.to_nat (RADIX - 1)) ;;
          outs <~ kdft SIGN RADIX (x0 :: xs) ;;
          free (sets out (o + k0) QUOTIENT outs)) out
  end.

(** fft.hh:1122-1125 *)
Definition kfft (BINS SIGN : Z) (out : list (option C)) (inp : list C) : counted (list (option C)) :=
  kdit (Z.to_nat BINS) SIGN (Fft.split BINS) BINS 1 out 0 inp 0 (fft_factors N tr BINS SIGN).
End FftCost.
