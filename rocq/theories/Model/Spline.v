(* Model of /repo/spline.hh *)
From Coq Require Import ZArith Reals.
From Flocq Require Import Core.
From Verif Require Export Model.Base Model.Num Model.Complex Model.Signal.
Open Scope Z_scope.

(** conversion of a floating point value to int: truncation towards zero, undefined behaviour when the
    result does not fit *)
Definition Rtoint (x : R) : outcome Z := ichk (Ztrunc x).

(** OTYPE values of a spline: a vector space over ITYPE with division by ITYPE *)
Record ovs (T V : Type) := mkOvs { ov_ops : vsp T V; ov_div : V -> T -> V }.
Arguments mkOvs {T V}. Arguments ov_ops {T V}. Arguments ov_div {T V}.
Definition oreal {T} (M : num T) : ovs T T := mkOvs (vreal M) (ndiv M).
Definition ocplx {T} (M : num T) : ovs T (cplx T) := mkOvs (vcplx M) (cdivr M).

(** spline.hh:14  A[i], B[i], C[i], D[i]: one record per segment instead of four arrays *)
Record coef (V : Type) := mkCoef { cA : V; cB : V; cC : V; cD : V }.
Arguments mkCoef {V}. Arguments cA {V}. Arguments cB {V}. Arguments cC {V}. Arguments cD {V}.
Record spline (T V : Type) := mkSpline { sp_coef : list (option (coef V)); sp_x0 : T; sp_dx : T }.
Arguments mkSpline {T V}. Arguments sp_coef {T V}. Arguments sp_x0 {T V}. Arguments sp_dx {T V}.

Section Spline.
Context {T V : Type} (M : num T) (OV : ovs T V) (toint : T -> outcome Z).
Notation "a +v b" := (vadd (ov_ops OV) a b) (at level 50, left associativity).
Notation "a -v b" := (vsub (ov_ops OV) a b) (at level 50, left associativity).
Notation "a *v b" := (vscale (ov_ops OV) a b) (at level 40, left associativity).
Notation "a /v b" := (ov_div OV a b) (at level 40, left associativity).
(** Y[i*STRIDE] *)
Definition yat (Y : list V) (STRIDE i : Z) : outcome V := j <- ichk (i * STRIDE) ;; get Y j.

(** spline.hh:20-28; cells that have not been written are [None] *)
Definition spl_forward (KNOTS STRIDE : Z) (Y : list V) : outcome (list (option T) * list (option V)) :=
  U <- set (repeat None (Z.to_nat (KNOTS - 1))) 0 (Some (nofZ M 0)) ;;
  Z <- set (repeat None (Z.to_nat (KNOTS - 1))) 0 (Some (v0 (ov_ops OV))) ;;
  for_loop (Z.to_nat (KNOTS - 2)) 1 (fun i '(U, Z) =>
    u <- geti U (i - 1) ;;
    let l := nsub M (nofZ M 4) u in
    U <- set U i (Some (ndiv M (nofZ M 1) l)) ;;
    y2 <- yat Y STRIDE (i + 1) ;; y1 <- yat Y STRIDE i ;; y0 <- yat Y STRIDE (i - 1) ;;
    z <- geti Z (i - 1) ;;
    Z <- set Z i (Some ((nofZ M 3 *v (y2 -v nofZ M 2 *v y1 +v y0) -v z) /v l)) ;;
    Ok (U, Z)) (U, Z).

(** spline.hh:29-36  for (int i = KNOTS - 2; i >= 0; --i) *)
Definition spl_backward (KNOTS STRIDE : Z) (Y : list V) (U : list (option T)) (Z : list (option V)) : outcome (list (option (coef V)) * V) :=
  for_loop (Z.to_nat (KNOTS - 1)) 0 (fun n '(cs, c) =>
    let i := KNOTS - 2 - n in
    y0 <- yat Y STRIDE i ;; z <- geti Z i ;; u <- geti U i ;;
    let ci := z -v u *v c in
    y1 <- yat Y STRIDE (i + 1) ;;
    let bi := y1 -v y0 -v (c +v nofZ M 2 *v ci) /v nofZ M 3 in
    let di := (c -v ci) /v nofZ M 3 in
    cs <- set cs i (Some (mkCoef y0 bi ci di)) ;;
    Ok (cs, ci)) (repeat None (Z.to_nat (KNOTS - 1)), v0 (ov_ops OV)).

(** spline.hh:18-37  UniformNaturalCubicSpline(Y, x0, dx, STRIDE) *)
Definition spl_new (KNOTS : Z) (Y : list V) (x0 dx : T) (STRIDE : Z) : outcome (spline T V) :=
  '(U, Z) <- spl_forward KNOTS STRIDE Y ;;
  '(cs, _) <- spl_backward KNOTS STRIDE Y U Z ;;
  Ok (mkSpline cs x0 dx).

(** spline.hh:38-52  operator()(x) *)
Definition spl_at (KNOTS : Z) (s : spline T V) (x : T) : outcome V :=
  let tx := ndiv M (nsub M x (sp_x0 s)) (sp_dx s) in
  k <- toint tx ;;
  let t := nsub M tx (nofZ M k) in
  let '(k, t) := if k <? 0 then (0, tx) else (k, t) in
  let '(k, t) := if KNOTS - 1 <=? k then (KNOTS - 2, nsub M tx (nofZ M (KNOTS - 2))) else (k, t) in
  c <- geti (sp_coef s) k ;;
  Ok (cA c +v t *v (cB c +v t *v (cC c +v t *v cD c))).

(** spline.hh:58-73 *)
Definition h00 (t : T) : T := nmul M (nmul M (nadd M (nofZ M 1) (nmul M (nofZ M 2) t)) (nsub M (nofZ M 1) t)) (nsub M (nofZ M 1) t).
Definition h10 (t : T) : T := nmul M (nmul M t (nsub M (nofZ M 1) t)) (nsub M (nofZ M 1) t).
Definition h01 (t : T) : T := nmul M (nmul M t t) (nsub M (nofZ M 3) (nmul M (nofZ M 2) t)).
Definition h11 (t : T) : T := nmul M (nmul M t t) (nsub M t (nofZ M 1)).

(** spline.hh:74-85  left(X+k, Y+k), right(X+k, Y+k), central(X+k, Y+k) *)
Definition hx_left (X : list T) (Y : list V) (k : Z) : outcome V :=
  y0 <- get Y k ;; ym <- get Y (k - 1) ;; x0 <- get X k ;; xm <- get X (k - 1) ;; Ok ((y0 -v ym) /v nsub M x0 xm).
Definition hx_right (X : list T) (Y : list V) (k : Z) : outcome V :=
  y1 <- get Y (k + 1) ;; y0 <- get Y k ;; x1 <- get X (k + 1) ;; x0 <- get X k ;; Ok ((y1 -v y0) /v nsub M x1 x0).
Definition hx_central (X : list T) (Y : list V) (k : Z) : outcome V :=
  l <- hx_left X Y k ;; r <- hx_right X Y k ;; Ok (nlit M 0.5 *v (l +v r)).

(** h00(t) * Y[k] + h10(t) * (X[k+1]-X[k]) * m0 + h01(t) * Y[k+1] + h11(t) * (X[k+1]-X[k]) * m1 *)
Definition hx_poly (X : list T) (Y : list V) (t : T) (k : Z) (m0 m1 : outcome V) : outcome V :=
  y0 <- get Y k ;; x1 <- get X (k + 1) ;; x0 <- get X k ;; m0 <- m0 ;; y1 <- get Y (k + 1) ;; m1 <- m1 ;;
  Ok (h00 t *v y0 +v nmul M (h10 t) (nsub M x1 x0) *v m0 +v h01 t *v y1 +v nmul M (h11 t) (nsub M x1 x0) *v m1).
(** spline.hh:86-94  eval(X, Y, t, k, n) *)
Definition hx_seg (X : list T) (Y : list V) (t : T) (k n : Z) : outcome V :=
  if k <? 1 then hx_poly X Y t 0 (hx_right X Y 0) (hx_central X Y 1)
  else if k <? n - 2 then hx_poly X Y t k (hx_central X Y k) (hx_central X Y (k + 1))
  else hx_poly X Y t (n - 2) (hx_central X Y (n - 2)) (hx_left X Y (n - 1)).

(** std::lower_bound(X, X+n, x) - X: the usual binary search *)
Fixpoint lower_bound (fuel : nat) (X : list T) (first count : Z) (x : T) : outcome Z :=
  if 0 <? count then
    match fuel with
    | O => NoFuel
    | S f =>
      let step := count / 2 in
      v <- get X (first + step) ;;
      if nltb M v x then lower_bound f X (first + step + 1) (count - (step + 1)) x else lower_bound f X first step x
    end
  else Ok first.

(** spline.hh:95-104  eval(X, Y, x, n) *)
Definition hx_at (X : list T) (Y : list V) (x : T) (n : Z) : outcome V :=
  k <- lower_bound (Z.to_nat n) X 0 n x ;;
  let rel i j := (xi <- get X i ;; xj <- get X j ;; Ok (ndiv M (nsub M x xi) (nsub M xj xi))) in
  if k <? 1 then (t <- rel 0 1 ;; hx_seg X Y t 0 n)
  else if k <? n then (t <- rel (k - 1) k ;; hx_seg X Y t (k - 1) n)
  else (t <- rel (n - 2) (n - 1) ;; hx_seg X Y t (n - 1) n).

(** spline.hh:105-116  left(Y+k), right(Y+k), central(Y+k) *)
Definition hu_left (Y : list V) (k : Z) : outcome V := y0 <- get Y k ;; ym <- get Y (k - 1) ;; Ok (y0 -v ym).
Definition hu_right (Y : list V) (k : Z) : outcome V := y1 <- get Y (k + 1) ;; y0 <- get Y k ;; Ok (y1 -v y0).
Definition hu_central (Y : list V) (k : Z) : outcome V := y1 <- get Y (k + 1) ;; ym <- get Y (k - 1) ;; Ok (nlit M 0.5 *v (y1 -v ym)).
Definition hu_poly (Y : list V) (t : T) (k : Z) (m0 m1 : outcome V) : outcome V :=
  y0 <- get Y k ;; m0 <- m0 ;; y1 <- get Y (k + 1) ;; m1 <- m1 ;;
  Ok (h00 t *v y0 +v h10 t *v m0 +v h01 t *v y1 +v h11 t *v m1).
(** spline.hh:117-125  eval(Y, t, k, n) *)
Definition hu_seg (Y : list V) (t : T) (k n : Z) : outcome V :=
  if k <? 1 then hu_poly Y t 0 (hu_right Y 0) (hu_central Y 1)
  else if k <? n - 2 then hu_poly Y t k (hu_central Y k) (hu_central Y (k + 1))
  else hu_poly Y t (n - 2) (hu_central Y (n - 2)) (hu_left Y (n - 1)).
(** spline.hh:126-137  eval(Y, x, n, x0, dx) *)
Definition hu_at (Y : list V) (x : T) (n : Z) (x0 dx : T) : outcome V :=
  let tx := ndiv M (nsub M x x0) dx in
  k <- toint tx ;;
  let t := nsub M tx (nofZ M k) in
  if k <? 0 then hu_seg Y tx 0 n
  else if k <? n - 1 then hu_seg Y t k n
  else hu_seg Y (nsub M tx (nofZ M (n - 2))) (n - 2) n.
End Spline.
