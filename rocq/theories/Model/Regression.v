(* Model of /repo/regression.hh *)
From Coq Require Import ZArith.
From Verif Require Export Model.Base Model.Num.
Open Scope Z_scope.

(** regression.hh:14  TYPE xint_, yint_, slope_; also the members of theil_sen.hh:18 and
    repeated_median.hh:17, 64 *)
Record line (T : Type) := mkLine { ln_xint : T; ln_yint : T; ln_slope : T }.
Arguments mkLine {T}. Arguments ln_xint {T}. Arguments ln_yint {T}. Arguments ln_slope {T}.

Section Regression.
Context {T : Type} (M : num T).
(** regression.hh:16  SimpleLinearRegression(); theil_sen.hh:20, repeated_median.hh:19, 66 *)
Definition line_new : line T := mkLine (n0 M) (n0 M) (n0 M).
(** regression.hh:64-67  operator()(x); theil_sen.hh:47-50, repeated_median.hh:54-57, 96-99 *)
Definition line_at (s : line T) (x : T) : T := nadd M (ln_yint s) (nmul M (ln_slope s) x).

(** regression.hh:17-34  SimpleLinearRegression(x, y, LEN) *)
Definition regr_xy (x y : list T) (LEN : Z) : outcome (line T) :=
  '(avgX, avgY) <- for_loop (Z.to_nat LEN) 0 (fun i '(ax, ay) =>
    xi <- get x i ;; yi <- get y i ;; Ok (nadd M ax xi, nadd M ay yi)) (nofZ M 0, nofZ M 0) ;;
  let avgX := ndiv M avgX (nofZ M LEN) in
  let avgY := ndiv M avgY (nofZ M LEN) in
  '(varX, covXY) <- for_loop (Z.to_nat LEN) 0 (fun i '(vx, cxy) =>
    xi <- get x i ;; yi <- get y i ;;
    Ok (nadd M vx (nmul M (nsub M xi avgX) (nsub M xi avgX)),
        nadd M cxy (nmul M (nsub M xi avgX) (nsub M yi avgY)))) (nofZ M 0, nofZ M 0) ;;
  let xint := nsub M avgX (ndiv M (nmul M avgY varX) covXY) in
  let slope := ndiv M covXY varX in
  let yint := nsub M avgY (nmul M slope avgX) in
  Ok (mkLine xint yint slope).

(** regression.hh:35-51  SimpleLinearRegression(y, l, x0, dx) *)
Definition regr_grid (y : list T) (l : Z) (x0 dx : T) : outcome (line T) :=
  l1 <- ichk (l - 1) ;;
  let midL := ndiv M (nofZ M l1) (nofZ M 2) in
  let avgX := nadd M x0 (nmul M dx midL) in
  avgY <- for_loop (Z.to_nat l) 0 (fun i ay => yi <- get y i ;; Ok (nadd M ay yi)) (nofZ M 0) ;;
  let avgY := ndiv M avgY (nofZ M l) in
  '(varX, covXY) <- for_loop (Z.to_nat l) 0 (fun i '(vx, cxy) =>
    yi <- get y i ;;
    let d := nmul M dx (nsub M (nofZ M i) midL) in
    Ok (nadd M vx (nmul M d d), nadd M cxy (nmul M d (nsub M yi avgY)))) (nofZ M 0, nofZ M 0) ;;
  let xint := nsub M avgX (ndiv M (nmul M avgY varX) covXY) in
  let slope := ndiv M covXY varX in
  let yint := nsub M avgY (nmul M slope avgX) in
  Ok (mkLine xint yint slope).
End Regression.
