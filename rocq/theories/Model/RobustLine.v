(* Model of /repo/theil_sen.hh and /repo/repeated_median.hh.
   The members are mutable arrays the constructors leave uninitialised; here they are lists with arbitrary
   initial contents, and the theorems hold for all of them.  [a > b] is [b < a]. *)
From Coq Require Import ZArith.
From Verif Require Export Model.Quick Model.Num Model.Regression.
Open Scope Z_scope.

Section RobustLine.
Context {T : Type} (M : num T).
Definition sel (a : list T) (k n : Z) : outcome (list T * T) := quick_select (nltb M) (fun u v => nltb M v u) a k n.
(** (y[j] - y[i]) / (x[j] - x[i]) *)
Definition slope_of (xi yi xj yj : T) : T := ndiv M (nsub M yj yi) (nsub M xj xi).
(** (x[j]*y[i] - x[i]*y[j]) / (x[j] - x[i]) *)
Definition icept_of (xi yi xj yj : T) : T := ndiv M (nsub M (nmul M xj yi) (nmul M xi yj)) (nsub M xj xi).

(** theil_sen.hh:16-18 *)
Record tsen := mkTsen { ts_temp : list T; ts_line : line T }.
Definition ts_size (LEN_MAX : Z) : Z := ((LEN_MAX - 1) * LEN_MAX) / 2.

(** theil_sen.hh:23-27  the loops [for (int i = 0; count < size_ && i < LEN; ++i) for (int j = i+1; ...)].
    Leaving a loop early because count has reached size_ is modelled by iterations that do nothing. *)
Definition ts_slopes (size : Z) (x y : list T) (LEN : Z) (temp : list T) : outcome (list T * Z) :=
  for_loop (Z.to_nat LEN) 0 (fun i st =>
    for_loop (Z.to_nat (LEN - (i + 1))) (i + 1) (fun j '(temp, count) =>
      if count <? size then
        xj <- get x j ;; xi <- get x i ;;
        if negb (neqb M xj xi) then
          yj <- get y j ;; yi <- get y i ;;
          temp <- set temp count (slope_of xi yi xj yj) ;; Ok (temp, count + 1)
        else Ok (temp, count)
      else Ok (temp, count)) st) (temp, 0).

(** theil_sen.hh:29-31 *)
Definition ts_icepts (size : Z) (x y : list T) (LEN : Z) (slope : T) (temp : list T) : outcome (list T * Z) :=
  for_loop (Z.to_nat LEN) 0 (fun i '(temp, count) =>
    if count <? size then
      yi <- get y i ;; xi <- get x i ;;
      temp <- set temp count (nsub M yi (nmul M slope xi)) ;; Ok (temp, count + 1)
    else Ok (temp, count)) (temp, 0).

(** theil_sen.hh:21-34  compute(x, y, LEN); count is never negative *)
Definition ts_compute (LEN_MAX : Z) (s : tsen) (x y : list T) (LEN : Z) : outcome tsen :=
  let size := ts_size LEN_MAX in
  '(temp, count) <- ts_slopes size x y LEN (ts_temp s) ;;
  '(temp, slope) <- sel temp (count / 2) count ;;
  '(temp, count) <- ts_icepts size x y LEN slope temp ;;
  '(temp, yint) <- sel temp (count / 2) count ;;
  Ok (mkTsen temp (mkLine (ndiv M (nopp M yint) slope) yint slope)).

(** repeated_median.hh:16, 63  TYPE inner_[SIZE-1], outer_[SIZE]; *)
Record rmed := mkRmed { rm_inner : list T; rm_outer : list T; rm_line : line T }.

(** repeated_median.hh:25-28, 33-36, 72-75  one run of the inner loop *)
Definition rm_col (f : T -> T -> T -> T -> T) (x y : list T) (LEN i : Z) (inner : list T) : outcome (list T * Z) :=
  for_loop (Z.to_nat LEN) 0 (fun j '(inner, count) =>
    xj <- get x j ;; xi <- get x i ;;
    if negb (neqb M xj xi) then
      yj <- get y j ;; yi <- get y i ;;
      inner <- set inner count (f xi yi xj yj) ;; Ok (inner, count + 1)
    else Ok (inner, count)) (inner, 0).

(** repeated_median.hh:24-30, 32-38, 71-77  the outer loop *)
Definition rm_rows (f : T -> T -> T -> T -> T) (x y : list T) (LEN : Z) (inner outer : list T) : outcome (list T * list T) :=
  for_loop (Z.to_nat LEN) 0 (fun i '(inner, outer) =>
    '(inner, count) <- rm_col f x y LEN i inner ;;
    '(inner, v) <- sel inner (count / 2) count ;;
    outer <- set outer i v ;; Ok (inner, outer)) (inner, outer).

(** repeated_median.hh:20-41  RepeatedMedianEstimator::compute(x, y, LEN) *)
Definition rm_compute (SIZE : Z) (s : rmed) (x y : list T) (LEN : Z) : outcome rmed :=
  let LEN := if SIZE <? LEN then SIZE else LEN in
  '(inner, outer) <- rm_rows slope_of x y LEN (rm_inner s) (rm_outer s) ;;
  '(outer, slope) <- sel outer (Z.quot LEN 2) LEN ;;
  '(inner, outer) <- rm_rows icept_of x y LEN inner outer ;;
  '(outer, yint) <- sel outer (Z.quot LEN 2) LEN ;;
  Ok (mkRmed inner outer (mkLine (ndiv M (nopp M yint) slope) yint slope)).

(** repeated_median.hh:67-83  RepeatedMedianEstimator2::compute(x, y, LEN) *)
Definition rm2_compute (SIZE : Z) (s : rmed) (x y : list T) (LEN : Z) : outcome rmed :=
  let LEN := if SIZE <? LEN then SIZE else LEN in
  '(inner, outer) <- rm_rows slope_of x y LEN (rm_inner s) (rm_outer s) ;;
  '(outer, slope) <- sel outer (Z.quot LEN 2) LEN ;;
  outer <- for_loop (Z.to_nat LEN) 0 (fun i outer =>
    yi <- get y i ;; xi <- get x i ;; set outer i (nsub M yi (nmul M slope xi))) outer ;;
  '(outer, yint) <- sel outer (Z.quot LEN 2) LEN ;;
  Ok (mkRmed inner outer (mkLine (ndiv M (nopp M yint) slope) yint slope)).
End RobustLine.
Arguments mkTsen {T}. Arguments ts_temp {T}. Arguments ts_line {T}.
Arguments mkRmed {T}. Arguments rm_inner {T}. Arguments rm_outer {T}. Arguments rm_line {T}.
