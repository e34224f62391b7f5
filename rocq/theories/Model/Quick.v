(* Model of /repo/quick.hh *)
From Verif Require Export Model.Base.
Open Scope Z_scope.

Section Quick.
(** [lt] is TYPE's operator <, [gt] its operator >.  An array pointed to by [TYPE *a] is a list; all
    accesses are bounds checked.  Index arithmetic stays within [0, n] so that int overflow cannot
    occur for n <= INT_MAX and is not modelled separately. *)
Context {A : Type} (lt gt : A -> A -> bool).

(** quick.hh:13-19  swap: t = a[i]; a[i] = a[j]; a[j] = t; *)
Definition qswap (a : list A) (i j : Z) : outcome (list A) :=
  t <- get a i ;;
  u <- get a j ;;
  a <- set a i u ;;
  set a j t.

(** quick.hh:21-41  median(A, a, b, c, d, e) *)
Definition qmedian (A0 : list A) (a b c d e : Z) : outcome (list A) :=
  (* 24-25 *)
  xc <- get A0 c ;; xa <- get A0 a ;;
  A1 <- (if lt xc xa then qswap A0 a c else Ok A0) ;;
  (* 26-27 *)
  xd <- get A1 d ;; xb <- get A1 b ;;
  A2 <- (if lt xd xb then qswap A1 b d else Ok A1) ;;
  (* 28-31 *)
  xd <- get A2 d ;; xc <- get A2 c ;;
  A3 <- (if lt xd xc then (T <- qswap A2 c d ;; qswap T a b) else Ok A2) ;;
  (* 32-33 *)
  xe <- get A3 e ;; xb <- get A3 b ;;
  A4 <- (if lt xe xb then qswap A3 b e else Ok A3) ;;
  (* 34-40 *)
  xe <- get A4 e ;; xc <- get A4 c ;;
  if lt xe xc then
    A5 <- qswap A4 c e ;;
    xc <- get A5 c ;; xa <- get A5 a ;;
    if lt xc xa then qswap A5 a c else Ok A5
  else
    xb <- get A4 b ;;
    if lt xc xb then qswap A4 b c else Ok A4.

(** quick.hh:51-57  the partition loop [for (int i = l; i <= h;) ...] *)
Fixpoint qpart_loop (fuel : nat) (a : list A) (i l h : Z) (pivot : A) : outcome (list A * Z * Z) :=
  if i <=? h then
    match fuel with
    | O => NoFuel
    | S f =>
        x <- get a i ;;
        if lt x pivot then
          a <- qswap a i l ;; qpart_loop f a (i + 1) (l + 1) h pivot
        else if gt x pivot then
          a <- qswap a i h ;; qpart_loop f a i l (h - 1) pivot
        else qpart_loop f a (i + 1) l h pivot
    end
  else Ok (a, l, h).

(** quick.hh:43-58  partition(a, l, h), [l] and [h] are in/out parameters *)
Definition qpartition (a : list A) (l h : Z) : outcome (list A * Z * Z) :=
  let half := (h - l) / 2 in
  let quarter := (h - l) / 4 in
  let middle := l + half in
  a <- qmedian a l (l + quarter) middle (middle + quarter) h ;;
  pivot <- get a middle ;;
  qpart_loop (Z.to_nat (h - l + 1)) a l l h pivot.

(** quick.hh:65-66  for (j = i; j > l && t < a[j-1]; --j) a[j] = a[j-1]; returns j *)
Fixpoint qins_inner (fuel : nat) (a : list A) (l j : Z) (t : A) : outcome (list A * Z) :=
  if l <? j then
    y <- get a (j - 1) ;;
    if lt t y then
      match fuel with
      | O => NoFuel
      | S f =>
          a <- set a j y ;; qins_inner f a l (j - 1) t
      end
    else Ok (a, j)
  else Ok (a, j).

(** quick.hh:60-69  insertion *)
Definition qinsertion (a : list A) (l h : Z) : outcome (list A) :=
  for_loop (Z.to_nat (h - l)) (l + 1) (fun i a =>
    t <- get a i ;;
    '(a, j) <- qins_inner (Z.to_nat (i - l)) a l i t ;;
    set a j t) a.

(** quick.hh:71-84  sort *)
Fixpoint qsort (fuel : nat) (a : list A) (l h : Z) : outcome (list A) :=
  if l <? h then
    if h - l <? 32 then qinsertion a l h
    else
      match fuel with
      | O => NoFuel
      | S f =>
          '(a, lt', gt') <- qpartition a l h ;;
          a <- qsort f a l (lt' - 1) ;;
          qsort f a (gt' + 1) h
      end
  else Ok a.

(** quick.hh:86-104  select *)
Fixpoint qselect (fuel : nat) (a : list A) (l h k : Z) : outcome (list A) :=
  if l <? h then
    if h - l <? 32 then qinsertion a l h
    else
      match fuel with
      | O => NoFuel
      | S f =>
          '(a, lt', gt') <- qpartition a l h ;;
          if k <? lt' then qselect f a l (lt' - 1) k
          else if gt' <? k then qselect f a (gt' + 1) h k
          else Ok a
      end
  else Ok a.

(** quick.hh:108-112  quick_sort(a, n): sort(a, 0, n-1).  Every recursive call is on a strictly
    smaller range, so [n] levels of fuel suffice. *)
Definition quick_sort (a : list A) (n : Z) : outcome (list A) :=
  qsort (Z.to_nat n) a 0 (n - 1).

(** quick.hh:114-120  quick_select(a, k, n): assert(n && k < n); select(a, 0, n-1, k); return a[k]; *)
Definition quick_select (a : list A) (k n : Z) : outcome (list A * A) :=
  _ <- cassert (negb (n =? 0) && (k <? n)) ;;
  a <- qselect (Z.to_nat n) a 0 (n - 1) k ;;
  v <- get a k ;;
  Ok (a, v).
End Quick.
