(* Model of /repo/quick.hh that also counts how often operator < and operator > of TYPE are applied.
   The functions are those of Model/Quick.v statement by statement; Proofs/QuickCostProofs.v shows that forgetting
   the counter gives back Model/Quick.v. *)
From Verif Require Export Model.Quick.
Open Scope Z_scope.

(** a computation and the number of comparisons made by it *)
Definition counted (A : Type) : Type := outcome (A * Z).
Definition cret {A} (x : A) : counted A := Ok (x, 0).
Definition cbind {A B} (m : counted A) (f : A -> counted B) : counted B :=
  '(x, c) <- m ;; '(y, d) <- f x ;; Ok (y, c + d).
(** a step without comparisons *)
Definition free {A} (m : outcome A) : counted A := x <- m ;; Ok (x, 0).
Notation "x <~ m ;; f" := (cbind m (fun x => f)) (at level 61, m at next level, right associativity).
Notation "' p <~ m ;; f" := (cbind m (fun p => f)) (at level 61, p pattern, m at next level, right associativity).

Section QuickCost.
Context {A : Type} (lt gt : A -> A -> bool).
(** one comparison *)
Definition clt (x y : A) : counted bool := Ok (lt x y, 1).
Definition cgt (x y : A) : counted bool := Ok (gt x y, 1).

(** quick.hh:21-41 *)
Definition cmedian (A0 : list A) (a b c d e : Z) : counted (list A) :=
  xc <~ free (get A0 c) ;; xa <~ free (get A0 a) ;;
  t <~ clt xc xa ;; A1 <~ free (if t then qswap A0 a c else Ok A0) ;;
  xd <~ free (get A1 d) ;; xb <~ free (get A1 b) ;;
  t <~ clt xd xb ;; A2 <~ free (if t then qswap A1 b d else Ok A1) ;;
  xd <~ free (get A2 d) ;; xc <~ free (get A2 c) ;;
  t <~ clt xd xc ;; A3 <~ free (if t then (T <- qswap A2 c d ;; qswap T a b) else Ok A2) ;;
  xe <~ free (get A3 e) ;; xb <~ free (get A3 b) ;;
  t <~ clt xe xb ;; A4 <~ free (if t then qswap A3 b e else Ok A3) ;;
  xe <~ free (get A4 e) ;; xc <~ free (get A4 c) ;;
  t <~ clt xe xc ;;
  if t then
    A5 <~ free (qswap A4 c e) ;;
    xc <~ free (get A5 c) ;; xa <~ free (get A5 a) ;;
    t <~ clt xc xa ;; free (if t then qswap A5 a c else Ok A5)
  else
    xb <~ free (get A4 b) ;;
    t <~ clt xc xb ;; free (if t then qswap A4 b c else Ok A4).

(** quick.hh:51-57: operator > is only applied when operator < was false *)
Fixpoint cpart_loop (fuel : nat) (a : list A) (i l h : Z) (pivot : A) : counted (list A * Z * Z) :=
  if i <=? h then
    match fuel with
    | O => NoFuel
    | S f =>
        x <~ free (get a i) ;;
        t <~ clt x pivot ;;
        if t then
          a <~ free (qswap a i l) ;; cpart_loop f a (i + 1) (l + 1) h pivot
        else
          t <~ cgt x pivot ;;
          if t then
            a <~ free (qswap a i h) ;; cpart_loop f a i l (h - 1) pivot
          else cpart_loop f a (i + 1) l h pivot
    end
  else cret (a, l, h).
(** quick.hh:43-58 *)
Definition cpartition (a : list A) (l h : Z) : counted (list A * Z * Z) :=
  let half := (h - l) / 2 in
  let quarter := (h - l) / 4 in
  let middle := l + half in
  a <~ cmedian a l (l + quarter) middle (middle + quarter) h ;;
  pivot <~ free (get a middle) ;;
  cpart_loop (Z.to_nat (h - l + 1)) a l l h pivot.

(** quick.hh:65-66: t < a[j-1] is only evaluated if j > l *)
Fixpoint cins_inner (fuel : nat) (a : list A) (l j : Z) (t : A) : counted (list A * Z) :=
  if l <? j then
    y <~ free (get a (j - 1)) ;;
    b <~ clt t y ;;
    if b then
      match fuel with
      | O => NoFuel
      | S f => a <~ free (set a j y) ;; cins_inner f a l (j - 1) t
      end
    else cret (a, j)
  else cret (a, j).
(** quick.hh:60-69 *)
Fixpoint cfor {B} (n : nat) (i : Z) (body : Z -> B -> counted B) (s : B) : counted B :=
  match n with O => cret s | S n => s <~ body i s ;; cfor n (i + 1) body s end.
Definition cinsertion (a : list A) (l h : Z) : counted (list A) :=
  cfor (Z.to_nat (h - l)) (l + 1) (fun i a =>
    t <~ free (get a i) ;;
    '(a, j) <~ cins_inner (Z.to_nat (i - l)) a l i t ;;
    free (set a j t)) a.

(** quick.hh:71-84 *)
Fixpoint csort (fuel : nat) (a : list A) (l h : Z) : counted (list A) :=
  if l <? h then
    if h - l <? 32 then cinsertion a l h
    else
      match fuel with
      | O => NoFuel
      | S f =>
          '(a, lt', gt') <~ cpartition a l h ;;
          a <~ csort f a l (lt' - 1) ;;
          csort f a (gt' + 1) h
      end
  else cret a.
(** quick.hh:86-104 *)
Fixpoint cselect (fuel : nat) (a : list A) (l h k : Z) : counted (list A) :=
  if l <? h then
    if h - l <? 32 then cinsertion a l h
    else
      match fuel with
      | O => NoFuel
      | S f =>
          '(a, lt', gt') <~ cpartition a l h ;;
          if k <? lt' then cselect f a l (lt' - 1) k
          else if gt' <? k then cselect f a (gt' + 1) h k
          else cret a
      end
  else cret a.
(** quick.hh:108-112 *)
Definition quick_sort_count (a : list A) (n : Z) : counted (list A) := csort (Z.to_nat n) a 0 (n - 1).
(** quick.hh:114-120 *)
Definition quick_select_count (a : list A) (k n : Z) : counted (list A * A) :=
  _ <~ free (cassert (negb (n =? 0) && (k <? n))) ;;
  a <~ cselect (Z.to_nat n) a 0 (n - 1) k ;;
  v <~ free (get a k) ;;
  cret (a, v).
End QuickCost.
