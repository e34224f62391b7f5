(* Model of the test programs /repo/tests *)
From Coq Require Import Reals.
From Flocq Require Import Core.
From Verif Require Export Model.Base Model.Num Model.Const Model.Deque Model.Swa Model.MovExt Model.Quick Model.Kahan
  Model.Cordic Model.UnitCircle Model.Atan2.
Open Scope Z_scope.

(** The numbers a random generator delivers: [rs p] is the p-th one, whatever the generator and its seed.  A
    uniform_int_distribution on lo..hi delivers some number of that range. *)
Section Random.
Context (rs : nat -> Z).
Definition dis (lo hi : Z) (p : nat) : Z := lo + rs p mod (hi - lo + 1).

(** std::deque<int>: the list from front to back; what the standard leaves undefined is [Undefined] *)
Definition std_front (l : list Z) : outcome Z := match l with [] => Undefined | x :: _ => Ok x end.
Definition std_back (l : list Z) : outcome Z := match l with [] => Undefined | x :: _ => Ok (last l x) end.
Definition std_pop_front (l : list Z) : outcome (list Z) := match l with [] => Undefined | _ :: t => Ok t end.
Definition std_pop_back (l : list Z) : outcome (list Z) := match l with [] => Undefined | _ => Ok (removelast l) end.
Definition std_empty (l : list Z) : bool := match l with [] => true | _ => false end.

(** tests/deque_test.cc:21-63  one round of test<SIZE>(): state of the two queues and the generator *)
Definition deque_round (SIZE : Z) (s : list Z * deque Z * nat) : outcome (list Z * deque Z * nat) :=
  let '(ref, dut, p) := s in
  _ <- cassert (zlen ref =? deque_size dut) ;;
  let operation := dis 0 5 p in
  let p := S p in
  if operation =? 0 then
    _ <- cassert (Bool.eqb (std_empty ref) (deque_empty dut)) ;;
    _ <- (if negb (deque_empty dut) then a <- std_front ref ;; b <- deque_front dut ;; cassert (a =? b) else Ok tt) ;;
    Ok (ref, dut, p)
  else if operation =? 1 then
    _ <- cassert (Bool.eqb (std_empty ref) (deque_empty dut)) ;;
    _ <- (if negb (deque_empty dut) then a <- std_back ref ;; b <- deque_back dut ;; cassert (a =? b) else Ok tt) ;;
    Ok (ref, dut, p)
  else if operation =? 2 then
    for_loop (Z.to_nat (dis 0 (deque_size dut) p)) 0 (fun _ s => let '(ref, dut, p) := s in
      ref <- std_pop_front ref ;; dut <- deque_pop_front SIZE dut ;; Ok (ref, dut, p)) (ref, dut, S p)
  else if operation =? 3 then
    for_loop (Z.to_nat (dis 0 (deque_size dut) p)) 0 (fun _ s => let '(ref, dut, p) := s in
      ref <- std_pop_back ref ;; dut <- deque_pop_back SIZE dut ;; Ok (ref, dut, p)) (ref, dut, S p)
  else if operation =? 4 then
    for_loop (Z.to_nat (dis 0 (deque_max_size SIZE - deque_size dut) p)) 0 (fun _ s => let '(ref, dut, p) := s in
      let val := rs p in dut <- deque_push_front SIZE dut val ;; Ok (val :: ref, dut, S p)) (ref, dut, S p)
  else if operation =? 5 then
    for_loop (Z.to_nat (dis 0 (deque_max_size SIZE - deque_size dut) p)) 0 (fun _ s => let '(ref, dut, p) := s in
      let val := rs p in dut <- deque_push_back SIZE dut val ;; Ok (ref ++ [val], dut, S p)) (ref, dut, S p)
  else Ok (ref, dut, p).
(** tests/deque_test.cc:13-65  test<SIZE>(), the number of rounds (1000000) left open *)
Definition deque_test (SIZE : Z) (rounds : nat) : outcome unit :=
  _ <- for_loop rounds 0 (fun _ => deque_round SIZE) ([], deque_new SIZE, O) ;; Ok tt.

(** tests/movext_test.cc:15-34  test<SIZE>(); [val] is drawn from all of int *)
Definition movext_test (SIZE : Z) (rounds : nat) : outcome unit :=
  dut_min <- movext_new SIZE INT_MAX ;; dut_max <- movext_new SIZE INT_MIN ;;
  _ <- for_loop rounds 0 (fun _ s => let '(ref_min, dut_min, ref_max, dut_max, p) := s in
    let val := dis INT_MIN INT_MAX p in
    '(ref_min, a) <- swa_call Z.min SIZE ref_min val ;; '(dut_min, b) <- movext_call Z.eqb Z.ltb SIZE dut_min val ;;
    _ <- cassert (a =? b) ;;
    '(ref_max, a) <- swa_call Z.max SIZE ref_max val ;; '(dut_max, b) <- movext_call Z.eqb Z.gtb SIZE dut_max val ;;
    _ <- cassert (a =? b) ;;
    Ok (ref_min, dut_min, ref_max, dut_max, S p)) (swa_new SIZE INT_MAX, dut_min, swa_new SIZE INT_MIN, dut_max, O) ;;
  Ok tt.

(** for (int i = 0; i < size; ++i) a[i] = rand(); with rand() from lo..hi *)
Definition fill (lo hi size : Z) (a : list Z) (p : nat) : outcome (list Z * nat) :=
  for_loop (Z.to_nat size) 0 (fun i s => let '(a, p) := s in a <- set a i (dis lo hi p) ;; Ok (a, S p)) (a, p).
(** for (int i = lo; i < hi; ++i) assert(check(i)) *)
Definition all_checked (lo hi : Z) (check : Z -> outcome bool) : outcome unit :=
  for_loop (Z.to_nat (hi - lo)) lo (fun i _ => b <- check i ;; cassert b) tt.

(** tests/quick_sort_test.cc:25-32, with MAX_N and the number of rounds left open.  [a0] is what the
    uninitialised array happens to hold. *)
Definition sort_test (MAX_N : Z) (a0 : list Z) (rounds : nat) : outcome unit :=
  _ <- for_loop rounds 0 (fun _ s => let '(a, p) := s in
    let size := dis 0 MAX_N p in
    '(a, p) <- fill 0 MAX_N size a (S p) ;;
    a <- quick_sort Z.ltb Z.gtb a size ;;
    _ <- all_checked 1 size (fun i => x <- get a (i - 1) ;; y <- get a i ;; Ok (x <=? y)) ;;
    Ok (a, p)) (a0, O) ;; Ok tt.
(** tests/quick_select_test.cc:25-36 *)
Definition select_test (MAX_N : Z) (a0 : list Z) (rounds : nat) : outcome unit :=
  _ <- for_loop rounds 0 (fun _ s => let '(a, p) := s in
    let size := dis 1 MAX_N p in
    '(a, p) <- fill 1 MAX_N size a (S p) ;;
    let k := dis 1 MAX_N p mod size in
    '(a, v) <- quick_select Z.ltb Z.gtb a k size ;;
    ak <- get a k ;;
    _ <- cassert (v =? ak) ;;
    _ <- all_checked 0 k (fun i => x <- get a i ;; Ok (x <=? ak)) ;;
    _ <- all_checked (k + 1) size (fun i => x <- get a i ;; Ok (ak <=? x)) ;;
    Ok (a, S p)) (a0, O) ;; Ok tt.
End Random.

(** tests/deque_test.cc:67-86  the fixed sequence in main *)
Definition deque_main : outcome unit :=
  let dut := deque_new 1 in
  _ <- cassert (deque_empty dut) ;; _ <- cassert (negb (deque_full 1 dut)) ;;
  _ <- cassert (deque_size dut =? 0) ;; _ <- cassert (deque_max_size 1 =? 1) ;;
  dut <- deque_push_front 1 dut 42 ;;
  _ <- cassert (deque_full 1 dut) ;; _ <- cassert (deque_size dut =? 1) ;;
  v <- deque_front dut ;; _ <- cassert (v =? 42) ;; v <- deque_back dut ;; _ <- cassert (v =? 42) ;;
  dut <- deque_pop_back 1 dut ;;
  _ <- cassert (deque_empty dut) ;;
  dut <- deque_push_back 1 dut 42 ;;
  _ <- cassert (deque_full 1 dut) ;; _ <- cassert (deque_size dut =? 1) ;;
  v <- deque_front dut ;; _ <- cassert (v =? 42) ;; v <- deque_back dut ;; _ <- cassert (v =? 42) ;;
  _ <- deque_pop_front 1 dut ;; Ok tt.

(** tests/kahan_test.cc:11-20; [pi] is Const<T>::Pi().  [fuel] bounds the number of turns of the loop. *)
Section KahanTest.
Context {T : Type} (N : num T) (pi : T).
Notation i2 := (nofZ N).
Fixpoint kahan_loop (fuel : nat) (i : T) (k : kahan T) : outcome (kahan T) :=
  if nltb N i (i2 181423) then
    match fuel with
    | O => NoFuel
    | S f =>
        let call k x := fst (kahan_call (nadd N) (nsub N) k x) in
        let k := call k (ndiv N (i2 4) (nmul N (nmul N i (nadd N i (i2 1))) (nadd N i (i2 2)))) in
        let k := call k (ndiv N (i2 (-4)) (nmul N (nmul N (nadd N i (i2 2)) (nadd N i (i2 3))) (nadd N i (i2 4)))) in
        kahan_loop f (nadd N i (i2 4)) k
    end
  else Ok k.
Definition kahan_test (fuel : nat) : outcome bool :=
  k <- kahan_loop fuel (i2 2) (kahan_new (i2 0) (i2 3)) ;; Ok (neqb N (kahan_value k) pi).
End KahanTest.

(** conversion of a floating point value, already a whole number, to the signed integer type of BITS bits *)
Definition to_int (BITS v : Z) : outcome Z :=
  if (- 2 ^ (BITS - 1) <=? v) && (v <? 2 ^ (BITS - 1)) then Ok v else Undefined.
(** tests/cordic_test.cc:14-24  test<TYPE>(), BYTES = sizeof(TYPE), with doubles rounded by [rnd]; nearbyint rounds to
    the nearest integer, ties to even *)
Definition cordic_test (rnd : R -> R) (BYTES : Z) : outcome unit :=
  let N := 2 ^ (8 * BYTES) in
  let D := Fn rnd in
  for_loop (Z.to_nat N) (- N / 2) (fun n _ =>
    c <- uc_cos D n N ;; s <- uc_sin D n N ;;
    x <- to_int (8 * BYTES) (ZnearestE (nmul D (nofZ D (N / 2 - 1)) c)) ;;
    y <- to_int (8 * BYTES) (ZnearestE (nmul D (nofZ D (N / 2 - 1)) s)) ;;
    a <- cordic_atan2 BYTES y x ;;
    cassert (Z.abs (a - n) <=? 1)) tt.

(** tests/atan2_test.cc:14-27  test<TYPE, PRECISE>(MAX).  [P] is the arithmetic of PRECISE, TYPE rounds by [rT] and has
    epsilon [eps].  The sign bit of y is that of its value: the only zero y is that of n = 0, which comes from
    0 * N and is positive. *)
Definition atan2_test (rT : R -> R) (eps : R) (P : num R) (MAX : Z) : outcome unit :=
  for_loop (Z.to_nat MAX) 1 (fun N _ =>
    for_loop (Z.to_nat (N / 2 - (1 - N / 2))) (1 - N / 2) (fun n _ =>
      x <- uc_cos P n N ;; y <- uc_sin P n N ;;
      let a := atan2 (Fn rT) (Rlt_bool (rT y) 0) (rT y) (rT x) in
      let b := ndiv P (nmul P (TwoPi P) (nofZ P n)) (nofZ P N) in
      let e := nabs P (nsub P a b) in
      cassert (nltb P e (nmul (Fn rT) (nofZ (Fn rT) 10) eps))) tt) tt.

(** long double (x87): 64 bits of precision.  The literals of const.hh are of type long double, those of unit_circle.hh
    are rounded to double first; TwoPi is the only one of the former that UnitCircle and the test use. *)
Definition rnd80 : R -> R := round radix2 (FLT_exp (-16445) 64) ZnearestE.
Definition Ln : num R := {|
  n0 := 0%R; n1 := 1%R;
  nadd := nadd (Fn rnd80); nsub := nsub (Fn rnd80); nmul := nmul (Fn rnd80); ndiv := ndiv (Fn rnd80);
  nopp := Ropp; nabs := Rabs; nsqrt := nsqrt (Fn rnd80);
  nofZ := nofZ (Fn rnd80);
  nlit := fun x => if Req_bool x TwoPi_lit then rnd80 x else rnd80 (round radix2 (FLT_exp (-1074) 53) ZnearestE x);
  nltb := Rlt_bool; nleb := Rle_bool; neqb := Req_bool |}.
