(* Model of /repo/sma.hh over an arbitrary type with + - and a normalisation [/ VALUE(NUM)] *)
From Verif Require Export Model.Base Model.Delay Model.Swa Model.Kahan.
Open Scope Z_scope.

Section Sma.
Context {A : Type} (zero : A) (add sub : A -> A -> A) (opp : A -> A) (div_num : A -> A) (NUM : Z).

(** sma.hh:18-20  SMA1: TYPE hist_inp[NUM]; TYPE hist_avg; int hist_pos; *)
Record sma1 := mkSma1 { s1_inp : list A; s1_avg : A; s1_pos : Z }.

(** sma.hh:22-26  SMA1() *)
Definition sma1_new : sma1 := mkSma1 (repeat zero (Z.to_nat NUM)) zero 0.

(** sma.hh:34-43  SMA1::operator() *)
Definition sma1_call (s : sma1) (input : A) : outcome (sma1 * A) :=
  h <- set (s1_inp s) (s1_pos s) input ;;
  let pos := s1_pos s + 1 in
  let pos := if NUM <=? pos then 0 else pos in
  h0 <- get h 0 ;;
  sum <- for_loop (Z.to_nat (NUM - 1)) 1 (fun i sum => v <- get h i ;; Ok (add sum v)) h0 ;;
  let avg := div_num sum in
  Ok (mkSma1 h avg pos, avg).

(** sma.hh:27-33  SMA1::abs_dev(), [abs] is TYPE's absolute value (VALUE = TYPE) *)
Definition sma1_abs_dev (abs : A -> A) (s : sma1) : outcome A :=
  h0 <- get (s1_inp s) 0 ;;
  sum <- for_loop (Z.to_nat (NUM - 1)) 1
    (fun i sum => v <- get (s1_inp s) i ;; Ok (add sum (abs (sub v (s1_avg s))))) (abs (sub h0 (s1_avg s))) ;;
  Ok (div_num sum).

(** sma.hh:49-50  SMA2: Delay<TYPE, NUM> delay; TYPE sum; *)
Record sma2 := mkSma2 { s2_delay : delay A; s2_sum : A }.
(** sma.hh:52-54 *)
Definition sma2_new : sma2 := mkSma2 (delay_new NUM zero) zero.
(** sma.hh:55-61  sum += input - delay(input); NORM ? sum / VALUE(NUM) : sum *)
Definition sma2_call (norm : bool) (s : sma2) (input : A) : outcome (sma2 * A) :=
  '(d, old) <- delay_call NUM (s2_delay s) input ;;
  let sum := add (s2_sum s) (sub input old) in
  Ok (mkSma2 d sum, if norm then div_num sum else sum).

(** sma.hh:67-68  SMA3: Delay<TYPE, NUM> delay; Kahan<TYPE> sum; *)
Record sma3 := mkSma3 { s3_delay : delay A; s3_sum : kahan A }.
(** sma.hh:70-72 *)
Definition sma3_new : sma3 := mkSma3 (delay_new NUM zero) (kahan_new zero zero).
(** sma.hh:73-79  sum(-delay(input)); NORM ? sum(input) / VALUE(NUM) : sum(input) *)
Definition sma3_call (norm : bool) (s : sma3) (input : A) : outcome (sma3 * A) :=
  '(d, old) <- delay_call NUM (s3_delay s) input ;;
  let '(k, _) := kahan_call add sub (s3_sum s) (opp old) in
  let '(k, v) := kahan_call add sub k input in
  Ok (mkSma3 d k, if norm then div_num v else v).

(** sma.hh:85  SMA4: SWA<TYPE, std::plus<TYPE>, NUM> swa; 87-89 swa(0) *)
Definition sma4_new : swa A := swa_new NUM zero.
(** sma.hh:90-95 *)
Definition sma4_call (norm : bool) (s : swa A) (input : A) : outcome (swa A * A) :=
  '(s', v) <- swa_call add NUM s input ;;
  Ok (s', if norm then div_num v else v).
End Sma.
Arguments mkSma1 {A}. Arguments mkSma2 {A}. Arguments mkSma3 {A}.
Arguments s1_inp {A}. Arguments s1_avg {A}. Arguments s1_pos {A}.
Arguments s2_delay {A}. Arguments s2_sum {A}.
Arguments s3_delay {A}. Arguments s3_sum {A}.

(** sma.hh:55-61 with TYPE = int (32 bit, signed overflow is undefined), NORM = false:
    [input - delay(input)] is evaluated in int first, then added to [sum]. *)
Definition sma2_int_call (NUM : Z) (s : sma2 (A := Z)) (input : Z) : outcome (sma2 (A := Z) * Z) :=
  '(d, old) <- delay_call NUM (s2_delay s) input ;;
  diff <- ichk (input - old) ;;
  sum <- ichk (s2_sum s + diff) ;;
  Ok (mkSma2 d sum, sum).
