(* C05, C06 SWA; C07, C08 MovExt; C09, C10 SMA; C11 Kahan *)
From Coq Require Import Reals Lra.
From Flocq Require Import Core IEEE754.Bits IEEE754.BinarySingleNaN.
From Verif Require Import Proofs.BaseLemmas Proofs.ContainerProofs Proofs.SwaProofs Proofs.MovExtProofs
  Proofs.SmaProofs Proofs.WindowInst Spec.Containers Spec.Reduce Spec.Sums
  Model.Swa Model.MovExt Model.Kahan Model.Sma Proofs.KahanFloat.
Open Scope Z_scope.

(** C05: every call of SWA<TYPE,OP,NUM>(ident) returns the OP-reduction of the last NUM inputs
    (padded with ident). *)
Theorem C05_swa_reduces_window :
  forall (A : Type) (op : A -> A -> A) (NUM : Z), 0 < NUM ->
  (forall a b c, op a (op b c) = op (op a b) c) ->
  (forall a b, op a b = op b a) ->
  forall ident, op ident ident = ident ->
  forall xs, observe (run (swa_call op NUM) (swa_new NUM ident) xs)
    = Ok (map (fun h => reduce op ident (window (Z.to_nat NUM) ident h)) (prefixes xs)).
Proof.
  intros A op NUM H Ha Hc ident Hi xs.
  destruct (swa_run_inv op NUM H Ha Hc ident Hi xs) as (s & E & _). exact (f_equal observe E).
Qed.
Print Assumptions C05_swa_reduces_window.

Example C05_example :
  observe (run (swa_call Z.add 5) (swa_new 5 0) [1; 2; 3; 4; 5; 6; 7])
  = Ok [1; 3; 6; 10; 15; 20; 25].
Proof. reflexivity. Qed.

(** C06: for ANY operation the returned value only depends on the last NUM inputs and on the
    number of calls modulo NUM. *)
Theorem C06_swa_no_drift :
  forall (A : Type) (op : A -> A -> A) (NUM : Z), 0 < NUM ->
  forall (ident d : A) (xs ys : list A),
    NUM <= zlen xs -> NUM <= zlen ys -> zlen xs mod NUM = zlen ys mod NUM ->
    lastn (Z.to_nat NUM) xs = lastn (Z.to_nat NUM) ys ->
    exists o1 o2,
      observe (run (swa_call op NUM) (swa_new NUM ident) xs) = Ok o1 /\
      observe (run (swa_call op NUM) (swa_new NUM ident) ys) = Ok o2 /\
      length o1 = length xs /\ length o2 = length ys /\ last o1 d = last o2 d.
Proof. exact @swa_no_drift. Qed.
Print Assumptions C06_swa_no_drift.

(** A non-associative, non-commutative operation: two different pasts, same last 3 inputs. *)
Example C06_example :
  let op a b := a - 2 * b in
  let f xs := match observe (run (swa_call op 3) (swa_new 3 100) xs) with Ok o => last o 0 | _ => 0 end in
  f [5; 1; 4; 9] = f [-7; 3; 8; 12; 1; 4; 9] /\ f [5; 1; 4; 9] <> f [-7; 3; 8; 1; 4; 9].
Proof. split; [reflexivity|discriminate]. Qed.

(** C07: MovExt over any strict weak order [comp] with [==] meaning incomparable: every call returns
    one of the last min(t, NUM) inputs that no other of them beats, provided init is beaten by or
    equivalent to everything.  (All stack operations succeed: the outcome is Ok.) *)
Theorem C07_movext_is_window_extremum :
  forall (A : Type) (comp : A -> A -> bool),
  (forall a, comp a a = false) ->
  (forall a b c, comp a b = true -> comp b c = true -> comp a c = true) ->
  (forall a b c, comp a b = true -> comp a c = true \/ comp c b = true) ->
  forall NUM, 0 < NUM ->
  forall init, (forall y, comp init y = false) ->
  forall xs, exists m vs,
    movext_run (fun a b => negb (comp a b) && negb (comp b a)) comp NUM init xs = Ok (m, vs) /\
    length vs = length xs /\
    forall t v, nth_error vs t = Some v ->
      In v (lastn (Z.to_nat NUM) (firstn (S t) xs)) /\
      forall y, In y (lastn (Z.to_nat NUM) (firstn (S t) xs)) -> comp y v = false.
Proof.
  intros A comp H1 H2 H3 NUM Hn init Hw xs.
  exact (@movext_run_ok A comp H1 H2 H3 NUM Hn init (fun _ => True) xs (or_intror (fun y _ => Hw y)) (fun _ _ => I)).
Qed.
Print Assumptions C07_movext_is_window_extremum.

(** C07, second case: an arbitrary init is harmless as long as no input equals it. *)
Theorem C07_movext_is_window_extremum_fresh_init :
  forall (A : Type) (comp : A -> A -> bool),
  (forall a, comp a a = false) ->
  (forall a b c, comp a b = true -> comp b c = true -> comp a c = true) ->
  (forall a b c, comp a b = true -> comp a c = true \/ comp c b = true) ->
  forall NUM, 0 < NUM ->
  forall init xs, (forall y, In y xs -> negb (comp init y) && negb (comp y init) = false) ->
  exists m vs,
    movext_run (fun a b => negb (comp a b) && negb (comp b a)) comp NUM init xs = Ok (m, vs) /\
    length vs = length xs /\
    forall t v, nth_error vs t = Some v ->
      In v (lastn (Z.to_nat NUM) (firstn (S t) xs)) /\
      forall y, In y (lastn (Z.to_nat NUM) (firstn (S t) xs)) -> comp y v = false.
Proof.
  intros A comp H1 H2 H3 NUM Hn init xs Hw.
  exact (@movext_run_ok A comp H1 H2 H3 NUM Hn init (fun _ => True) xs (or_introl Hw) (fun _ _ => I)).
Qed.
Print Assumptions C07_movext_is_window_extremum_fresh_init.

(** C07 for MovMin<int,NUM> and MovMax<int,NUM> themselves. *)
Theorem C07_movmin_int :
  forall NUM xs, 0 < NUM -> (forall x, In x xs -> INT_MIN <= x <= INT_MAX) ->
  exists m vs, movmin_int NUM xs = Ok (m, vs) /\ length vs = length xs /\
    forall t v, nth_error vs t = Some v ->
      In v (lastn (Z.to_nat NUM) (firstn (S t) xs)) /\
      forall y, In y (lastn (Z.to_nat NUM) (firstn (S t) xs)) -> v <= y.
Proof. exact movmin_int_ok. Qed.
Print Assumptions C07_movmin_int.

Theorem C07_movmax_int :
  forall NUM xs, 0 < NUM -> (forall x, In x xs -> INT_MIN <= x <= INT_MAX) ->
  exists m vs, movmax_int NUM xs = Ok (m, vs) /\ length vs = length xs /\
    forall t v, nth_error vs t = Some v ->
      In v (lastn (Z.to_nat NUM) (firstn (S t) xs)) /\
      forall y, In y (lastn (Z.to_nat NUM) (firstn (S t) xs)) -> y <= v.
Proof. exact movmax_int_ok. Qed.
Print Assumptions C07_movmax_int.

Example C07_example :
  observe (movmin_int 3 [5; 2; 4; 4; 7; INT_MAX; INT_MAX; INT_MAX; 1])
  = Ok [5; 2; 2; 2; 4; 4; 7; INT_MAX; 1].
Proof. reflexivity. Qed.

(** C08 refuted: with an init that is not the worst value MovExt loses window elements.
    Min over 3 values, init 5, inputs 5 7: the second answer is 7 although 5 is in the window. *)
Theorem C08_movext_arbitrary_init_refuted :
  exists (NUM init : Z) (xs : list Z) vs,
    0 < NUM /\
    observe (movext_run Z.eqb Z.ltb NUM init xs) = Ok vs /\
    (exists t v, nth_error vs t = Some v /\
       (exists y, In y (window (Z.to_nat NUM) init (firstn (S t) xs)) /\ y < v) /\
       (exists y, In y (lastn (Z.to_nat NUM) (firstn (S t) xs)) /\ y < v)).
Proof.
  exists 3, 5, [5; 7], [5; 7]. split; [reflexivity|]. split; [reflexivity|].
  exists 1%nat, 7. split; [reflexivity|]. split; exists 5; (split; [vm_compute; auto|reflexivity]).
Qed.
Print Assumptions C08_movext_arbitrary_init_refuted.

(** C08 refuted for MovMax with the init numeric_limits<float>::min(), i.e. the smallest positive
    normal number (here in units of it: init = 1): inputs 1, -1 answer -1 while 1 is in the window. *)
Theorem C08_movmax_float_min_refuted :
  exists vs, observe (movext_run Z.eqb Z.gtb 2 1 [1; -1]) = Ok vs /\ last vs 0 = -1 /\ In 1 (lastn 2 [1; -1]).
Proof. exists [1; -1]. split; [reflexivity|]. split; [reflexivity|]. left; reflexivity. Qed.
Print Assumptions C08_movmax_float_min_refuted.

(** C09: all four moving averages return the mean (sum for NORM=false) of the zero padded window,
    over R; abs_dev is the mean absolute deviation from that mean. *)
Theorem C09_sma1_mean_and_abs_dev :
  forall NUM (xs : list R), 0 < NUM ->
  exists s, run (sma1_call Rplus (fun x => x / IZR NUM)%R NUM) (sma1_new 0%R NUM) xs
    = Ok (s, map (fun h => Rmean (window (Z.to_nat NUM) 0%R h)) (prefixes xs)) /\
    (xs <> [] -> let w := window (Z.to_nat NUM) 0%R xs in
      sma1_abs_dev Rplus Rminus (fun x => x / IZR NUM)%R NUM Rabs s
      = Ok (Rmean (map (fun v => Rabs (v - Rmean w)) w))).
Proof. exact sma1_real. Qed.
Print Assumptions C09_sma1_mean_and_abs_dev.

Theorem C09_sma2_mean :
  forall NUM norm (xs : list R), 0 < NUM ->
    observe (run (sma2_call Rplus Rminus (fun x => x / IZR NUM)%R NUM norm) (sma2_new 0%R NUM) xs)
    = Ok (map (fun h => let w := window (Z.to_nat NUM) 0%R h in if norm then Rmean w else Rsum w) (prefixes xs)).
Proof. exact sma2_real. Qed.
Print Assumptions C09_sma2_mean.

Theorem C09_sma3_mean :
  forall NUM norm (xs : list R), 0 < NUM ->
    observe (run (sma3_call Rplus Rminus Ropp (fun x => x / IZR NUM)%R NUM norm) (sma3_new 0%R NUM) xs)
    = Ok (map (fun h => let w := window (Z.to_nat NUM) 0%R h in if norm then Rmean w else Rsum w) (prefixes xs)).
Proof. exact sma3_real. Qed.
Print Assumptions C09_sma3_mean.

Theorem C09_sma4_mean :
  forall NUM norm (xs : list R), 0 < NUM ->
    observe (run (sma4_call Rplus (fun x => x / IZR NUM)%R NUM norm) (sma4_new 0%R NUM) xs)
    = Ok (map (fun h => let w := window (Z.to_nat NUM) 0%R h in if norm then Rmean w else Rsum w) (prefixes xs)).
Proof. exact sma4_real. Qed.
Print Assumptions C09_sma4_mean.

(** Non-vacuity: the spec on a concrete history, window of 2 over [1; 2; 4]. *)
Example C09_example :
  map (fun h => Rmean (window (Z.to_nat 2) 0%R h)) (prefixes [1; 2; 4]%R) = [1/2; 3/2; 3]%R.
Proof.
  change (map (fun h => Rmean (window (Z.to_nat 2) 0%R h)) (prefixes [1; 2; 4]%R))
    with [Rmean [0; 1]; Rmean [1; 2]; Rmean [2; 4]]%R.
  unfold Rmean, Rsum, gsum. cbn [length fold_right INR]. repeat (f_equal; try lra).
Qed.

(** C06 for SMA4, any addition and any normalisation (so also rounding floating point). *)
Theorem C06_sma4_no_drift :
  forall (A : Type) (add : A -> A -> A) (div : A -> A) (NUM : Z) (norm : bool) (zero d : A) (xs ys : list A),
    0 < NUM ->
    NUM <= zlen xs -> NUM <= zlen ys -> zlen xs mod NUM = zlen ys mod NUM ->
    lastn (Z.to_nat NUM) xs = lastn (Z.to_nat NUM) ys ->
    exists o1 o2,
      observe (run (sma4_call add div NUM norm) (sma4_new zero NUM) xs) = Ok o1 /\
      observe (run (sma4_call add div NUM norm) (sma4_new zero NUM) ys) = Ok o2 /\
      length o1 = length xs /\ length o2 = length ys /\ last o1 d = last o2 d.
Proof. exact @sma4_no_drift. Qed.
Print Assumptions C06_sma4_no_drift.

(** C10: with w-bit wrapping arithmetic (unsigned or two's complement) SMA2 with NORM=false equals the
    exact window sum modulo 2^w for ever, whatever wrapped in between. *)
Theorem C10_sma2_unsigned_wrapping :
  forall (w : Z), 0 < w -> forall NUM, 0 < NUM -> forall xs,
    exists s, run (sma2_call (fun a b => uwrap w (a + b)) (fun a b => uwrap w (a - b)) (fun v => v) NUM false)
      (sma2_new 0 NUM) xs
    = Ok (s, map (fun h => uwrap w (Zsum (window (Z.to_nat NUM) 0 h))) (prefixes xs)).
Proof.
  exact (fun w _ NUM Hn xs => sma2_wrap_run w NUM Hn (uwrap w) (uwrap_id w) (fun a b H => H) xs).
Qed.
Print Assumptions C10_sma2_unsigned_wrapping.

Theorem C10_sma2_signed_wrapping :
  forall (w : Z), 0 < w -> forall NUM, 0 < NUM -> forall xs,
    exists s, run (sma2_call (fun a b => swrap w (a + b)) (fun a b => swrap w (a - b)) (fun v => v) NUM false)
      (sma2_new 0 NUM) xs
    = Ok (s, map (fun h => swrap w (Zsum (window (Z.to_nat NUM) 0 h))) (prefixes xs)).
Proof.
  exact (fun w _ NUM Hn xs => sma2_wrap_run w NUM Hn (swrap w) (swrap_uwrap w) (swrap_congr w) xs).
Qed.
Print Assumptions C10_sma2_signed_wrapping.

(** C10: plain signed int.  No undefined behaviour and the exact sum, if every difference
    input - oldest and every window sum is representable. *)
Theorem C10_sma2_int_exact :
  forall NUM, 0 < NUM -> forall xs,
  (forall h x, (exists r, xs = h ++ x :: r) ->
     INT_MIN <= x - hd 0 (window (Z.to_nat NUM) 0 h) <= INT_MAX /\
     INT_MIN <= Zsum (window (Z.to_nat NUM) 0 (h ++ [x])) <= INT_MAX) ->
  observe (run (sma2_int_call NUM) (sma2_new 0 NUM) xs)
  = Ok (map (fun h => Zsum (window (Z.to_nat NUM) 0 h)) (prefixes xs)).
Proof. exact sma2_int_run. Qed.
Print Assumptions C10_sma2_int_exact.

Example C10_example :
  observe (run (sma2_int_call 2) (sma2_new 0 2) [1000000000; 100; -1000000000; 5]) =
    Ok [1000000000; 1000000100; -999999900; -999999995].
Proof. reflexivity. Qed.

(** The condition on the differences is needed: all window sums fit, yet the code overflows. *)
Theorem C10_sma2_int_difference_overflow_refuted :
  exists NUM xs, 0 < NUM /\
    (forall h x, (exists r, xs = h ++ x :: r) ->
       INT_MIN <= Zsum (window (Z.to_nat NUM) 0 (h ++ [x])) <= INT_MAX) /\
    observe (run (sma2_int_call NUM) (sma2_new 0 NUM) xs) = Undefined.
Proof.
  exists 1, [INT_MIN; INT_MAX]. split; [reflexivity|]. split; [|reflexivity].
  intros h x (r & E). destruct h as [|a [|b h]]; cbn in E.
  - injection E as <- _. split; vm_compute; discriminate.
  - injection E as <- <- _. split; vm_compute; discriminate.
  - exfalso. injection E as _ _ E. destruct h; discriminate.
Qed.
Print Assumptions C10_sma2_int_difference_overflow_refuted.

(** C11, exact arithmetic: the accumulated value is init plus the sum of the inputs and the
    compensation is zero. *)
Theorem C11_kahan_exact :
  forall (xs : list R) (init : R),
    fold_left (fun k x => fst (kahan_call Rplus Rminus k x)) xs (kahan_new 0%R init)
    = mkKahan (init + Rsum xs)%R 0%R.
Proof. exact kahan_real. Qed.
Print Assumptions C11_kahan_exact.

(** C11: kahan_sum folds the whole range exactly once. *)
Theorem C11_kahan_sum_exact :
  forall (xs : list R) (init : R), kahan_sum 0%R Rplus Rminus xs init = (init + Rsum xs)%R.
Proof. intros xs init. exact (f_equal k_high (kahan_real xs init)). Qed.
Print Assumptions C11_kahan_sum_exact.

(** C11: same() feeds the input and returns true iff the state did not change (any arithmetic). *)
Theorem C11_kahan_same :
  forall (A : Type) (eqb : A -> A -> bool) (add sub : A -> A -> A),
  (forall a b, eqb a b = true <-> a = b) ->
  forall k x, let '(k', b) := kahan_same add sub eqb k x in
    k' = fst (kahan_call add sub k x) /\ (b = true <-> k' = k).
Proof. exact @kahan_same_iff. Qed.
Print Assumptions C11_kahan_same.

(** C11, floating point: with every addition and subtraction rounded to nearest even in a format
    with [prec] >= 10 bits and gradual underflow (overflow is not modelled) the error of
    kahan_sum is bounded by (5u + 12 n u^2) times the sum of the magnitudes, u = 2^-prec — to first
    order independent of the number n of values — as long as n u <= 1. *)
Theorem C11_kahan_float_error :
  forall (emin prec : Z) (init : R) (xs : list R), 10 <= prec ->
  FLTfmt emin prec init -> Forall (FLTfmt emin prec) xs ->
  (INR (length xs) * ulp_u prec <= 1)%R ->
  (Rabs (kahan_sum 0 (fun x y => FLTrnd emin prec (x + y)) (fun x y => FLTrnd emin prec (x - y)) xs init
         - (init + Rsum xs))
   <= (5 * ulp_u prec + 12 * INR (length xs) * ulp_u prec ^ 2) * (Rabs init + Rsum (map Rabs xs)))%R.
Proof. intros emin prec init xs Hp Hi Hx Hn. exact (kahan_FLT emin prec init xs Hp Hi Hx Hn). Qed.
Print Assumptions C11_kahan_float_error.

(** the hypotheses are met in single precision by 2^24 and a list of ones *)
Example C11_float_example :
  FLTfmt (-149) 24 16777216 /\ Forall (FLTfmt (-149) 24) [1; 1; 1]%R /\
  (INR (length [1; 1; 1]%R) * ulp_u 24 <= 1)%R.
Proof.
  assert (G : forall m, Z.abs m < 2 ^ 24 -> forall e, -149 <= e ->
    FLTfmt (-149) 24 (IZR m * Raux.bpow Zaux.radix2 e)%R).
  { intros m Hm e He. apply FLT.generic_format_FLT. exists (Defs.Float Zaux.radix2 m e); auto. }
  splits.
  - replace 16777216%R with (IZR 1 * Raux.bpow Zaux.radix2 24)%R by (simpl; lra). apply G; [reflexivity|lia].
  - repeat constructor; replace 1%R with (IZR 1 * Raux.bpow Zaux.radix2 0)%R by (simpl; lra); apply G; reflexivity || lia.
  - unfold ulp_u. simpl. lra.
Qed.
(** and in IEEE single precision 2^24 + 1 + 1 is exact, where naive summation returns 2^24 *)
Example C11_float_run :
  let fl := fun z => Bits.b32_of_bits z in
  let add := Bits.b32_plus BinarySingleNaN.mode_NE in let sub := Bits.b32_minus BinarySingleNaN.mode_NE in
  let one := fl 1065353216 in let big := fl 1266679808 in
  Bits.bits_of_b32 (kahan_sum (fl 0) add sub [one; one] big) = 1266679809 /\
  Bits.bits_of_b32 (fold_left add [one; one] big) = 1266679808.
Proof. split; vm_compute; reflexivity. Qed.
