(* Model of /repo/resampler.hh *)
From Coq Require Import Reals ZArith.
From Flocq Require Import Core.
From Verif Require Export Model.Utils Model.WinFun Model.Spline Model.OSignal.
Open Scope Z_scope.

(** nearbyint in the default rounding mode *)
Definition Rnearby (x : R) : R := IZR (ZnearestE x).

Record resampler (T V : Type) := mkResampler { rs_lpf : spline T T; rs_rate : T; rs_dpos : T; rs_buf : list V }.
Arguments mkResampler {T V}. Arguments rs_lpf {T V}. Arguments rs_rate {T V}. Arguments rs_dpos {T V}. Arguments rs_buf {T V}.

(** TYPE is double here (the code computes ratio and x in double whatever TYPE is); IO is TYPE or Complex<TYPE> *)
Section Resampler.
Context {T V : Type} (M : num T) (VS : vsp T V) (sinf : T -> T) (toint : T -> outcome Z) (nearby : T -> T).
Variables (TAPS OVER : Z).
(** resampler.hh:27-30, 67-70: tmp[n] *)
Definition rs_tap (rate cutoff alpha : T) (n : Z) : outcome T :=
  let x := nsub M (ndiv M (nofZ M n) (nofZ M OVER)) (ndiv M (nofZ M (TAPS - 1)) (nofZ M 2)) in
  let f := ndiv M (nmul M (nofZ M 2) cutoff) rate in
  let y := nmul M f (sinc M sinf (nmul M f x)) in
  w <- win_kaiser M alpha n (TAPS * OVER) ;; Ok (nmul M y w).
(** resampler.hh:24-32, 64-72 *)
Definition rs_new_lpf (rate cutoff alpha : T) : outcome (spline T T) :=
  tmp <- ofill (rs_tap rate cutoff alpha) (Z.to_nat (TAPS * OVER)) 0 ;;
  spl_new M (oreal M) (TAPS * OVER) tmp (nofZ M 0) (ndiv M (nlit M 1.0) (nofZ M OVER)) 1.
(** lpf(k) *)
Definition rs_filter (lpf : spline T T) (k : T) : outcome T := spl_at M (oreal M) toint (TAPS * OVER) lpf k.

(** resampler.hh:34-51  Resampler::operator(); input and output are different arrays *)
Definition rs_call (lpf : spline T T) (rate : T) (output input : list V) (diff : T) (samples stride : Z) : outcome (list V) :=
  let ratio := ndiv M rate (nadd M rate diff) in
  n <- ichk (samples - TAPS) ;;
  for_loop (Z.to_nat n) 0 (fun i output =>
    let x := nmul M (nofZ M i) ratio in
    s0 <- toint (nearby x) ;;
    s1 <- ichk (s0 + TAPS) ;;
    if (s0 <? 0) || (samples <? s1) then Ok output
    else
      sum <- for_loop (Z.to_nat (s1 - s0)) s0 (fun s sum =>
        v <- rs_filter lpf (nsub M (nofZ M s) x) ;;
        j <- ichk (s * stride) ;; a <- get input j ;;
        Ok (vadd VS sum (vscale VS v a))) (v0 VS) ;;
      o <- ichk ((i + (TAPS - 1) / 2) * stride) ;;
      set output o sum) output.

(** resampler.hh:63-75  Resampler2 *)
Definition rs2_new (rate cutoff alpha : T) : outcome (resampler T V) :=
  lpf <- rs_new_lpf rate cutoff alpha ;;
  Ok (mkResampler lpf rate (nofZ M 0) (repeat (v0 VS) (Z.to_nat TAPS))).
(** resampler.hh:87-97: from the label [again]; [fuel] bounds the number of jumps back to it *)
Fixpoint rs2_again (fuel : nat) (lpf : spline T T) (buf : list V) (delta dpos : T) (output : list V) (samples : Z) : outcome (T * list V * Z) :=
  sum <- for_loop (Z.to_nat TAPS) 0 (fun s sum =>
    v <- rs_filter lpf (nadd M (nofZ M s) dpos) ;; a <- get buf s ;;
    Ok (vadd VS sum (vscale VS v a))) (v0 VS) ;;
  output <- set output samples sum ;;
  samples <- ichk (samples + 1) ;;
  let dpos := nadd M dpos delta in
  if nltb M (nlit M 0.5) dpos then
    match fuel with
    | O => NoFuel
    | S f => rs2_again f lpf buf delta (nsub M dpos (nofZ M 1)) output samples
    end
  else Ok (dpos, output, samples).
(** resampler.hh:76-99: new state, output array, returned count *)
Definition rs2_call (fuel : nat) (s : resampler T V) (output : list V) (input : V) (diff : T) : outcome (resampler T V * (list V * Z)) :=
  buf <- shift_in TAPS (rs_buf s) input ;;
  if nltb M (rs_dpos s) (nlit M (-0.5)) then
    Ok (mkResampler (rs_lpf s) (rs_rate s) (nadd M (rs_dpos s) (nofZ M 1)) buf, (output, 0))
  else
    '(dpos, output, samples) <- rs2_again fuel (rs_lpf s) buf (ndiv M diff (rs_rate s)) (rs_dpos s) output 0 ;;
    Ok (mkResampler (rs_lpf s) (rs_rate s) dpos buf, (output, samples)).
(** one call per sample, each with its own rate difference and the output buffer [ob]: the values written.
    Not in /repo: the loop of a caller *)
Definition rs2_step (fuel : nat) (ob : list V) (s : resampler T V) (i : V * T) : outcome (resampler T V * list V) :=
  '(s', (o, m)) <- rs2_call fuel s ob (fst i) (snd i) ;; Ok (s', firstn (Z.to_nat m) o).
End Resampler.
