(* Model of /repo/cdc.hh and /repo/hilbert.hh *)
From Coq Require Import ZArith.
From Verif Require Export Model.OSignal Model.WinFun Model.FirFun Model.Complex.
Open Scope Z_scope.

(** cdc.hh:20-24 *)
Record cdc (T : Type) := mkCdc { cd_real : list T; cd_imag : list T; cd_imco : list T; cd_reco : T; cd_sign : bool }.
Arguments mkCdc {T}. Arguments cd_real {T}. Arguments cd_imag {T}. Arguments cd_imco {T}. Arguments cd_reco {T}. Arguments cd_sign {T}.
(** hilbert.hh:19-21 *)
Record hilbert (T : Type) := mkHilbert { hb_real : list T; hb_imco : list T; hb_reco : T }.
Arguments mkHilbert {T}. Arguments hb_real {T}. Arguments hb_imco {T}. Arguments hb_reco {T}.

Section Cdc.
Context {T : Type} (M : num T) (U : ptrig T) (TAPS : Z).
Local Notation "a + b" := (nadd M a b) : T_scope.
Local Notation "a - b" := (nsub M a b) : T_scope.
Local Notation "a * b" := (nmul M a b) : T_scope.
Local Notation "a / b" := (ndiv M a b) : T_scope.
(** (TAPS-1)/4 and (TAPS-1)/2, TAPS >= 1 *)
Definition quarter : Z := (TAPS - 1) / 4.
Definition half : Z := (TAPS - 1) / 2.

(** cdc.hh:26-37  win(n, TAPS) * hbf(n, TAPS) with hbf = LowPass2(1, 4); TAPS is assumed to be an int, so are the
    indices 2*i+(TAPS-1)/2+1 < TAPS *)
Definition cdc_co (a : T) (n : Z) : outcome T :=
  w <- win_kaiser M a n TAPS ;; h <- lowpass2 M U 1 4 n TAPS ;; Ok (w * h)%T.
Definition cdc_new (a : T) : outcome (cdc T) :=
  reco <- cdc_co a half ;;
  imco <- ofill (fun i => cdc_co a (2 * i + half + 1)) (Z.to_nat quarter) 0 ;;
  Ok (mkCdc (repeat (n0 M) (Z.to_nat quarter)) (repeat (n0 M) (Z.to_nat half)) imco reco false).
(** cdc.hh:38-50 *)
Definition cdc_step (s : cdc T) (x : T * T) : outcome (cdc T * cplx T) :=
  let '(in0, in1) := x in
  let sign := negb (cd_sign s) in
  r0 <- get (cd_real s) 0 ;;
  let re := (cd_reco s * r0)%T in
  real <- shift_in quarter (cd_real s) (if sign then in1 else nopp M in1) ;;
  imag <- shift_in half (cd_imag s) (if sign then in0 else nopp M in0) ;;
  c <- get (cd_imco s) 0 ;; u <- get imag (quarter - 1) ;; v <- get imag quarter ;;
  im <- for_loop (Z.to_nat (quarter - 1)) 1 (fun i im =>
    c <- get (cd_imco s) i ;; u <- get imag (quarter - 1 - i) ;; v <- get imag (quarter + i) ;;
    Ok (im + c * (u + v))%T) (c * (u + v))%T ;;
  Ok (mkCdc real imag (cd_imco s) (cd_reco s) sign, (re, im)).

(** hilbert.hh:23-32; the product with the int 2*i+1 converts it to value_type *)
Definition hilbert_co (a : T) (i : Z) : outcome T :=
  w <- win_kaiser M a (2 * i + 1 + half) TAPS ;; Ok (w * nofZ M 2 / (nofZ M (2 * i + 1) * Pi M))%T.
Definition hilbert_new (a : T) : outcome (hilbert T) :=
  reco <- win_kaiser M a half TAPS ;;
  imco <- ofill (hilbert_co a) (Z.to_nat quarter) 0 ;;
  Ok (mkHilbert (repeat (n0 M) (Z.to_nat TAPS)) imco reco).
(** hilbert.hh:33-43 *)
Definition hilbert_step (s : hilbert T) (input : T) : outcome (hilbert T * cplx T) :=
  r <- get (hb_real s) half ;;
  let re := (hb_reco s * r)%T in
  c <- get (hb_imco s) 0 ;; u <- get (hb_real s) (half - 1) ;; v <- get (hb_real s) (half + 1) ;;
  im <- for_loop (Z.to_nat (quarter - 1)) 1 (fun i im =>
    c <- get (hb_imco s) i ;; u <- get (hb_real s) (half - (2 * i + 1)) ;; v <- get (hb_real s) (half + (2 * i + 1)) ;;
    Ok (im + c * (u - v))%T) (c * (u - v))%T ;;
  real <- shift_in TAPS (hb_real s) input ;;
  Ok (mkHilbert real (hb_imco s) (hb_reco s), (re, im)).
End Cdc.
