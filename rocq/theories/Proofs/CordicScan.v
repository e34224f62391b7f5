(* The exhaustive checks for the CORDIC arctangent. *)
From Coq Require Import ZArith List Lia Bool Reals Lra.
From Coquelicot Require Import Coquelicot.
From Flocq Require Import Core.
From Interval Require Import Tactic.
From Verif Require Import Model.Cordic Proofs.BaseLemmas Proofs.CordicProofs.
Import ListNotations.
Open Scope Z_scope.

(** the same function with the table looked up in an evaluated list *)
Definition fstep (lut : list Z) (i : Z) (s : Z * (Z * Z)) : outcome (Z * (Z * Z)) :=
  let '(angle, (real, imag)) := s in
  t <- get lut i ;;
  if imag <? 0 then
    angle <- ichk (angle - t) ;; re <- ichk (real - Z.shiftr imag i) ;; im <- ichk (imag + Z.shiftr real i) ;; Ok (angle, (re, im))
  else
    angle <- ichk (angle + t) ;; re <- ichk (real + Z.shiftr imag i) ;; im <- ichk (imag - Z.shiftr real i) ;; Ok (angle, (re, im)).
Definition fast (BYTES : Z) (lut : list Z) (y x : Z) : outcome Z :=
  let BITS := 8 * BYTES in
  let FAC := BYTES * 2 ^ BITS in
  real <- shl_int x ;; imag <- shl_int y ;;
  real <- (if x <? 0 then ichk (- real) else Ok real) ;;
  '(angle, _) <- for_loop (Z.to_nat BITS) 0 (fstep lut) (0, (real, imag)) ;;
  angle <- (if x <? 0 then ichk (FAC - angle) else Ok angle) ;;
  Ok (to_type BITS (Z.shiftr angle BYTES)).

Lemma for_loop_ext {T} (f g : Z -> T -> outcome T) n : forall i s,
  (forall j t, i <= j < i + Z.of_nat n -> f j t = g j t) -> for_loop n i f s = for_loop n i g s.
Proof.
  induction n as [|n IH]; intros i s H; [ reflexivity | ].
  cbn [for_loop]. rewrite H by lia. destruct (g i s); [ | reflexivity .. ].
  cbn [bind]. apply IH. intros; apply H; lia.
Qed.

Lemma fast_ok BYTES lut : BYTES = 1 \/ BYTES = 2 ->
  lut = map (fun i => lut_at (BYTES * 2 ^ (8 * BYTES)) (Z.of_nat i)) (seq 0 16) ->
  forall y x, fast BYTES lut y x = cordic_atan2 BYTES y x.
Proof.
  intros HB Hl y x. unfold fast, cordic_atan2. cbv zeta.
  destruct (shl_int x); [ | reflexivity .. ]. destruct (shl_int y); [ | reflexivity .. ]. cbn [bind].
  destruct (if x <? 0 then ichk (- a) else Ok a); [ | reflexivity .. ]. cbn [bind].
  rewrite (for_loop_ext (fstep lut) (cordic_step (BYTES * 2 ^ (8 * BYTES)))).
  - reflexivity.
  - intros j t Hj. unfold fstep, cordic_step. rewrite lut_get by (destruct HB; subst BYTES; lia).
    replace (get lut j) with (Ok (lut_at (BYTES * 2 ^ (8 * BYTES)) j)); [ reflexivity | ].
    symmetry. apply get_Some. rewrite Hl.
    assert (Hj' : 0 <= j < 16) by (destruct HB; subst BYTES; lia).
    rewrite znth_nonneg by lia. rewrite nth_error_map.
    rewrite (nth_error_nth' _ 0%nat) by (rewrite seq_length; lia). rewrite seq_nth by lia.
    cbn [option_map]. do 2 f_equal. lia.
Qed.

Definition lut1 : list Z := Eval vm_compute in map (fun i => lut_at 256 (Z.of_nat i)) (seq 0 16).
Definition lut2 : list Z := Eval vm_compute in map (fun i => lut_at 131072 (Z.of_nat i)) (seq 0 16).
Lemma fast1 y x : fast 1 lut1 y x = cordic_atan2 1 y x.
Proof. apply fast_ok; [ lia | vm_compute; reflexivity ]. Qed.
Lemma fast2 y x : fast 2 lut2 y x = cordic_atan2 2 y x.
Proof. apply fast_ok; [ lia | vm_compute; reflexivity ]. Qed.

Definition SC : Z := 18014398509481984.
Definition c8 : Z := 18008972909451801.
Definition s8 : Z := 442095470524008.
Definition c16 : Z := 18014398426689742.
Definition s16 : Z := 1727108823533.

Lemma base8 : (Cmod (zc c8 s8 - IZR SC * circ (2 * PI / 256))%C <= 2)%R.
Proof.
  apply Rle_trans with (3 / 2 * 1)%R; [ | lra ]. apply Cmod_le_2.
  - unfold zc, circ, Cminus, Cplus, Copp, Cmult, RtoC. cbn [fst snd].
    unfold c8, SC. interval with (i_prec 150).
  - unfold zc, circ, Cminus, Cplus, Copp, Cmult, RtoC. cbn [fst snd].
    unfold s8, SC. interval with (i_prec 150).
Qed.
Lemma base16 : (Cmod (zc c16 s16 - IZR SC * circ (2 * PI / 65536))%C <= 2)%R.
Proof.
  apply Rle_trans with (3 / 2 * 1)%R; [ | lra ]. apply Cmod_le_2.
  - unfold zc, circ, Cminus, Cplus, Copp, Cmult, RtoC. cbn [fst snd].
    unfold c16, SC. interval with (i_prec 150).
  - unfold zc, circ, Cminus, Cplus, Copp, Cmult, RtoC. cbn [fst snd].
    unfold s16, SC. interval with (i_prec 150).
Qed.

(** 2^-18 in units of 1/SC *)
Definition tol : Z := 68719476736.

Lemma scan8 : scan (fast 1 lut1) 54 SC c8 s8 127 tol (Z.to_nat 256) (-128) (- SC, 0) 0 = true.
Proof. vm_cast_no_check (eq_refl true). Qed.
Lemma start_ok t : t = (- PI)%R ->
  (Cmod (zc (fst (- SC, 0)%Z) (snd (- SC, 0)%Z) - IZR SC * circ t)%C <= IZR 0)%R.
Proof.
  intros ->. unfold circ. rewrite cos_neg, sin_neg, cos_PI, sin_PI.
  replace (zc (fst (- SC, 0)%Z) (snd (- SC, 0)%Z) - IZR SC * (-1, - 0)%R)%C with (RtoC 0).
  - rewrite Cmod_0. apply Rle_refl.
  - unfold zc, Cminus, Cplus, Copp, Cmult, RtoC. cbn [fst snd]. rewrite opp_IZR. f_equal; ring.
Qed.

Open Scope R_scope.
Lemma full8 n u v : (-128 <= n < 128)%Z ->
  Rabs (u - 127 * cos (IZR n * (2 * PI / 256))) <= / 262144 ->
  Rabs (v - 127 * sin (IZR n * (2 * PI / 256))) <= / 262144 ->
  exists a, cordic_atan2 1 (ZnearestE v) (ZnearestE u) = Ok a /\ (Z.abs (a - n) <= 1)%Z.
Proof.
  intros Hn Hu Hv. rewrite <- fast1.
  assert (T : / 262144 = IZR tol / IZR SC) by (unfold tol, SC; lra).
  rewrite T in Hu, Hv.
  refine (scan_ok (fast 1 lut1) 54 SC c8 s8 127 tol _ _ _ _ base8 _ _ _ _ scan8 _ n u v _ Hu Hv).
  - discriminate.
  - reflexivity.
  - discriminate.
  - apply start_ok. field.
  - rewrite Z2Nat.id by lia. lia.
Qed.
