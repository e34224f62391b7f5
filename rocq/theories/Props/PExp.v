(* Theorems about ldexp and exp10 (exp.hh), decibel and idecibel (decibel.hh) *)
From Coq Require Import Reals ZArith Lia Lra Bool.
From Interval Require Import Tactic.
From Flocq Require Import Core.
From Verif Require Import Proofs.BaseLemmas Model.Exp Proofs.ExpProofs.
Open Scope R_scope.

(** C38  ldexp multiplies by the power of two for every exponent of at most 255 in magnitude (for 248 to 255 the
    shift yields INT_MIN, whose sign vanishes in the first squaring) *)
Theorem C38_ldexp (x : R) (n : Z) : (Z.abs n <= 255)%Z -> ldexp Rn x n = Ok (x * powerRZ 2 n).
Proof. intros H. rewrite ldexp_ok by auto. rewrite bpow_powerRZ. reflexivity. Qed.
Print Assumptions C38_ldexp.
(** C38  Every other int exponent shifts out of the int range: undefined behaviour *)
Theorem C38_ldexp_undefined (x : R) (n : Z) : (256 <= Z.abs n)%Z -> (INT_MIN <= n <= INT_MAX)%Z -> ldexp Rn x n = Undefined.
Proof. apply ldexp_undefined. Qed.
Print Assumptions C38_ldexp_undefined.
Example C38_example : ldexp Rn 3 (-9) = Ok (3 / 512) /\ ldexp Rn 1 (-300) = Undefined.
Proof. rewrite C38_ldexp by lia. split; [f_equal; unfold powerRZ; change (Pos.to_nat 9) with 9%nat; cbn [pow]; field|reflexivity]. Qed.

(** C39  exp10(x) has relative error below 2e-16 for |x| <= 76.9, however nearbyint breaks ties *)
Theorem C39_exp10 (rint : R -> Z) (x : R) : (forall z, Rabs (IZR (rint z) - z) <= 1/2) -> Rabs x <= 76.9 ->
  exists v, exp10 Rn rint x = Ok v /\ Rabs (v - Rpower 10 x) <= 2e-16 * Rpower 10 x.
Proof. apply exp10_acc. Qed.
Print Assumptions C39_exp10.
(** C39  idecibel(dB) is 10 to the power dB/10 *)
Theorem C39_idecibel (rint : R -> Z) (dB : R) : (forall z, Rabs (IZR (rint z) - z) <= 1/2) -> Rabs dB <= 769 ->
  exists v, idecibel Rn rint dB = Ok v /\ Rabs (v - Rpower 10 (dB / 10)) <= 2e-16 * Rpower 10 (dB / 10).
Proof.
  intros Hr H. unfold idecibel. cbn [ndiv nofZ Rn]. apply exp10_acc; auto. apply Rabs_le_inv in H. apply Rabs_le. lra.
Qed.
Print Assumptions C39_idecibel.
(** C39  Beyond 77.1 the scaling by a power of two is undefined behaviour *)
Theorem C39_exp10_range (rint : R -> Z) (x : R) : (forall z, Rabs (IZR (rint z) - z) <= 1/2) -> 77.1 <= x <= 1000 ->
  exp10 Rn rint x = Undefined.
Proof.
  intros Hr H. unfold exp10. cbn [nmul nsub nadd ndiv nofZ nlit n1 Rn]. set (k := rint (x * ex_LOG210)).
  pose proof (Hr (x * ex_LOG210)) as K. fold k in K. apply Rabs_le_inv in K. unfold ex_LOG210 in K.
  assert (A : 255 < IZR k < 10000) by lra. destruct A as [A B]. apply lt_IZR in A, B.
  assert (I : ichk k = Ok k).
  { unfold ichk, int_ok, INT_MIN, INT_MAX. destruct (Z.leb_spec (-2147483648) k), (Z.leb_spec k 2147483647); cbn; auto; lia. }
  rewrite I. cbn [bind]. apply ldexp_undefined; unfold INT_MIN, INT_MAX; lia.
Qed.
Print Assumptions C39_exp10_range.
Example C39_example : exists v, idecibel Rn (fun z => ZnearestE z) 30 = Ok v /\ Rabs (v - 1000) <= 2e-13.
Proof.
  destruct (C39_idecibel (fun z => ZnearestE z) 30) as (v & V & A).
  - intros z. rewrite Rabs_minus_sym. pose proof (Znearest_half (fun x => negb (Z.even x)) z). lra.
  - apply Rabs_le; lra.
  - exists v. split; auto. replace (30 / 10) with (INR 3) in A by (cbn; field). rewrite Rpower_pow in A by lra. replace (10 ^ 3) with 1000 in A by ring. lra.
Qed.

(** C40  decibel(1) = 0, decibel is strictly increasing on the positive numbers, and odd in the level *)
Theorem C40_shape (v w : R) : decibel Rn 1 = 0 /\ (0 < v < w -> decibel Rn v < decibel Rn w) /\ (0 < v -> decibel Rn (/ v) = - decibel Rn v).
Proof. split; [apply decibel_1|]. split; [apply decibel_incr|apply decibel_inv]. Qed.
Print Assumptions C40_shape.

(** C40  decibel(v) is 10 log10(v) up to 1e-19 over 600 dB and up to 4e-5 over 6000 dB *)
Theorem C40_accuracy (v : R) :
  (1e-30 <= v <= 1e30 -> Rabs (decibel Rn v - 10 * (ln v / ln 10)) <= 1e-19) /\
  (1e-300 <= v <= 1e300 -> Rabs (decibel Rn v - 10 * (ln v / ln 10)) <= 4e-5).
Proof.
  assert (M : forall a b, 0 < a <= b -> ln a <= ln b).
  { intros a b [H [H'|<-]]; [left; apply ln_increasing; auto|lra]. }
  split; intros H.
  - apply (decibel_acc v 0.0675); [lra| |interval].
    pose proof (M 1e-30 v ltac:(lra)). pose proof (M v 1e30 ltac:(lra)).
    assert (ln 1e30 <= 69.1) by interval. assert (-69.1 <= ln 1e-30) by interval. apply Rabs_le; lra.
  - assert (0 < 1e-300) by lra. apply (decibel_acc v 0.6747); [lra| |interval].
    pose proof (M 1e-300 v ltac:(lra)). pose proof (M v 1e300 ltac:(lra)).
    assert (ln 1e300 <= 690.8) by interval. assert (-690.8 <= ln 1e-300) by interval. apply Rabs_le; lra.
Qed.
Print Assumptions C40_accuracy.
Example C40_example : Rabs (decibel Rn 1000 - 30) <= 1e-19.
Proof.
  destruct (C40_accuracy 1000) as [A _]. replace (10 * (ln 1000 / ln 10)) with 30 in A; [apply A; lra|].
  replace 1000 with (10 ^ 3) by ring. assert (ln 10 <> 0) by (apply Rgt_not_eq; rewrite <- ln_1; apply ln_increasing; lra).
  rewrite ln_pow by lra. cbn. field. auto.
Qed.
