(* Theorems about atan and atan2 (atan2.hh) *)
From Coq Require Import Reals ZArith Lia Lra Bool.
From Interval Require Import Tactic.
From Flocq Require Import Core.
From Verif Require Import Model.Atan2 Spec.Angle Proofs.Atan2Proofs.
Open Scope R_scope.

(** C35  atan is within 1e-16 of the arctangent on the whole real line, odd and sign correct *)
Theorem C35_atan (x : R) :
  Rabs (atan Rn x - Ratan.atan x) <= 1e-16 /\ atan Rn (- x) = - atan Rn x /\ (0 < x -> 0 < atan Rn x) /\ (x < 0 -> atan Rn x < 0).
Proof. split; [apply atan_acc|]. split; [apply atan_odd|apply atan_sign]. Qed.
Print Assumptions C35_atan.

(** C35  atan2(y, x) is within 1.1e-16 of the angle of the point (x, y), for every point but the origin;
    the angle is unique.  [sy] is the sign bit of y, clear for y = +0. *)
Theorem C35_atan2 (sy : bool) (x y : R) : ~ (x = 0 /\ y = 0) -> (y < 0 -> sy = true) -> (0 <= y -> sy = false) ->
  exists t, angle_of x y t /\ (forall t', angle_of x y t' -> t' = t) /\ Rabs (atan2 Rn sy y x - t) <= 1.1e-16.
Proof.
  intros Hnz Hn Hp. destruct (atan2_acc sy x y Hnz Hn) as (t & A & B); [intros; apply Hp; lra|intros; apply Hp; lra|].
  exists t. split; auto. split; auto. intros t' A'. apply (angle_unique x y); auto.
Qed.
Print Assumptions C35_atan2.

(** C35  The result has the sign of y and is odd in y *)
Theorem C35_sign_and_odd (sy : bool) (x y : R) : (y < 0 -> sy = true) -> (0 < y -> sy = false) ->
  (0 < y -> 0 < atan2 Rn sy y x) /\ (y < 0 -> atan2 Rn sy y x < 0) /\ (y <> 0 -> atan2 Rn (negb sy) (- y) x = - atan2 Rn sy y x).
Proof. intros Hn Hp. destruct (atan2_sign sy x y Hn Hp). split; auto. split; auto. apply atan2_odd. Qed.
Print Assumptions C35_sign_and_odd.

(** C35  The negative real axis: y = +0 gives pi, y = -0 gives -pi, each up to 1e-60; y = -0, x >= 0 gives -0 *)
Theorem C35_signed_zero (x : R) : 
  (x < 0 -> Rabs (atan2 Rn false 0 x - PI) <= 1e-60 /\ Rabs (atan2 Rn true 0 x + PI) <= 1e-60) /\
  (0 <= x -> atan2 Rn false 0 x = 0 /\ atan2 Rn true 0 x = - 0).
Proof.
  unfold atan2. cbn [neqb nleb n0 Rn]. rewrite Req_bool_true by auto. split; intros H.
  - rewrite Rle_bool_false by auto. unfold copysign, Pi, Pi_lit. cbn [nlit nopp Rn]. split; interval with (i_prec 300).
  - rewrite Rle_bool_true by auto. split; reflexivity.
Qed.
Print Assumptions C35_signed_zero.

(** (-1, 1): three quarters of pi *)
Example C35_example : Rabs (atan2 Rn false 1 (-1) - 3 * (PI / 4)) <= 1.1e-16.
Proof.
  destruct (C35_atan2 false (-1) 1) as (t & _ & U & B); try lra; auto. rewrite (U (3 * (PI / 4))); auto.
  pose proof PI_RGT_0. split; [lra|]. replace (3 * (PI / 4)) with (PI - PI / 4) by field.
  rewrite Rtrigo_facts.cos_pi_minus, Rtrigo_facts.sin_pi_minus, cos_PI4, sin_PI4.
  replace (-1 * -1 + 1 * 1) with 2 by ring. assert (sqrt 2 <> 0) by (apply Rgt_not_eq, sqrt_lt_R0; lra). split; field; auto.
Qed.

(** C36  In binary32 arithmetic the point (-4, -2^-149) lies below the real axis but atan2 returns +pi: the
    quotient underflows to zero and the test [phase > 0] takes the wrong side. *)
Theorem C36_underflow_refuted :
  let rnd := round radix2 (FLT_exp (-149) 24) ZnearestE in
  let y := - bpow radix2 (-149) in
  generic_format radix2 (FLT_exp (-149) 24) y /\ y < 0 /\ 3 <= atan2 (Fn rnd) true y (-4).
Proof.
  intros rnd y. pose proof (bpow_gt_0 radix2 (-149)) as B.
  assert (V : Valid_exp (FLT_exp (-149) 24)) by (apply FLT_exp_valid; reflexivity).
  assert (F : forall e, (-149 <= e)%Z -> generic_format radix2 (FLT_exp (-149) 24) (bpow radix2 e)).
  { intros e He. apply generic_format_bpow. unfold FLT_exp. lia. }
  assert (P : 3 <= rnd Pi_lit).
  { unfold rnd. rewrite <- (round_generic radix2 (FLT_exp (-149) 24) ZnearestE 3).
    - apply round_le; auto with typeclass_instances. unfold Pi_lit; lra.
    - apply generic_format_FLT. exists (Float radix2 3 0); [unfold F2R; cbn; lra|reflexivity|cbn; lia]. }
  assert (Q : rnd (y / -4) = 0).
  { unfold rnd, y. replace (- bpow radix2 (-149) / -4) with (bpow radix2 (-151)).
    2:{ replace (-149)%Z with (2 + -151)%Z by lia. rewrite bpow_plus. cbn; field. }
    apply round_N_small_pos with (ex := (-150)%Z); [|unfold FLT_exp; lia].
    split; [cbn; lra|apply bpow_lt; lia]. }
  split; [apply generic_format_opp, F; lia|]. split; [unfold y; lra|].
  destruct (atan2_underflow rnd (-4) y) as [E _]; try lra; try (unfold y; lra).
  - apply round_0; auto with typeclass_instances.
  - unfold rnd. rewrite <- (round_0 radix2 (FLT_exp (-149) 24) ZnearestE). apply round_le; auto with typeclass_instances. lra.
  - unfold rnd. rewrite round_generic; auto with typeclass_instances. apply generic_format_round; auto with typeclass_instances.
Qed.
Print Assumptions C36_underflow_refuted.
