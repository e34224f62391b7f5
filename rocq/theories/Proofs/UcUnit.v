(* The values of UnitCircle stay within [-1, 1] in rounded arithmetic *)
From Coq Require Import Reals ZArith Lia Lra List.
From Interval Require Import Tactic.
From Flocq Require Import Core.
From Verif Require Import Proofs.BaseLemmas Spec.Rounding Model.UnitCircle Proofs.UnitCircleProofs Proofs.UcRound.
Open Scope R_scope.

Section UcUnit.
Context (u e : R) (rnd : R -> R).
Hypothesis Hu : 0 <= u <= 1 / 10000000.
Hypothesis He : 0 <= e <= u / 1000000.
Hypothesis Hr : rounding u e rnd.
Hypothesis Hm : forall x y, x <= y -> rnd x <= rnd y.
Hypothesis H0r : rnd 0 = 0.
Hypothesis H1r : rnd 1 = 1.
Notation F := (Fn rnd).

Ltac hs A a aq Q C B := 
  eapply (hstep u e rnd Hu He Hr A a 0.617 aq Q _ C B); [eassumption|assumption|eassumption|interval with (i_prec 60)|interval with (i_prec 60)|interval with (i_prec 60)|lra|lra|lra|lra|lra|lra].
Ltac st' xx xx' q0' H0 H1 A aq Q C B :=
  match type of H0 with Rabs (_ - ?q) <= _ =>
  match goal with |- context [rnd (rnd (xx' * q0') + rnd ?c)] =>
    assert (H1 : Rabs (rnd (rnd (xx' * q0') + rnd c) - (xx * q + c)) <= A * u) by hs A 0.618 aq Q C B;
    generalize dependent (rnd (rnd (xx' * q0') + rnd c)) end end; clear H0 q0'.
Lemma cosine_le_1 x : Rabs x <= 0.7854 -> cosine_approx F x <= 1.
Proof.
  intros H. destruct (xx_err u e rnd Hu He Hr x H) as [B E]. unfold cosine_approx, cosine_kernel. cbn [nadd nmul nlit Fn Rn].
  assert (P' : 0 <= rnd (x * x)) by (rewrite <- H0r; apply Hm; nra).
  set (xx' := rnd (x * x)) in *. assert (P : 0 <= x * x) by nra. set (xx := x * x) in *. clearbody xx xx'. assert (I : 0 <= xx <= 0.617) by (apply Rabs_le_inv in B; lra). clear H x. lits.
  assert (H0 : Rabs (rnd (-1.13585365213876817300E-11) - -1.13585365213876817300E-11) <= 0.001 * u).
  { eapply Rle_trans; [apply (lit u e rnd Hu He Hr _ 0.0001); interval|]. apply Rmult_le_compat_r; lra. }
  generalize dependent (rnd (-1.13585365213876817300E-11)). intros q0' H0.
  st' xx xx' q0' H0 H1 0.01 0.001 0.0001 0.0001 0.0001. intros q1' H1. st' xx xx' q1' H1 H2 0.02 0.01 0.0001 0.0001 0.0001. intros q2' H2.
  st' xx xx' q2' H2 H3 0.03 0.02 0.0001 0.0001 0.0001. intros q3' H3. st' xx xx' q3' H3 H4 0.04 0.03 0.0001 0.002 0.002. intros q4' H4.
  st' xx xx' q4' H4 H5 0.15 0.04 0.002 0.042 0.042. intros q5' H5. st' xx xx' q5' H5 H6 1.2 0.15 0.042 0.5 0.5. intros q6' H6.
  match type of H6 with Rabs (_ - ?q) <= _ => assert (Q : q <= -0.4) by interval with (i_prec 60) end. apply Rabs_le_inv in H6.
  assert (Q' : q6' <= 0) by lra. assert (L : rnd (xx' * q6') <= 0) by (rewrite <- H0r; apply Hm; pose proof (Rmult_le_compat_l xx' _ _ P' Q'); lra).
  apply Rle_trans with (rnd 1); [apply Hm|lra]. replace 1.0 with 1 by lra. lra.
Qed.
Lemma uc_unit n N : (1 <= N)%Z -> (Z.abs n <= N)%Z -> (8 * N <= INT_MAX)%Z ->
  exists c s, uc_cos F n N = Ok c /\ uc_sin F n N = Ok s /\ Rabs c <= 1 /\ Rabs s <= 1.
Proof.
  intros HN Hn HI. rewrite uc_cos_red, uc_sin_red by auto. do 2 eexists. split; [reflexivity|]. split; [reflexivity|].
  destruct (red_ok n N) as (Hd & Hs & _); auto.
  pose proof (cos_case' u e rnd Hu He Hr _ _ Hd Hs) as AC. pose proof (sin_case' u e rnd Hu He Hr _ _ Hd Hs) as AS.
  destruct (rad_acc' u e rnd Hu He Hr _ _ Hd Hs) as [B E]. pose proof (cosine_le_1 _ B) as C1. pose proof (ratio_bound _ _ Hd Hs) as S. apply Rabs_le_inv in S.
  assert (AS' : Rabs (sine_approx F (uc_rad F (red_s n N) (red_d n N))) <= 1).
  { apply Rabs_le_inv in AS. assert (Rabs (sin (2 * PI * (IZR (red_s n N) / IZR (red_d n N)))) <= 0.72) by (set (q := IZR (red_s n N) / IZR (red_d n N)) in *; interval). apply Rabs_le_inv in H. apply Rabs_le. lra. }
  assert (AC' : Rabs (cosine_approx F (uc_rad F (red_s n N) (red_d n N))) <= 1).
  { apply Rabs_le_inv in AC. pose proof (COS_bound (2 * PI * (IZR (red_s n N) / IZR (red_d n N)))). assert (0 <= cos (2 * PI * (IZR (red_s n N) / IZR (red_d n N)))) by (set (q := IZR (red_s n N) / IZR (red_d n N)) in *; interval). apply Rabs_le. lra. }
  cbn [nopp Fn].
  destruct (quarter_cases n N) as [Q|[Q|[Q|[Q|[Q|[Q|[Q|[Q| Q]]]]]]]]; rewrite Q in *; split; rewrite ?Rabs_Ropp; auto.
Qed.
End UcUnit.
