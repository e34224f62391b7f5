(* UnitCircle in rounded arithmetic *)
From Coq Require Import Reals ZArith Lia Lra List.
From Interval Require Import Tactic.
From Flocq Require Import Core.
From Verif Require Import Proofs.BaseLemmas Spec.Rounding Model.UnitCircle Proofs.UnitCircleProofs.
Open Scope R_scope.

Section UcRound.
Context (u e : R) (rnd : R -> R).
Hypothesis Hu : 0 <= u <= 1 / 10000000.
Hypothesis He : 0 <= e <= u / 1000000.
Hypothesis Hr : rounding u e rnd.
Notation F := (Fn rnd).

Lemma me a b X Y x x' y y' : Rabs (x' - x) <= a * u -> Rabs x <= X -> Rabs (y' - y) <= b * u -> Rabs y <= Y -> 0 <= a -> 0 <= b ->
  Rabs (x' * y' - x * y) <= (a * Y + b * X + a * b / 10000000) * u.
Proof.
  intros Hx HX Hy HY Ha Hb. replace (x' * y' - x * y) with ((x' - x) * y + x * (y' - y) + (x' - x) * (y' - y)) by ring.
  eapply Rle_trans; [apply Rabs_triang|]. eapply Rle_trans; [apply Rplus_le_compat_r, Rabs_triang|]. rewrite !Rabs_mult.
  pose proof (Rabs_pos x). pose proof (Rabs_pos y). pose proof (Rabs_pos (x' - x)). pose proof (Rabs_pos (y' - y)).
  assert (Rabs (x' - x) * Rabs y <= a * u * Y) by (apply Rmult_le_compat; auto).
  assert (Rabs x * Rabs (y' - y) <= X * (b * u)) by (apply Rmult_le_compat; auto).
  assert (Rabs (x' - x) * Rabs (y' - y) <= a * u * (b * u)) by (apply Rmult_le_compat; auto).
  assert (a * u * (b * u) <= a * b / 10000000 * u). { replace (a * u * (b * u)) with (a * b * u * u) by ring. replace (a * b / 10000000 * u) with (a * b * u * (1 / 10000000)) by field. apply Rmult_le_compat_l; [|lra]. apply Rmult_le_pos; [|lra]. apply Rmult_le_pos; auto. }
  lra.
Qed.
Lemma re a Z z z' : Rabs (z' - z) <= a * u -> Rabs z <= Z -> 0 <= a ->
  Rabs (rnd z' - z) <= (a + Z + a / 10000000 + 1 / 1000000) * u.
Proof.
  intros Hz HZ Ha. replace (rnd z' - z) with ((rnd z' - z') + (z' - z)) by ring. eapply Rle_trans; [apply Rabs_triang|].
  pose proof (Hr z') as R. assert (Rabs z' <= Z + a * u). { replace z' with ((z' - z) + z) by ring. eapply Rle_trans; [apply Rabs_triang|]. lra. }
  assert (u * Rabs z' <= u * (Z + a * u)) by (apply Rmult_le_compat_l; lra).
  assert (a * u * u <= a / 10000000 * u). { replace (a / 10000000 * u) with (a * u * (1 / 10000000)) by field. apply Rmult_le_compat_l; [|lra]. apply Rmult_le_pos; lra. }
  lra.
Qed.
Lemma ae a b x x' y y' : Rabs (x' - x) <= a * u -> Rabs (y' - y) <= b * u -> Rabs (x' + y' - (x + y)) <= (a + b) * u.
Proof. intros. replace (x' + y' - (x + y)) with ((x' - x) + (y' - y)) by ring. eapply Rle_trans; [apply Rabs_triang|]. lra. Qed.
Lemma lit c C : Rabs c <= C -> Rabs (rnd c - c) <= (C + 1 / 1000000) * u.
Proof. intros H. pose proof (Hr c). assert (u * Rabs c <= u * C) by (apply Rmult_le_compat_l; lra). lra. Qed.

(** one Horner step xx * q + c *)
Lemma hstep A a X aq Q c C B xx xx' q q' : Rabs (xx' - xx) <= a * u -> Rabs xx <= X -> Rabs (q' - q) <= aq * u -> Rabs q <= Q -> Rabs c <= C -> Rabs (xx * q + c) <= B ->
  0 <= a -> 0 <= aq -> 0 <= X -> 0 <= Q -> 0 <= C -> 
  (1 + 1 / 10000000) * ((1 + 1 / 10000000) * (a * Q + aq * X + a * aq / 10000000) + X * Q + C + 2 / 1000000) + B + 1 / 1000000 <= A ->
  Rabs (rnd (rnd (xx' * q') + rnd c) - (xx * q + c)) <= A * u.
Proof.
  intros Hx HX Hq HQ Hc HB Ha Haq X0 Q0 C0 HA.
  pose proof (me a aq X Q _ _ _ _ Hx HX Hq HQ Ha Haq) as M. set (m := a * Q + aq * X + a * aq / 10000000) in *.
  assert (M0 : 0 <= m). { unfold m. assert (0 <= a * Q) by (apply Rmult_le_pos; auto). assert (0 <= aq * X) by (apply Rmult_le_pos; auto). assert (0 <= a * aq) by (apply Rmult_le_pos; auto). lra. }
  assert (MB : Rabs (xx * q) <= X * Q). { rewrite Rabs_mult. apply Rmult_le_compat; auto using Rabs_pos. }
  pose proof (re m (X * Q) _ _ M MB M0) as R1. pose proof (lit c C Hc) as R2.
  assert (XQ : 0 <= X * Q) by (apply Rmult_le_pos; auto).
  pose proof (re _ B _ _ (ae _ _ _ _ _ _ R1 R2) HB ltac:(lra)) as R3.
  eapply Rle_trans; [exact R3|]. apply Rmult_le_compat_r; lra.
Qed.

Lemma xx_err x : Rabs x <= 0.7854 -> Rabs (x * x) <= 0.617 /\ Rabs (rnd (x * x) - x * x) <= 0.618 * u.
Proof.
  intros H. assert (Rabs (x * x) <= 0.617). { rewrite Rabs_mult. pose proof (Rabs_pos x). nra. } split; auto.
  eapply Rle_trans; [apply (lit _ 0.617); auto|]. apply Rmult_le_compat_r; lra.
Qed.

Ltac hs A a aq Q C B := 
  eapply (hstep A a 0.617 aq Q _ C B); [eassumption|assumption|eassumption|interval with (i_prec 60)|interval with (i_prec 60)|interval with (i_prec 60)|lra|lra|lra|lra|lra|lra].

(** the next step on top of q0', which is within aq*u of the exact value bounded by Q *)
Ltac st' xx xx' q0' H0 H1 A aq Q C B :=
  match type of H0 with Rabs (_ - ?q) <= _ =>
  match goal with |- context [rnd (rnd (xx' * q0') + rnd ?c)] =>
    assert (H1 : Rabs (rnd (rnd (xx' * q0') + rnd c) - (xx * q + c)) <= A * u) by hs A 0.618 aq Q C B;
    generalize dependent (rnd (rnd (xx' * q0') + rnd c)) end end; clear H0 q0'.
Lemma cosine_round x : Rabs x <= 0.7854 -> Rabs (cosine_approx F x - cosine_approx Rn x) <= 3.6 * u.
Proof.
  intros H. destruct (xx_err x H) as [B E]. unfold cosine_approx, cosine_kernel. cbn [nadd nmul nlit Fn Rn].
  set (xx' := rnd (x * x)) in *. assert (P : 0 <= x * x) by nra. set (xx := x * x) in *. clearbody xx xx'. assert (I : 0 <= xx <= 0.617) by (apply Rabs_le_inv in B; lra). clear H x. lits.
  assert (H0 : Rabs (rnd (-1.13585365213876817300E-11) - -1.13585365213876817300E-11) <= 0.001 * u).
  { eapply Rle_trans; [apply (lit _ 0.0001); interval|]. apply Rmult_le_compat_r; lra. }
  generalize dependent (rnd (-1.13585365213876817300E-11)). intros q0' H0.
  st' xx xx' q0' H0 H1 0.01 0.001 0.0001 0.0001 0.0001. intros q1' H1. st' xx xx' q1' H1 H2 0.02 0.01 0.0001 0.0001 0.0001. intros q2' H2.
  st' xx xx' q2' H2 H3 0.03 0.02 0.0001 0.0001 0.0001. intros q3' H3. st' xx xx' q3' H3 H4 0.04 0.03 0.0001 0.002 0.002. intros q4' H4.
  st' xx xx' q4' H4 H5 0.15 0.04 0.002 0.042 0.042. intros q5' H5. st' xx xx' q5' H5 H6 1.2 0.15 0.042 0.5 0.5. intros q6' H6.
  rewrite (Rplus_comm (rnd _) (rnd _)), (Rplus_comm 1.0 (xx * _)).
  eapply Rle_trans; [hs 3.6 0.618 1.2 0.5 1.0 1.0|lra].
Qed.

Lemma sine_round x : Rabs x <= 0.7854 -> Rabs (sine_approx F x - sine_approx Rn x) <= 3.2 * u.
Proof.
  intros H. destruct (xx_err x H) as [B E]. unfold sine_approx, sine_kernel. cbn [nadd nmul nlit Fn Rn].
  set (xx' := rnd (x * x)) in *. assert (P : 0 <= x * x) by nra. set (xx := x * x) in *. clearbody xx xx'. assert (I : 0 <= xx <= 0.617) by (apply Rabs_le_inv in B; lra). lits.
  assert (H0 : Rabs (rnd (1.58962301576546568060E-10) - 1.58962301576546568060E-10) <= 0.001 * u).
  { eapply Rle_trans; [apply (lit _ 0.0001); interval|]. apply Rmult_le_compat_r; lra. }
  generalize dependent (rnd (1.58962301576546568060E-10)). intros q0' H0.
  st' xx xx' q0' H0 H1 0.01 0.001 0.0001 0.0001 0.0001. intros q1' H1. st' xx xx' q1' H1 H2 0.02 0.01 0.0001 0.0001 0.0001. intros q2' H2.
  st' xx xx' q2' H2 H3 0.03 0.02 0.0001 0.0002 0.0002. intros q3' H3. st' xx xx' q3' H3 H4 0.06 0.03 0.0002 0.0084 0.0084. intros q4' H4.
  st' xx xx' q4' H4 H5 0.4 0.06 0.0084 0.167 0.167. intros q5' H5. st' xx xx' q5' H5 H6 2.6 0.4 0.167 1.0 1.0. intros q6' H6.
  assert (X0 : Rabs (x - x) <= 0 * u). { rewrite Rminus_eq_0, Rabs_R0. lra. }
  match type of H6 with Rabs (_ - ?q) <= _ => assert (Q : Rabs q <= 1.0) by interval with (i_prec 60); pose proof (me _ _ _ _ _ _ _ _ X0 H H6 Q ltac:(lra) ltac:(lra)) as M;
    assert (MB : Rabs (x * q) <= 0.7854) by (rewrite Rabs_mult; pose proof (Rabs_pos x); pose proof (Rabs_pos q); nra) end.
  eapply Rle_trans; [apply (re _ _ _ _ M MB); lra|]. apply Rmult_le_compat_r; lra.
Qed.

(** the reduced argument *)
Lemma rad_round s d : (0 < d)%Z -> (8 * Z.abs s <= d)%Z -> Rabs (uc_rad F s d - uc_rad Rn s d) <= 3.95 * u.
Proof.
  intros Hd Hs. unfold uc_rad, TwoPi. cbn [ndiv nmul nlit nofZ Fn Rn].
  assert (D1 : 1 <= IZR d) by (apply IZR_le; lia). pose proof (ratio_bound s d Hd Hs) as S. 
  set (D := IZR d) in *. assert (ID : 0 < / D <= 1). { split; [apply Rinv_0_lt_compat; lra|]. rewrite <- Rinv_1. apply Rinv_le; lra. }
  assert (T : Rabs TwoPi_lit <= 6.2832) by (unfold TwoPi_lit; interval).
  assert (P : Rabs (rnd TwoPi_lit - TwoPi_lit) <= 6.2833 * u). { eapply Rle_trans; [exact (lit _ _ T)|]. apply Rmult_le_compat_r; lra. }
  assert (AD : Rabs (/ D) = / D) by (apply Rabs_pos_eq; lra).
  assert (SC : forall x y, Rabs (x / D - y / D) = Rabs (x - y) * / D). { intros. unfold Rdiv. rewrite <- Rmult_minus_distr_r, Rabs_mult, AD. auto. }
  assert (RD : forall x z, Rabs (rnd x / D - x / D) <= (z + 1 / 1000000) * u \/ ~ Rabs (x / D) <= z).
  { intros x z. destruct (Rle_dec (Rabs (x / D)) z) as [L|]; [left|right; auto]. rewrite SC. pose proof (Hr x).
    unfold Rdiv in L. rewrite Rabs_mult, AD in L.
    apply Rle_trans with ((u * Rabs x + e) * / D). { apply Rmult_le_compat_r; lra. }
    assert (u * (Rabs x * / D) <= u * z) by (apply Rmult_le_compat_l; lra). assert (e * / D <= e * 1) by (apply Rmult_le_compat_l; lra). lra. }
  assert (RS : Rabs (rnd (IZR s) / D - IZR s / D) <= 0.1251 * u).
  { destruct (RD (IZR s) (1/8)) as [L|L]; [|contradiction]. eapply Rle_trans; [exact L|]. apply Rmult_le_compat_r; lra. }
  pose proof (me _ _ _ _ _ _ _ _ P T RS S ltac:(lra) ltac:(lra)) as M.
  assert (N : Rabs (rnd (rnd TwoPi_lit * rnd (IZR s)) / D - TwoPi_lit * IZR s / D) <= 2.36 * u).
  { replace (rnd TwoPi_lit * (rnd (IZR s) / D) - TwoPi_lit * (IZR s / D)) with (rnd TwoPi_lit * rnd (IZR s) / D - TwoPi_lit * IZR s / D) in M by (unfold Rdiv; ring).
    assert (B0 : Rabs (TwoPi_lit * IZR s / D) <= 0.7854). { replace (TwoPi_lit * IZR s / D) with (TwoPi_lit * (IZR s / D)) by (unfold Rdiv; ring). rewrite Rabs_mult. pose proof (Rabs_pos TwoPi_lit). pose proof (Rabs_pos (IZR s / D)). apply Rle_trans with (6.2832 * (1 / 8)); [apply Rmult_le_compat; auto|lra]. }
    set (z := TwoPi_lit * IZR s / D) in *. set (z' := rnd TwoPi_lit * rnd (IZR s)) in *.
    assert (M' : Rabs (z' / D - z) <= 1.572 * u). { eapply Rle_trans; [exact M|]. apply Rmult_le_compat_r; lra. }
    assert (B1 : Rabs (z' / D) <= 0.7855). { replace (z' / D) with ((z' / D - z) + z) by ring. eapply Rle_trans; [apply Rabs_triang|]. lra. }
    destruct (RD z' 0.7855) as [L|L]; [|contradiction]. replace (rnd z' / D - z) with ((rnd z' / D - z' / D) + (z' / D - z)) by ring. eapply Rle_trans; [apply Rabs_triang|]. lra. }
  assert (RDD : Rabs (rnd D / D - 1) <= 1.00001 * u).
  { destruct (RD D 1) as [L|L]; replace (D / D) with 1 in L by (field; lra). - eapply Rle_trans; [exact L|]. apply Rmult_le_compat_r; lra. - exfalso. apply L. rewrite Rabs_R1. lra. }
  set (dl := rnd D / D) in *. assert (DL : 0.99 <= dl). { apply Rabs_le_inv in RDD. lra. }
  assert (IDL : Rabs (/ dl - 1) <= 1.02 * u).
  { replace (/ dl - 1) with ((1 - dl) * / dl) by (field; lra). rewrite Rabs_mult, Rabs_minus_sym. rewrite (Rabs_pos_eq (/ dl)) by (apply Rlt_le, Rinv_0_lt_compat; lra).
    assert (/ dl <= 1.0102). { apply Rle_trans with (/ 0.99); [apply Rinv_le; lra|lra]. } assert (0 < / dl) by (apply Rinv_0_lt_compat; lra).
    apply Rle_trans with (1.00001 * u * 1.0102); [apply Rmult_le_compat; auto using Rabs_pos; lra|lra]. }
  assert (B0 : Rabs (TwoPi_lit * IZR s / D) <= 0.7854). { replace (TwoPi_lit * IZR s / D) with (TwoPi_lit * (IZR s / D)) by (unfold Rdiv; ring). rewrite Rabs_mult. pose proof (Rabs_pos TwoPi_lit). pose proof (Rabs_pos (IZR s / D)). apply Rle_trans with (6.2832 * (1 / 8)); [apply Rmult_le_compat; auto|lra]. }
  assert (O1 : Rabs 1 <= 1) by (rewrite Rabs_R1; lra).
  pose proof (me _ _ _ _ _ _ _ _ N B0 IDL O1 ltac:(lra) ltac:(lra)) as M2. rewrite Rmult_1_r in M2.
  replace (rnd (rnd TwoPi_lit * rnd (IZR s)) / D * / dl) with (rnd (rnd TwoPi_lit * rnd (IZR s)) / rnd D) in M2.
  2:{ unfold dl. field. split; [lra|]. intros Z. unfold dl in DL. rewrite Z in DL. unfold Rdiv in DL. rewrite Rmult_0_l in DL. lra. }
  eapply Rle_trans; [apply (re _ _ _ _ M2 B0); lra|]. apply Rmult_le_compat_r; lra.
Qed.

Lemma rad_acc' s d : (0 < d)%Z -> (8 * Z.abs s <= d)%Z -> Rabs (uc_rad F s d) <= 0.7854 /\ Rabs (uc_rad F s d - 2 * PI * (IZR s / IZR d)) <= 3.95 * u + 1e-60.
Proof.
  intros Hd Hs. pose proof (rad_round s d Hd Hs) as E. destruct (rad_acc s d Hd Hs) as [_ A]. pose proof (ratio_bound s d Hd Hs) as S.
  assert (H : Rabs (uc_rad F s d - 2 * PI * (IZR s / IZR d)) <= 3.95 * u + 1e-60).
  { replace (uc_rad F s d - 2 * PI * (IZR s / IZR d)) with ((uc_rad F s d - uc_rad Rn s d) + (uc_rad Rn s d - 2 * PI * (IZR s / IZR d))) by ring.
    eapply Rle_trans; [apply Rabs_triang|]. lra. }
  split; auto. set (q := IZR s / IZR d) in *. assert (Rabs (2 * PI * q) <= 0.785399). { apply Rabs_le_inv in S. interval. }
  replace (uc_rad F s d) with ((uc_rad F s d - 2 * PI * q) + 2 * PI * q) by ring. eapply Rle_trans; [apply Rabs_triang|]. lra.
Qed.
Lemma cos_case' s d : (0 < d)%Z -> (8 * Z.abs s <= d)%Z -> Rabs (cosine_approx F (uc_rad F s d) - cos (2 * PI * (IZR s / IZR d))) <= 8 * u + 3e-17.
Proof.
  intros Hd Hs. destruct (rad_acc' s d Hd Hs) as [B E]. pose proof (cosine_acc _ B) as A. pose proof (cosine_round _ B) as R.
  pose proof (cos_lip (uc_rad F s d) (2 * PI * (IZR s / IZR d))) as L. apply Rabs_le. apply Rabs_le_inv in A, L, R.
  pose proof (Rle_abs (uc_rad F s d - 2 * PI * (IZR s / IZR d))). lra.
Qed.
Lemma sin_case' s d : (0 < d)%Z -> (8 * Z.abs s <= d)%Z -> Rabs (sine_approx F (uc_rad F s d) - sin (2 * PI * (IZR s / IZR d))) <= 8 * u + 3e-17.
Proof.
  intros Hd Hs. destruct (rad_acc' s d Hd Hs) as [B E]. pose proof (sine_acc _ B) as A. pose proof (sine_round _ B) as R.
  pose proof (sin_lip (uc_rad F s d) (2 * PI * (IZR s / IZR d))) as L. apply Rabs_le. apply Rabs_le_inv in A, L, R.
  pose proof (Rle_abs (uc_rad F s d - 2 * PI * (IZR s / IZR d))). lra.
Qed.

Lemma uc_round n N : (1 <= N)%Z -> (Z.abs n <= N)%Z -> (8 * N <= INT_MAX)%Z ->
  exists c s, uc_cos F n N = Ok c /\ uc_sin F n N = Ok s /\
  Rabs (c - cos (2 * PI * IZR n / IZR N)) <= 8 * u + 3e-17 /\ Rabs (s - sin (2 * PI * IZR n / IZR N)) <= 8 * u + 3e-17.
Proof.
  intros HN Hn HI. rewrite uc_cos_red, uc_sin_red by auto. do 2 eexists. split; [reflexivity|]. split; [reflexivity|].
  destruct (red_ok n N) as (Hd & Hs & _); auto.
  pose proof (cos_case' _ _ Hd Hs) as AC. pose proof (sin_case' _ _ Hd Hs) as AS.
  destruct (quarters (2 * PI * IZR n / IZR N) (quarter n N) 0 0 _ _ (quarter_cases n N) eq_refl eq_refl) as [-> ->].
  rewrite red_angle in AC, AS by auto.
  assert (Ng : forall a b e, Rabs (a - b) <= e -> Rabs (- a - - b) <= e) by (intros a b e' H; rewrite <- Rabs_Ropp; replace (- (- a - - b)) with (a - b) by ring; auto).
  cbn [nopp Fn].
  destruct (quarter_cases n N) as [Q|[Q|[Q|[Q|[Q|[Q|[Q|[Q| Q]]]]]]]]; rewrite Q in *; split; auto.
Qed.
End UcRound.
