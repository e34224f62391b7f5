(* UnitCircle: argument reduction and accuracy *)
From Coq Require Import Reals ZArith Lia Lra List.
From Interval Require Import Tactic.
From Flocq Require Import Core.
From Verif Require Import Proofs.BaseLemmas Model.UnitCircle.
Open Scope R_scope.

Ltac lits := unfold uc_a1, uc_a2, uc_a3, uc_a4, uc_a5, uc_a6, uc_a7, uc_a8, uc_a9, uc_a10, uc_a11, uc_a12, uc_a13, uc_a14.

Lemma cosine_acc x : Rabs x <= 0.7854 -> Rabs (cosine_approx Rn x - cos x) <= 2e-17.
Proof.
  intros H. apply Rabs_le_inv in H. unfold cosine_approx, cosine_kernel. cbn [nadd nmul nlit Rn]. lits.
  interval with (i_taylor x, i_bisect x, i_degree 16, i_prec 100).
Qed.
Lemma sine_acc x : Rabs x <= 0.7854 -> Rabs (sine_approx Rn x - sin x) <= 2e-17.
Proof.
  intros H. apply Rabs_le_inv in H. unfold sine_approx, sine_kernel. cbn [nadd nmul nlit Rn]. lits.
  interval with (i_taylor x, i_bisect x, i_degree 16, i_prec 100).
Qed.

Lemma TwoPi_acc : Rabs (TwoPi_lit - 2 * PI) <= 1e-60.
Proof. unfold TwoPi_lit. interval with (i_prec 300). Qed.

Lemma cos_lip a b : Rabs (cos a - cos b) <= Rabs (a - b).
Proof.
  destruct (MVT_abs cos (fun x => - sin x) b a) as (c & E & _).
  { intros c _. apply derivable_pt_lim_cos. }
  rewrite E. rewrite <- (Rmult_1_l (Rabs (a - b))) at 2. apply Rmult_le_compat_r; [apply Rabs_pos|]. apply Rabs_le. pose proof (SIN_bound c). lra.
Qed.
Lemma sin_lip a b : Rabs (sin a - sin b) <= Rabs (a - b).
Proof.
  destruct (MVT_abs sin cos b a) as (c & E & _).
  { intros c _. apply derivable_pt_lim_sin. }
  rewrite E. rewrite <- (Rmult_1_l (Rabs (a - b))) at 2. apply Rmult_le_compat_r; [apply Rabs_pos|]. apply Rabs_le. pose proof (COS_bound c). lra.
Qed.

(** the reduced argument s/d turns, at most an eighth *)
Lemma ratio_bound s d : (0 < d)%Z -> (8 * Z.abs s <= d)%Z -> Rabs (IZR s / IZR d) <= 1/8.
Proof.
  intros Hd Hs. assert (0 < IZR d) by (apply IZR_lt; lia). unfold Rdiv at 1. rewrite Rabs_mult, Rabs_inv, (Rabs_pos_eq (IZR d)) by lra.
  apply (Rmult_le_reg_r (IZR d)); auto. rewrite Rmult_assoc, Rinv_l by lra. rewrite <- abs_IZR.
  apply IZR_le in Hs. rewrite mult_IZR in Hs. lra.
Qed.
Lemma rad_acc s d : (0 < d)%Z -> (8 * Z.abs s <= d)%Z ->
  Rabs (uc_rad Rn s d) <= 0.7854 /\ Rabs (uc_rad Rn s d - 2 * PI * (IZR s / IZR d)) <= 1e-60.
Proof.
  intros Hd Hs. pose proof (ratio_bound s d Hd Hs) as B. unfold uc_rad, TwoPi. cbn [ndiv nmul nlit nofZ Rn].
  assert (E : TwoPi_lit * IZR s / IZR d = TwoPi_lit * (IZR s / IZR d)) by (unfold Rdiv; ring). rewrite E.
  set (q := IZR s / IZR d) in *. apply Rabs_le_inv in B. split.
  - unfold TwoPi_lit. interval.
  - replace (TwoPi_lit * q - 2 * PI * q) with ((TwoPi_lit - 2 * PI) * q) by ring. rewrite Rabs_mult.
    pose proof TwoPi_acc. assert (Rabs q <= 1/8) by (apply Rabs_le; lra). pose proof (Rabs_pos q). pose proof (Rabs_pos (TwoPi_lit - 2 * PI)).
    apply Rle_trans with (1e-60 * (1/8)); [apply Rmult_le_compat; auto|lra].
Qed.

Lemma cos_case s d : (0 < d)%Z -> (8 * Z.abs s <= d)%Z -> Rabs (cosine_approx Rn (uc_rad Rn s d) - cos (2 * PI * (IZR s / IZR d))) <= 3e-17.
Proof.
  intros Hd Hs. destruct (rad_acc s d Hd Hs) as [B E]. pose proof (cosine_acc _ B) as A.
  pose proof (cos_lip (uc_rad Rn s d) (2 * PI * (IZR s / IZR d))) as L. apply Rabs_le. apply Rabs_le_inv in A, L. 
  pose proof (Rle_abs (uc_rad Rn s d - 2 * PI * (IZR s / IZR d))). lra.
Qed.
Lemma sin_case s d : (0 < d)%Z -> (8 * Z.abs s <= d)%Z -> Rabs (sine_approx Rn (uc_rad Rn s d) - sin (2 * PI * (IZR s / IZR d))) <= 3e-17.
Proof.
  intros Hd Hs. destruct (rad_acc s d Hd Hs) as [B E]. pose proof (sine_acc _ B) as A.
  pose proof (sin_lip (uc_rad Rn s d) (2 * PI * (IZR s / IZR d))) as L. apply Rabs_le. apply Rabs_le_inv in A, L.
  pose proof (Rle_abs (uc_rad Rn s d - 2 * PI * (IZR s / IZR d))). lra.
Qed.

Lemma ichk_ok z : (INT_MIN <= z <= INT_MAX)%Z -> ichk z = Ok z.
Proof. intros H. unfold ichk, int_ok. destruct (Z.leb_spec INT_MIN z), (Z.leb_spec z INT_MAX); auto; lia. Qed.

Section Reduce.
Context {T : Type} (Nm : num T) (n N : Z) (HN : (1 <= N)%Z) (Hn : (Z.abs n <= N)%Z) (HI : (8 * N <= INT_MAX)%Z).

Lemma uc_arg_ok f c1 c2 c3 : (0 <= c1 <= 4)%Z -> (-3 <= c2 <= 3)%Z -> (1 <= c3 <= 4)%Z ->
  uc_arg Nm f c1 n c2 c3 N = Ok (f (uc_rad Nm (c1 * n + c2 * N) (c3 * N))).
Proof.
  intros H1 H2 H3. unfold uc_arg. assert (B : forall c, (-4 <= c <= 4)%Z -> (- (4 * N) <= c * n <= 4 * N)%Z) by (intros; nia).
  assert (B' : forall c, (-4 <= c <= 4)%Z -> (- (4 * N) <= c * N <= 4 * N)%Z) by (intros; nia).
  pose proof (B c1 ltac:(lia)). pose proof (B' c2 ltac:(lia)). pose proof (B' c3 ltac:(lia)). 
  rewrite (ichk_ok (c1 * n)), (ichk_ok (c2 * N)), (ichk_ok (c3 * N)) by (unfold INT_MIN, INT_MAX in *; lia). cbn [bind].
  rewrite ichk_ok by (unfold INT_MIN, INT_MAX in *; lia). reflexivity.
Qed.

(** which octant; q quarter turns are added to n/N *)
Definition quarter : Z :=
  (if 8 * n <? -7 * N then 4 else if 8 * n <? -5 * N then 3 else if 8 * n <? -3 * N then 2 else if 8 * n <? -1 * N then 1 else
   if 8 * n <? 1 * N then 0 else if 8 * n <? 3 * N then -1 else if 8 * n <? 5 * N then -2 else if 8 * n <? 7 * N then -3 else -4)%Z.
Definition red_s : Z :=
  (match quarter with 4 => n + N | 3 => 4 * n + 3 * N | 2 => 2 * n + N | 1 => 4 * n + N | 0 => n
   | -1 => 4 * n - N | -2 => 2 * n - N | -3 => 4 * n - 3 * N | _ => n - N end)%Z.
Definition red_d : Z := (match quarter with 3 | 1 | -1 | -3 => 4 * N | 2 | -2 => 2 * N | _ => N end)%Z.

Lemma red_ok : (0 < red_d)%Z /\ (8 * Z.abs red_s <= red_d)%Z /\ (4 * red_s * N = (4 * n + quarter * N) * red_d)%Z.
Proof.
  unfold red_s, red_d, quarter.
  repeat match goal with |- context [Z.ltb ?a ?b] => destruct (Z.ltb_spec a b) end; splits; try lia; ring.
Qed.

Ltac go := repeat match goal with
  | |- context [uc_lt ?n ?c ?N] =>
      let E := fresh "E" in
      assert (E : uc_lt n c N = Ok ((8 * n <? c * N)%Z)) by (unfold uc_lt; rewrite !ichk_ok by (unfold INT_MIN, INT_MAX in *; lia); reflexivity);
      rewrite E; clear E; cbn [bind]; destruct (Z.ltb_spec (8 * n) (c * N))
  end.

Lemma uc_cos_red : uc_cos Nm n N = Ok (match quarter with
  | 4 | 0 | -4 => cosine_approx Nm (uc_rad Nm red_s red_d) | 3 | -1 => nopp Nm (sine_approx Nm (uc_rad Nm red_s red_d))
  | 2 | -2 => nopp Nm (cosine_approx Nm (uc_rad Nm red_s red_d)) | _ => sine_approx Nm (uc_rad Nm red_s red_d) end%Z).
Proof.
  unfold uc_cos. unfold red_s, red_d, quarter. go; rewrite uc_arg_ok by lia;
  repeat match goal with |- context [Z.ltb ?a ?b] => destruct (Z.ltb_spec a b); try lia end; unfold neg; match goal with |- context [uc_rad Nm ?a ?b] => match goal with |- _ = ?r => match r with context [uc_rad Nm ?c ?d] => replace a with c by lia; replace b with d by lia end end end; reflexivity.
Qed.
Lemma uc_sin_red : uc_sin Nm n N = Ok (match quarter with
  | 4 | 0 | -4 => sine_approx Nm (uc_rad Nm red_s red_d) | 3 | -1 => cosine_approx Nm (uc_rad Nm red_s red_d)
  | 2 | -2 => nopp Nm (sine_approx Nm (uc_rad Nm red_s red_d)) | _ => nopp Nm (cosine_approx Nm (uc_rad Nm red_s red_d)) end%Z).
Proof.
  unfold uc_sin. unfold red_s, red_d, quarter. go; rewrite uc_arg_ok by lia;
  repeat match goal with |- context [Z.ltb ?a ?b] => destruct (Z.ltb_spec a b); try lia end; unfold neg; match goal with |- context [uc_rad Nm ?a ?b] => match goal with |- _ = ?r => match r with context [uc_rad Nm ?c ?d] => replace a with c by lia; replace b with d by lia end end end; reflexivity.
Qed.

Lemma quarter_cases : (quarter = 4 \/ quarter = 3 \/ quarter = 2 \/ quarter = 1 \/ quarter = 0 \/ quarter = -1 \/ quarter = -2 \/ quarter = -3 \/ quarter = -4)%Z.
Proof. unfold quarter. repeat match goal with |- context [Z.ltb ?a ?b] => destruct (Z.ltb_spec a b) end; lia. Qed.

Lemma red_angle : 2 * PI * (IZR red_s / IZR red_d) = 2 * PI * IZR n / IZR N + IZR quarter * (PI / 2).
Proof.
  destruct red_ok as (Hd & _ & E). apply (f_equal IZR) in E. rewrite !mult_IZR, plus_IZR, !mult_IZR in E.
  assert (IZR red_d <> 0) by (apply not_0_IZR; lia). assert (IZR N <> 0) by (apply not_0_IZR; lia).
  replace (IZR red_s / IZR red_d) with ((4 * IZR n + IZR quarter * IZR N) / (4 * IZR N)); [field; auto|].
  apply (Rmult_eq_reg_r (4 * IZR red_d * IZR N)); [|repeat apply Rmult_integral_contrapositive_currified; auto; lra].
  field_simplify; auto. lra.
Qed.
End Reduce.

Lemma cos_turn t : cos (t + 2 * PI) = cos t /\ sin (t + 2 * PI) = sin t /\ cos (t - 2 * PI) = cos t /\ sin (t - 2 * PI) = sin t.
Proof.
  splits.
  - rewrite cos_plus, cos_2PI, sin_2PI. ring.
  - rewrite sin_plus, cos_2PI, sin_2PI. ring.
  - rewrite cos_minus, cos_2PI, sin_2PI. ring.
  - rewrite sin_minus, cos_2PI, sin_2PI. ring.
Qed.
Lemma cos_quarter t : cos (t + PI / 2) = - sin t /\ sin (t + PI / 2) = cos t.
Proof. split; [rewrite cos_plus|rewrite sin_plus]; rewrite cos_PI2, sin_PI2; ring. Qed.

Lemma quarters t q (c s c' s' : R) : (q = 4 \/ q = 3 \/ q = 2 \/ q = 1 \/ q = 0 \/ q = -1 \/ q = -2 \/ q = -3 \/ q = -4)%Z ->
  c' = cos (t + IZR q * (PI / 2)) -> s' = sin (t + IZR q * (PI / 2)) ->
  cos t = match q with 4 | 0 | -4 => c' | 3 | -1 => (- s')%R | 2 | -2 => (- c')%R | _ => s' end%Z /\
  sin t = match q with 4 | 0 | -4 => s' | 3 | -1 => c' | 2 | -2 => (- s')%R | _ => (- c')%R end%Z.
Proof.
  intros Hq -> ->. clear c s. rewrite cos_plus, sin_plus.
  assert (V : forall q, (cos (IZR q * (PI / 2)) = match q with 4 | 0 | -4 => 1%R | 2 | -2 => (-1)%R | _ => 0%R end%Z /\
    sin (IZR q * (PI / 2)) = match q with 1 | -3 => 1%R | -1 | 3 => (-1)%R | _ => 0%R end%Z) \/ ~ (q = 4 \/ q = 3 \/ q = 2 \/ q = 1 \/ q = 0 \/ q = -1 \/ q = -2 \/ q = -3 \/ q = -4)%Z).
  { clear. intros q. destruct (Z_le_dec (-4) q), (Z_le_dec q 4); try (right; lia). left.
    assert (P : forall t, cos (- t) = cos t /\ sin (- t) = - sin t) by (intros; split; [apply cos_neg|apply sin_neg]).
    assert (q = 4 \/ q = 3 \/ q = 2 \/ q = 1 \/ q = 0 \/ q = -1 \/ q = -2 \/ q = -3 \/ q = -4)%Z as Hq by lia.
    assert (C3 : cos (3 * (PI / 2)) = 0 /\ sin (3 * (PI / 2)) = -1).
    { replace (3 * (PI / 2)) with (PI / 2 + PI) by field. rewrite neg_cos, neg_sin, cos_PI2, sin_PI2. split; ring. }
    destruct Hq as [->|[->|[->|[->|[->|[->|[->|[->| ->]]]]]]]].
    - replace (4 * (PI / 2)) with (2 * PI) by field. rewrite cos_2PI, sin_2PI. auto.
    - auto.
    - replace (2 * (PI / 2)) with PI by field. rewrite cos_PI, sin_PI. auto.
    - rewrite Rmult_1_l, cos_PI2, sin_PI2. auto.
    - rewrite Rmult_0_l, cos_0, sin_0. auto.
    - replace (-1 * (PI / 2)) with (- (PI / 2)) by field. destruct (P (PI / 2)) as [-> ->]. rewrite cos_PI2, sin_PI2. auto.
    - replace (-2 * (PI / 2)) with (- PI) by field. destruct (P PI) as [-> ->]. rewrite cos_PI, sin_PI. split; ring.
    - replace (-3 * (PI / 2)) with (- (3 * (PI / 2))) by field. destruct (P (3 * (PI / 2))) as [-> ->]. destruct C3 as [-> ->]. split; ring.
    - replace (-4 * (PI / 2)) with (- (2 * PI)) by field. destruct (P (2 * PI)) as [-> ->]. rewrite cos_2PI, sin_2PI. split; ring. }
  destruct (V q) as [[-> ->]|]; [|contradiction].
  destruct Hq as [->|[->|[->|[->|[->|[->|[->|[->| ->]]]]]]]]; split; ring.
Qed.

Lemma uc_acc n N : (1 <= N)%Z -> (Z.abs n <= N)%Z -> (8 * N <= INT_MAX)%Z ->
  exists c s, uc_cos Rn n N = Ok c /\ uc_sin Rn n N = Ok s /\
  Rabs (c - cos (2 * PI * IZR n / IZR N)) <= 3e-17 /\ Rabs (s - sin (2 * PI * IZR n / IZR N)) <= 3e-17.
Proof.
  intros HN Hn HI. rewrite uc_cos_red, uc_sin_red by auto. do 2 eexists. split; [reflexivity|]. split; [reflexivity|].
  destruct (red_ok n N) as (Hd & Hs & _); auto.
  pose proof (cos_case _ _ Hd Hs) as AC. pose proof (sin_case _ _ Hd Hs) as AS.
  destruct (quarters (2 * PI * IZR n / IZR N) (quarter n N) 0 0 _ _ (quarter_cases n N) eq_refl eq_refl) as [-> ->].
  rewrite red_angle in AC, AS by auto.
  assert (Ng : forall a b e, Rabs (a - b) <= e -> Rabs (- a - - b) <= e) by (intros a b e H; rewrite <- Rabs_Ropp; replace (- (- a - - b)) with (a - b) by ring; auto).
  cbn [nopp Rn].
  destruct (quarter_cases n N) as [Q|[Q|[Q|[Q|[Q|[Q|[Q|[Q| Q]]]]]]]]; rewrite Q in *; split; auto.
Qed.

(** kernel symmetry for odd roundings; the identity is one *)
Section Sym.
Context (rnd : R -> R) (Hodd : forall x, rnd (- x) = - rnd x).
Let F := Fn rnd.

Lemma rnd_0 : rnd 0 = 0.
Proof. pose proof (Hodd 0) as H. rewrite Ropp_0 in H. lra. Qed.
Lemma cosine_even x : cosine_approx F (- x) = cosine_approx F x.
Proof. unfold cosine_approx. cbn [F Fn nmul]. f_equal. f_equal. ring. Qed.
Lemma sine_odd x : sine_approx F (- x) = - sine_approx F x.
Proof. unfold sine_approx. cbn [F Fn nmul]. replace (- x * - x) with (x * x) by ring. unfold sine_kernel. cbn [F Fn nmul]. rewrite <- Hodd. f_equal. ring. Qed.
Lemma rad_odd s d : uc_rad F (- s) d = - uc_rad F s d.
Proof. unfold uc_rad. cbn [F Fn nmul ndiv nofZ]. rewrite opp_IZR, Hodd, Ropp_mult_distr_r_reverse, Hodd. unfold Rdiv. rewrite Ropp_mult_distr_l_reverse. apply Hodd. Qed.

Definition tie (n N : Z) : Prop := exists k, (Z.odd k = true /\ 8 * n = k * N)%Z.

Lemma quarter_opp n N : (1 <= N)%Z -> (Z.abs n <= N)%Z -> ~ tie n N ->
  (quarter (- n) N = - quarter n N /\ red_s (- n) N = - red_s n N /\ red_d (- n) N = red_d n N)%Z.
Proof.
  intros HN Hn Ht.
  assert (T : forall k, Z.odd k = true -> (8 * n <> k * N)%Z) by (intros k Hk E; apply Ht; exists k; auto).
  pose proof (T 1%Z eq_refl). pose proof (T 3%Z eq_refl). pose proof (T 5%Z eq_refl). pose proof (T 7%Z eq_refl).
  pose proof (T (-1)%Z eq_refl). pose proof (T (-3)%Z eq_refl). pose proof (T (-5)%Z eq_refl). pose proof (T (-7)%Z eq_refl). clear T Ht.
  assert (Q : quarter (- n) N = (- quarter n N)%Z).
  { unfold quarter. repeat match goal with |- context [Z.ltb ?a ?b] => destruct (Z.ltb_spec a b); try lia end. }
  unfold red_s, red_d. rewrite Q. split; auto.
  destruct (quarter_cases n N) as [->|[->|[->|[->|[->|[->|[->|[->| ->]]]]]]]]; cbn [Z.opp]; lia.
Qed.

Lemma uc_even_odd n N : (1 <= N)%Z -> (Z.abs n <= N)%Z -> (8 * N <= INT_MAX)%Z -> ~ tie n N ->
  exists c s, uc_cos F n N = Ok c /\ uc_cos F (- n) N = Ok c /\ uc_sin F n N = Ok s /\ uc_sin F (- n) N = Ok (- s).
Proof.
  intros HN Hn HI Ht. destruct (quarter_opp n N HN Hn Ht) as (Q & S & D).
  rewrite !uc_cos_red, !uc_sin_red by lia. rewrite Q, S, D, rad_odd.
  do 2 eexists. split; [reflexivity|]. split; [|split; [reflexivity|]]; f_equal;
  rewrite cosine_even, sine_odd; change (nopp F) with Ropp;
  destruct (quarter_cases n N) as [->|[->|[->|[->|[->|[->|[->|[->| ->]]]]]]]]; cbn [Z.opp]; rewrite ?Ropp_involutive; reflexivity.
Qed.

(** quarter turns are exact *)
Lemma rad_0 d : uc_rad F 0 d = 0.
Proof. unfold uc_rad. cbn [F Fn nmul ndiv nofZ]. rewrite rnd_0, Rmult_0_r, rnd_0. unfold Rdiv. rewrite Rmult_0_l. apply rnd_0. Qed.
Lemma cosine_0 : rnd 1 = 1 -> cosine_approx F 0 = 1.
Proof.
  intros H1. unfold cosine_approx, cosine_kernel. cbn [F Fn nmul nadd nlit]. rewrite !Rmult_0_l, rnd_0, !Rmult_0_l, rnd_0, Rplus_0_r. unfold uc_a1.
  replace 1.0 with 1 by lra. rewrite !H1. reflexivity.
Qed.
Lemma sine_0 : sine_approx F 0 = 0.
Proof. unfold sine_approx, sine_kernel. cbn [F Fn nmul]. rewrite !Rmult_0_l. apply rnd_0. Qed.

Lemma uc_quarters n N k : rnd 1 = 1 -> (1 <= N)%Z -> (Z.abs n <= N)%Z -> (8 * N <= INT_MAX)%Z -> (4 * n = k * N)%Z ->
  exists c s, uc_cos F n N = Ok c /\ uc_sin F n N = Ok s /\
  c = cos (IZR k * (PI / 2)) /\ s = sin (IZR k * (PI / 2)).
Proof.
  intros H1 HN Hn HI Hk. rewrite !uc_cos_red, !uc_sin_red by lia.
  assert (Hk4 : (-4 <= k <= 4)%Z) by nia.
  assert (Q : quarter n N = (- k)%Z).
  { unfold quarter. repeat match goal with |- context [Z.ltb ?a ?b] => destruct (Z.ltb_spec a b); try nia end. }
  assert (S : red_s n N = 0%Z).
  { unfold red_s. rewrite Q. assert (K : (k = 4 \/ k = 3 \/ k = 2 \/ k = 1 \/ k = 0 \/ k = -1 \/ k = -2 \/ k = -3 \/ k = -4)%Z) by lia.
    destruct K as [->|[->|[->|[->|[->|[->|[->|[->| ->]]]]]]]]; cbn [Z.opp]; lia. }
  rewrite Q, S, rad_0, cosine_0, sine_0 by auto. do 2 eexists. split; [reflexivity|]. split; [reflexivity|].
  assert (V := quarters (IZR k * (PI / 2)) (- k) 0 0 1 0). rewrite opp_IZR in V.
  replace (IZR k * (PI / 2) + - IZR k * (PI / 2)) with 0 in V by ring. rewrite cos_0, sin_0 in V.
  destruct V as [-> ->]; [lia|auto|auto|].
  assert (K : (k = 4 \/ k = 3 \/ k = 2 \/ k = 1 \/ k = 0 \/ k = -1 \/ k = -2 \/ k = -3 \/ k = -4)%Z) by lia.
  destruct K as [->|[->|[->|[->|[->|[->|[->|[->| ->]]]]]]]]; split; reflexivity.
Qed.
End Sym.

Lemma uc_pythagoras n N : (1 <= N)%Z -> (Z.abs n <= N)%Z -> (8 * N <= INT_MAX)%Z ->
  exists c s, uc_cos Rn n N = Ok c /\ uc_sin Rn n N = Ok s /\ Rabs (c * c + s * s - 1) <= 2e-16.
Proof.
  intros HN Hn HI. destruct (uc_acc n N HN Hn HI) as (c & s & C & S & AC & AS). exists c, s. split; auto. split; auto.
  pose proof (sin2_cos2 (2 * PI * IZR n / IZR N)) as P. unfold Rsqr in P.
  pose proof (COS_bound (2 * PI * IZR n / IZR N)). pose proof (SIN_bound (2 * PI * IZR n / IZR N)).
  set (x := cos (2 * PI * IZR n / IZR N)) in *. set (y := sin (2 * PI * IZR n / IZR N)) in *.
  replace (c * c + s * s - 1) with ((c - x) * (c - x + 2 * x) + (s - y) * (s - y + 2 * y)) by lra.
  clearbody x y. set (d := c - x) in *. set (e := s - y) in *. clearbody d e. apply Rabs_le_inv in AC, AS. interval.
Qed.

(** the two kernels differ at an eighth turn *)
Lemma uc_tie : exists c c', uc_cos Rn 1 8 = Ok c /\ uc_cos Rn (-1) 8 = Ok c' /\ c <> c'.
Proof.
  rewrite !uc_cos_red by (unfold INT_MAX; lia). do 2 eexists. split; [reflexivity|]. split; [reflexivity|].
  cbn -[sine_approx cosine_approx]. unfold cosine_approx, sine_approx, cosine_kernel, sine_kernel, uc_rad, TwoPi, TwoPi_lit. cbn [Rn nadd nmul ndiv nopp nlit nofZ]. lits.
  apply Rminus_not_eq. apply Rgt_not_eq.
  interval with (i_prec 200).
Qed.
