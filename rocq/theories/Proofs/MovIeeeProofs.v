(* MovMin and MovMax in IEEE formats *)
From Coq Require Import Reals ZArith Lra Lia List.
From Flocq Require Import Core IEEE754.BinarySingleNaN.
From Verif Require Import Proofs.BaseLemmas Proofs.MovExtProofs Proofs.WindowInst Proofs.MovNan Model.MovIeee Spec.Reduce Spec.NonFinite.
Import ListNotations.
Open Scope Z_scope.

Section MovIeee.
Context (prec emax : Z) {Hp : Prec_gt_0 prec} {Hpe : Prec_lt_emax prec emax}.
Notation bf := (binary_float prec emax).
Definition val (a : bf) : R := match a with B754_infinity s => if s then - bpow radix2 emax else bpow radix2 emax | _ => B2R a end.
Lemma fin_lt (a : bf) : is_finite a = true -> (- bpow radix2 emax < B2R a < bpow radix2 emax)%R.
Proof. intros H. pose proof (abs_B2R_lt_emax prec emax a) as L. apply Rabs_lt_inv in L. exact L. Qed.
Lemma val_fin (a : bf) : is_finite a = true -> val a = B2R a. Proof. destruct a; auto; discriminate. Qed.
Lemma inf_lt : (- bpow radix2 emax < bpow radix2 emax)%R. Proof. pose proof (bpow_gt_0 radix2 emax). lra. Qed.
Lemma lt_val (a b : bf) : ~ nan a -> ~ nan b -> Bltb a b = Rlt_bool (val a) (val b).
Proof.
  unfold nan. intros Na Nb. destruct (is_finite a) eqn:Fa, (is_finite b) eqn:Fb.
  - rewrite !val_fin by auto. apply Bltb_correct; auto.
  - rewrite val_fin by auto. pose proof (fin_lt a Fa). destruct b as [|[]| |]; try discriminate; cbn [val]; [rewrite Rlt_bool_false by lra|rewrite Rlt_bool_true by lra|destruct Nb; reflexivity]; destruct a as [|[]| |[]]; try discriminate; reflexivity.
  - rewrite (val_fin b) by auto. pose proof (fin_lt b Fb). destruct a as [|[]| |]; try discriminate; cbn [val]; [rewrite Rlt_bool_true by lra|rewrite Rlt_bool_false by lra|destruct Na; reflexivity]; destruct b as [|[]| |[]]; try discriminate; reflexivity.
  - pose proof inf_lt. destruct a as [|[]| |], b as [|[]| |]; try discriminate; cbn [val]; try (destruct Na; reflexivity); try (destruct Nb; reflexivity); [rewrite Rlt_bool_false by lra|rewrite Rlt_bool_true by lra|rewrite Rlt_bool_false by lra|rewrite Rlt_bool_false by lra]; reflexivity.
Qed.
Lemma eq_val (a b : bf) : ~ nan a -> ~ nan b -> Beqb a b = negb (Rlt_bool (val a) (val b)) && negb (Rlt_bool (val b) (val a)).
Proof.
  intros Na Nb. rewrite <- !lt_val by auto. unfold nan in *. destruct (is_finite a) eqn:Fa, (is_finite b) eqn:Fb.
  - rewrite Beqb_correct, !Bltb_correct by auto. destruct (Req_bool_spec (B2R a) (B2R b)), (Rlt_bool_spec (B2R a) (B2R b)), (Rlt_bool_spec (B2R b) (B2R a)); auto; lra.
  - destruct b as [|[]| |]; try discriminate; try (destruct Nb; reflexivity); destruct a as [|[]| |[]]; try discriminate; reflexivity.
  - destruct a as [|[]| |]; try discriminate; try (destruct Na; reflexivity); destruct b as [|[]| |[]]; try discriminate; reflexivity.
  - destruct a as [|[]| |], b as [|[]| |]; try discriminate; try (destruct Na; reflexivity); try (destruct Nb; reflexivity); reflexivity.
Qed.
Definition vlt (a b : bf) : bool := Rlt_bool (val a) (val b).
Lemma vlt_t a b : vlt a b = true <-> (val a < val b)%R. Proof. unfold vlt. destruct (Rlt_bool_spec (val a) (val b)); split; auto; try discriminate; intros; lra. Qed.
Lemma vlt_f a b : vlt a b = false <-> (val b <= val a)%R. Proof. unfold vlt. destruct (Rlt_bool_spec (val a) (val b)); split; auto; try discriminate; intros; lra. Qed.
Lemma movmin_gen init NUM (xs : list bf) : 0 < NUM -> ~ nan init -> (forall x, In x xs -> ~ nan x) ->
  (forall x, In x xs -> Beqb init x = false) \/ (forall x, In x xs -> Bltb init x = false) ->
  exists m vs, movext_run Beqb Bltb NUM init xs = Ok (m, vs) /\ length vs = length xs /\
    forall t v, nth_error vs t = Some v -> In v (lastn (Z.to_nat NUM) (firstn (S t) xs)) /\ forall y, In y (lastn (Z.to_nat NUM) (firstn (S t) xs)) -> Bltb y v = false.
Proof.
  intros Hn Ni Nx H. rewrite (movext_ext (fun x => ~ nan x) Beqb Bltb (MovExtProofs.eqb vlt) vlt NUM Hn init Ni).
  2:{ intros; apply eq_val; auto. } 2:{ intros; apply lt_val; auto. } 2:{ apply Forall_forall. auto. }
  destruct (movext_run_ok vlt) with (NUM := NUM) (init := init) (xs := xs) (P := fun x => In x xs) as (m & vs & E & L & B); auto.
  - intros a. apply vlt_f. lra.
  - intros a b c. rewrite !vlt_t. lra.
  - intros a b c. rewrite !vlt_t. destruct (Rlt_or_le (val a) (val c)); auto. right. lra.
  - destruct H as [H|H]; [left; intros y Hy|right; intros y Hy]; [unfold MovExtProofs.eqb, vlt; rewrite <- eq_val by auto; auto|unfold vlt; rewrite <- lt_val by auto; auto].
  - exists m, vs. rewrite E. split; [reflexivity|]. split; auto. intros t v Hv. destruct (B t v Hv) as [B1 B2]. split; auto. intros y Hy. rewrite lt_val; [apply B2; auto| |]; apply Nx.
    + apply lastn_incl in Hy. rewrite <- (firstn_skipn (S t) xs). apply in_app_iff. auto.
    + apply lastn_incl in B1. rewrite <- (firstn_skipn (S t) xs). apply in_app_iff. auto.
Qed.
Lemma movmax_gen init NUM (xs : list bf) : 0 < NUM -> ~ nan init -> (forall x, In x xs -> ~ nan x) ->
  (forall x, In x xs -> Beqb init x = false) \/ (forall x, In x xs -> Bltb x init = false) ->
  exists m vs, movext_run Beqb (fun a b => Bltb b a) NUM init xs = Ok (m, vs) /\ length vs = length xs /\
    forall t v, nth_error vs t = Some v -> In v (lastn (Z.to_nat NUM) (firstn (S t) xs)) /\ forall y, In y (lastn (Z.to_nat NUM) (firstn (S t) xs)) -> Bltb v y = false.
Proof.
  intros Hn Ni Nx H. set (vgt := fun a b => vlt b a). rewrite (movext_ext (fun x => ~ nan x) Beqb (fun a b => Bltb b a) (MovExtProofs.eqb vgt) vgt NUM Hn init Ni).
  2:{ intros; unfold MovExtProofs.eqb, vgt, vlt; rewrite andb_comm; apply eq_val; auto. } 2:{ intros; apply lt_val; auto. } 2:{ apply Forall_forall. auto. }
  destruct (movext_run_ok vgt) with (NUM := NUM) (init := init) (xs := xs) (P := fun x => In x xs) as (m & vs & E & L & B); auto.
  - intros a. apply vlt_f. lra.
  - intros a b c. unfold vgt. rewrite !vlt_t. lra.
  - intros a b c. unfold vgt. rewrite !vlt_t. destruct (Rlt_or_le (val c) (val a)); auto. right. lra.
  - destruct H as [H|H]; [left; intros y Hy|right; intros y Hy]; [unfold MovExtProofs.eqb, vgt, vlt; rewrite andb_comm, <- eq_val by auto; auto|unfold vgt, vlt; rewrite <- lt_val by auto; auto].
  - exists m, vs. rewrite E. split; [reflexivity|]. split; auto. intros t v Hv. destruct (B t v Hv) as [B1 B2]. split; auto. intros y Hy. rewrite lt_val; [apply B2; auto| |]; apply Nx.
    + apply lastn_incl in B1. rewrite <- (firstn_skipn (S t) xs). apply in_app_iff. auto.
    + apply lastn_incl in Hy. rewrite <- (firstn_skipn (S t) xs). apply in_app_iff. auto.
Qed.
Lemma max_not_nan : ~ nan (limits_max prec emax).
Proof. unfold nan, limits_max, Bmax_float. rewrite is_nan_SF2B. discriminate. Qed.
Lemma max_val : B2R (limits_max prec emax) = (bpow radix2 emax - bpow radix2 (emax - prec))%R.
Proof.
  unfold limits_max, Bmax_float. rewrite B2R_SF2B. unfold SF2R. cbn [cond_Zopp]. unfold F2R. cbn [Fnum Fexp cond_Zopp].
  assert (P : (0 < prec)%Z) by exact Hp. assert (1 < 2 ^ prec)%Z by (apply Z.pow_gt_1; lia).
  assert (E : Z.pos (shift_pos (Z.to_pos prec) 1 - 1) = 2 ^ prec - 1).
  { assert (S : Z.pos (shift_pos (Z.to_pos prec) 1) = 2 ^ prec) by (rewrite shift_pos_correct, Z.mul_1_r, Z.pow_pos_fold, Z2Pos.id by lia; reflexivity).
    rewrite Pos2Z.inj_sub; [rewrite S; reflexivity|]. enough (Z.pos 1 < Z.pos (shift_pos (Z.to_pos prec) 1)) by lia. rewrite S. lia. }
  rewrite E, minus_IZR, (IZR_Zpower radix2) by lia. rewrite Rmult_minus_distr_r, <- bpow_plus. rewrite Rmult_1_l. do 2 f_equal. lia.
Qed.
Lemma max_ge (x : bf) : x <> B754_infinity false -> Bltb (limits_max prec emax) x = false.
Proof.
  intros Hx. destruct (is_nan x) eqn:Nx; [destruct x; try discriminate; unfold Bltb, limits_max, Bmax_float; rewrite B2SF_SF2B; reflexivity|].
  rewrite lt_val; [|apply max_not_nan|unfold nan; congruence]. apply Rlt_bool_false. rewrite (val_fin (limits_max prec emax)) by (unfold limits_max, Bmax_float; rewrite is_finite_SF2B; reflexivity). rewrite max_val.
  destruct (is_finite x) eqn:F; [rewrite val_fin by auto; pose proof (abs_B2R_le_emax_minus_prec prec emax _ x) as L; apply Rabs_le_inv in L; lra|].
  destruct x as [|[]| |]; try discriminate; [|congruence]. cbn [val]. pose proof (bpow_le radix2 (emax - prec) emax ltac:(unfold Prec_gt_0 in Hp; lia)). pose proof (bpow_gt_0 radix2 emax). lra.
Qed.
Lemma min_val : is_finite (limits_min prec emax) = true /\ B2R (limits_min prec emax) = bpow radix2 (2 - emax).
Proof.
  unfold limits_min. pose proof (Bldexp_correct prec emax _ _ mode_NE Bone (2 - emax)) as H. rewrite Bone_correct, Rmult_1_l in H.
  assert (P : (0 < prec)%Z) by exact Hp. assert (Q : (prec < emax)%Z) by exact Hpe.
  assert (G : round radix2 (SpecFloat.fexp prec emax) (round_mode mode_NE) (bpow radix2 (2 - emax)) = bpow radix2 (2 - emax)).
  { apply round_generic; [apply valid_rnd_round_mode|]. apply generic_format_bpow. unfold SpecFloat.fexp, SpecFloat.emin. lia. }
  rewrite G in H. rewrite Rlt_bool_true in H; [|rewrite Rabs_pos_eq by apply bpow_ge_0; apply bpow_lt; lia]. destruct H as (E & F & _). rewrite F, is_finite_Bone. auto.
Qed.
Lemma min_not_nan : ~ nan (limits_min prec emax). Proof. unfold nan. pose proof (proj1 min_val). destruct (limits_min prec emax); discriminate. Qed.
Lemma movmin_ok NUM (xs : list bf) : 0 < NUM -> (forall x, In x xs -> ~ nan x) ->
  ~ In (B754_infinity false) xs \/ (forall x, In x xs -> Beqb (limits_max prec emax) x = false) ->
  exists m vs, movmin_ieee prec emax NUM xs = Ok (m, vs) /\ length vs = length xs /\
    forall t v, nth_error vs t = Some v -> In v (lastn (Z.to_nat NUM) (firstn (S t) xs)) /\ forall y, In y (lastn (Z.to_nat NUM) (firstn (S t) xs)) -> Bltb y v = false.
Proof. intros Hn Nx H. apply movmin_gen; auto using max_not_nan. destruct H as [H|H]; [right|left; auto]. intros x Hx. apply max_ge. intros ->. auto. Qed.
Lemma movmax_ok NUM (xs : list bf) : 0 < NUM -> (forall x, In x xs -> ~ nan x) ->
  (forall x, In x xs -> Bltb x (limits_min prec emax) = false) \/ (forall x, In x xs -> Beqb (limits_min prec emax) x = false) ->
  exists m vs, movmax_ieee prec emax NUM xs = Ok (m, vs) /\ length vs = length xs /\
    forall t v, nth_error vs t = Some v -> In v (lastn (Z.to_nat NUM) (firstn (S t) xs)) /\ forall y, In y (lastn (Z.to_nat NUM) (firstn (S t) xs)) -> Bltb v y = false.
Proof. intros Hn Nx H. apply movmax_gen; auto using min_not_nan. tauto. Qed.
Lemma nan_eqb (x y : bf) : nan x \/ nan y -> Beqb x y = false. Proof. unfold nan. destruct x, y; cbn; intros [H|H]; auto; discriminate. Qed.
Lemma nan_ltb (x y : bf) : nan x \/ nan y -> Bltb x y = false. Proof. unfold nan. destruct x, y; cbn; intros [H|H]; auto; discriminate. Qed.
Lemma movmin_nan NUM nu (xs ys : list bf) : 0 < NUM -> nan nu -> (forall i a b, nth_error ys i = Some a -> nth_error ys (S i) = Some b -> Bltb b a = false) -> 2 * NUM <= zlen ys ->
  movmin_ieee prec emax NUM (xs ++ nu :: ys) = AssertFail.
Proof. intros Hn Nu Asc L. apply after_nu; auto; intros; [apply nan_eqb|apply nan_ltb]; auto. Qed.
Lemma movmax_nan NUM nu (xs ys : list bf) : 0 < NUM -> nan nu -> (forall i a b, nth_error ys i = Some a -> nth_error ys (S i) = Some b -> Bltb a b = false) -> 2 * NUM <= zlen ys ->
  movmax_ieee prec emax NUM (xs ++ nu :: ys) = AssertFail.
Proof. intros Hn Nu Asc L. apply after_nu; auto; intros; [apply nan_eqb|apply nan_ltb]; auto. Qed.
End MovIeee.
