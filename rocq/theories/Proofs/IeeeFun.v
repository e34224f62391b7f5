(* UnitCircle and atan2 in the IEEE formats *)
From Coq Require Import ZArith Reals Lia Lra.
From Flocq Require Import Core BinarySingleNaN.
From Verif Require Import Model.Num Model.NumIeee Spec.Rounding Proofs.IeeeProofs Model.UnitCircle Model.Atan2 Proofs.UnitCircleProofs Proofs.UcRound Proofs.PhasorProofs Spec.Angle Proofs.Atan2Proofs Proofs.AtRound.
Open Scope R_scope.

Section Fun.
Context (prec emax : Z) {Hp : Prec_gt_0 prec} {Hpe : Prec_lt_emax prec emax}.
Context (P24 : (24 <= prec)%Z) (E128 : (128 <= emax)%Z).
Notation bf := (binary_float prec emax).
Notation fexp := (SpecFloat.fexp prec emax).
Notation rnd := (brnd prec emax).
Notation F := (Fn rnd). Notation B := (Bn prec emax).
Notation rep := (rep prec emax). Notation fits := (fits prec emax).

Instance vexp : Valid_exp fexp := fexp_correct prec emax Hp.
Lemma fexp_eq k : fexp k = FLT_exp (3 - emax - prec) prec k. Proof. reflexivity. Qed.
Lemma rnd_le x y : x <= y -> rnd x <= rnd y. Proof. intros. apply round_le; auto with typeclass_instances. Qed.
Lemma pow_fmt k : (-100 <= k)%Z -> generic_format radix2 fexp (bpow radix2 k).
Proof. intros H. apply generic_format_bpow. rewrite fexp_eq. unfold FLT_exp. pose proof (prec_lt_emax prec emax). lia. Qed.
Lemma rnd_pow k : (-100 <= k)%Z -> rnd (bpow radix2 k) = bpow radix2 k.
Proof. intros H. apply round_generic; [apply valid_rnd_N|]. apply pow_fmt; auto. Qed.
Lemma rnd_0 : rnd 0 = 0. Proof. apply round_0, valid_rnd_N. Qed.
Lemma rnd_opp x : rnd (- x) = - rnd x. Proof. apply round_NE_opp. Qed.
Lemma rnd_bnd x k : (-100 <= k)%Z -> Rabs x <= bpow radix2 k -> Rabs (rnd x) <= bpow radix2 k.
Proof. intros H X. apply abs_round_le_generic; auto with typeclass_instances. apply pow_fmt; auto. Qed.
Lemma rnd_ge k x : (-100 <= k)%Z -> bpow radix2 k <= x -> bpow radix2 k <= rnd x.
Proof. intros H X. rewrite <- (rnd_pow k H). apply rnd_le; auto. Qed.
Lemma rnd_pos x : 0 <= x -> 0 <= rnd x. Proof. intros. rewrite <- rnd_0. apply rnd_le; auto. Qed.
Lemma fits_bnd x k : (-100 <= k <= 100)%Z -> Rabs x <= bpow radix2 k -> fits x.
Proof. intros H X. unfold IeeeProofs.fits, small. eapply Rle_lt_trans; [apply (rnd_bnd x k); auto; lia|]. apply bpow_lt. lia. Qed.

(** b stands for x, and |x| <= 2^k *)
Definition rk (b : bf) (x : R) (k : Z) : Prop := rep b x /\ Rabs x <= bpow radix2 k.
Lemma rk_add a b x y k l : (-50 <= k <= 50)%Z -> (-50 <= l <= 50)%Z -> rk a x k -> rk b y l -> rk (nadd B a b) (nadd F x y) (Z.max k l + 1).
Proof.
  intros Hk Hl [A X] [C Y]. assert (S : Rabs (x + y) <= bpow radix2 (Z.max k l + 1)).
  { eapply Rle_trans; [apply Rabs_triang|]. rewrite bpow_plus. change (bpow radix2 1) with 2.
    assert (bpow radix2 k <= bpow radix2 (Z.max k l)) by (apply bpow_le; lia). assert (bpow radix2 l <= bpow radix2 (Z.max k l)) by (apply bpow_le; lia). lra. }
  split; [apply rep_add; auto; eapply fits_bnd; [|exact S]; lia|]. apply rnd_bnd; auto. lia.
Qed.
Lemma rk_sub a b x y k l : (-50 <= k <= 50)%Z -> (-50 <= l <= 50)%Z -> rk a x k -> rk b y l -> rk (nsub B a b) (nsub F x y) (Z.max k l + 1).
Proof.
  intros Hk Hl [A X] [C Y]. assert (S : Rabs (x - y) <= bpow radix2 (Z.max k l + 1)).
  { unfold Rminus. eapply Rle_trans; [apply Rabs_triang|]. rewrite Rabs_Ropp, bpow_plus. change (bpow radix2 1) with 2.
    assert (bpow radix2 k <= bpow radix2 (Z.max k l)) by (apply bpow_le; lia). assert (bpow radix2 l <= bpow radix2 (Z.max k l)) by (apply bpow_le; lia). lra. }
  split; [apply rep_sub; auto; eapply fits_bnd; [|exact S]; lia|]. apply rnd_bnd; auto. lia.
Qed.
Lemma rk_mul a b x y k l : (-50 <= k <= 50)%Z -> (-50 <= l <= 50)%Z -> rk a x k -> rk b y l -> rk (nmul B a b) (nmul F x y) (k + l).
Proof.
  intros Hk Hl [A X] [C Y]. assert (S : Rabs (x * y) <= bpow radix2 (k + l)) by (rewrite Rabs_mult, bpow_plus; apply Rmult_le_compat; auto using Rabs_pos).
  split; [apply rep_mul; auto; eapply fits_bnd; [|exact S]; lia|]. apply rnd_bnd; auto. lia.
Qed.
Lemma rk_div a b x y k l : (-50 <= k <= 50)%Z -> (-50 <= l <= 50)%Z -> rk a x k -> rep b y -> bpow radix2 l <= Rabs y -> rk (ndiv B a b) (ndiv F x y) (k - l).
Proof.
  intros Hk Hl [A X] C Y. pose proof (bpow_gt_0 radix2 l). assert (Ny : y <> 0) by (intros ->; rewrite Rabs_R0 in Y; lra).
  assert (S : Rabs (x / y) <= bpow radix2 (k - l)).
  { unfold Rdiv, Z.sub. rewrite Rabs_mult, Rabs_inv, bpow_plus, bpow_opp. apply Rmult_le_compat; auto using Rabs_pos.
    - apply Rlt_le, Rinv_0_lt_compat. lra.
    - apply Rinv_le_contravar; auto. }
  split; [apply rep_div; auto; eapply fits_bnd; [|exact S]; lia|]. apply rnd_bnd; auto. lia.
Qed.
Lemma rk_opp a x k : rk a x k -> rk (nopp B a) (nopp F x) k.
Proof. intros [A X]. split; [apply rep_opp; auto|]. cbn [nopp Fn]. rewrite Rabs_Ropp. auto. Qed.
Lemma rk_lit x k : (-50 <= k <= 50)%Z -> Rabs x <= bpow radix2 k -> rk (nlit B x) (nlit F x) k.
Proof. intros H X. split; [apply rep_lit; eapply fits_bnd; [|exact X]; lia|apply rnd_bnd; auto; lia]. Qed.
Lemma rk_ofZ z k : (0 <= k <= 50)%Z -> (Z.abs z <= 2 ^ k)%Z -> rk (nofZ B z) (nofZ F z) k.
Proof.
  intros H X. assert (S : Rabs (IZR z) <= bpow radix2 k) by (rewrite <- abs_IZR, <- (IZR_Zpower radix2) by lia; apply IZR_le; auto).
  split; [apply rep_ofZ; eapply fits_bnd; [|exact S]; lia|apply rnd_bnd; auto; lia].
Qed.
Lemma rk_1 : rk (n1 B) (n1 F) 0.
Proof. split; [apply rep_1|]. cbn [n1 Fn]. rewrite Rabs_R1. right. reflexivity. Qed.
Lemma rk_weak a x k l : (k <= l)%Z -> rk a x k -> rk a x l.
Proof. intros H [A X]. split; auto. eapply Rle_trans; [exact X|apply bpow_le; auto]. Qed.

Ltac numlit := apply Rabs_le; cbv - [Rle Rmult Rplus Rminus Ropp Rinv Rdiv IZR]; split; lra.
Ltac lit1 k := apply (rk_weak _ _ k); [lia|]; apply rk_lit; [lia|].
Ltac lt0 := match goal with |- rk (nlit _ ?a) _ _ => unfold a; apply rk_lit; [lia|apply Rabs_le; change (bpow radix2 0) with 1; lra] end.

Lemma cosine_rep b x : rk b x 0 -> rk (cosine_approx B b) (cosine_approx F x) 7.
Proof.
  intros H. unfold cosine_approx. pose proof (rk_mul _ _ _ _ 0 0 ltac:(lia) ltac:(lia) H H) as X. cbn [Z.add] in X.
  set (bb := nmul B b b) in *. set (xx := nmul F x x) in *. clearbody bb xx. unfold cosine_kernel.
  assert (H0 : rk (nlit B uc_a14) (nlit F uc_a14) 0) by lt0.
  assert (step : forall q p a k, (0 <= k <= 20)%Z -> rk q p k -> rk (nlit B a) (nlit F a) 0 -> rk (nadd B (nmul B bb q) (nlit B a)) (nadd F (nmul F xx p) (nlit F a)) (k + 1)).
  { intros q p a k Hk Hq Ha. pose proof (rk_mul _ _ _ _ 0 k ltac:(lia) ltac:(lia) X Hq) as M. replace (k + 1)%Z with (Z.max (0 + k) 0 + 1)%Z by lia. apply rk_add; auto; lia. }
  apply (step _ _ uc_a12 0%Z ltac:(lia)) in H0; [|lt0]. apply (step _ _ uc_a10 1%Z ltac:(lia)) in H0; [|lt0]. apply (step _ _ uc_a8 2%Z ltac:(lia)) in H0; [|lt0].
  apply (step _ _ uc_a6 3%Z ltac:(lia)) in H0; [|lt0]. apply (step _ _ uc_a4 4%Z ltac:(lia)) in H0; [|lt0]. apply (step _ _ uc_a2 5%Z ltac:(lia)) in H0; [|lt0].
  pose proof (rk_mul _ _ _ _ 0 6 ltac:(lia) ltac:(lia) X H0) as M. apply (rk_add _ _ _ _ 0 6); [lia|lia|lt0|exact M].
Qed.
Lemma sine_rep b x : rk b x 0 -> rk (sine_approx B b) (sine_approx F x) 6.
Proof.
  intros H. unfold sine_approx. pose proof (rk_mul _ _ _ _ 0 0 ltac:(lia) ltac:(lia) H H) as X. cbn [Z.add] in X.
  set (bb := nmul B b b) in *. set (xx := nmul F x x) in *. clearbody bb xx. unfold sine_kernel.
  assert (H0 : rk (nlit B uc_a13) (nlit F uc_a13) 0) by lt0.
  assert (step : forall q p a k, (0 <= k <= 20)%Z -> rk q p k -> rk (nlit B a) (nlit F a) 0 -> rk (nadd B (nmul B bb q) (nlit B a)) (nadd F (nmul F xx p) (nlit F a)) (k + 1)).
  { intros q p a k Hk Hq Ha. pose proof (rk_mul _ _ _ _ 0 k ltac:(lia) ltac:(lia) X Hq) as M. replace (k + 1)%Z with (Z.max (0 + k) 0 + 1)%Z by lia. apply rk_add; auto; lia. }
  apply (step _ _ uc_a11 0%Z ltac:(lia)) in H0; [|lt0]. apply (step _ _ uc_a9 1%Z ltac:(lia)) in H0; [|lt0]. apply (step _ _ uc_a7 2%Z ltac:(lia)) in H0; [|lt0].
  apply (step _ _ uc_a5 3%Z ltac:(lia)) in H0; [|lt0]. apply (step _ _ uc_a3 4%Z ltac:(lia)) in H0; [|lt0]. apply (step _ _ uc_a1 5%Z ltac:(lia)) in H0; [|lt0].
  apply (rk_mul _ _ _ _ 0 6 ltac:(lia) ltac:(lia) H H0).
Qed.

Definition uu : R := bpow radix2 (- prec). Definition ee : R := bpow radix2 (2 - emax - prec).
Lemma rnd_ok : rounding uu ee rnd.
Proof. unfold uu, ee. replace (2 - emax - prec)%Z with (3 - emax - prec - 1)%Z by lia. apply flt_rounding; lia. Qed.
Lemma uu_range : 0 < uu <= 1 / 10000000. 
Proof.
  unfold uu. split; [apply bpow_gt_0|]. apply Rle_trans with (bpow radix2 (-24)); [apply bpow_le; lia|]. change (bpow radix2 (-24)) with (/ 16777216). lra.
Qed.
Lemma ee_range : 0 <= ee <= uu * 1e-36.
Proof.
  unfold uu, ee. split; [apply bpow_ge_0|]. replace (2 - emax - prec)%Z with (- prec + (2 - emax))%Z by lia. rewrite bpow_plus. apply Rmult_le_compat_l; [apply bpow_ge_0|].
  apply Rle_trans with (bpow radix2 (-126)); [apply bpow_le; lia|]. change (bpow radix2 (-126)) with (/ 85070591730234615865843651857942052864). lra.
Qed.
Lemma ee_range6 : 0 <= ee <= uu / 1000000. Proof. pose proof uu_range. pose proof ee_range. lra. Qed.

Lemma rad_rep s d : (0 < d)%Z -> (8 * Z.abs s <= d)%Z -> (d <= INT_MAX)%Z -> rk (uc_rad B s d) (uc_rad F s d) 0.
Proof.
  intros Hd Hs HI. unfold INT_MAX in HI. pose proof uu_range as U. pose proof ee_range6 as E6.
  destruct (rad_acc' uu ee rnd ltac:(lra) E6 rnd_ok s d Hd Hs) as [Q _].
  assert (D1 : 1 <= rnd (IZR d)). { change 1 with (bpow radix2 0). apply rnd_ge; [lia|]. change (bpow radix2 0) with 1. apply IZR_le. lia. }
  assert (T : rk (uc_rad B s d) (uc_rad F s d) (3 + 31 - 0)).
  { unfold uc_rad, TwoPi. apply rk_div; [lia|lia| | |].
    - apply rk_mul; [lia|lia| |].
      + apply rk_lit; [lia|]. unfold TwoPi_lit. apply Rabs_le. change (bpow radix2 3) with 8. lra.
      + apply rk_ofZ; [lia|]. change (2 ^ 31)%Z with 2147483648%Z. lia.
    - apply (rk_ofZ d 31); [lia|]. change (2 ^ 31)%Z with 2147483648%Z. lia.
    - cbn [nofZ Fn]. change (bpow radix2 0) with 1. rewrite Rabs_pos_eq; lra. }
  destruct T as [T _]. split; auto. change (bpow radix2 0) with 1. lra.
Qed.

Lemma uc_rep n N : (1 <= N)%Z -> (Z.abs n <= N)%Z -> (8 * N <= INT_MAX)%Z ->
  exists bc bs c s, uc_cos B n N = Ok bc /\ uc_sin B n N = Ok bs /\ uc_cos F n N = Ok c /\ uc_sin F n N = Ok s /\ rep bc c /\ rep bs s.
Proof.
  intros HN Hn HI. rewrite !uc_cos_red, !uc_sin_red by auto. destruct (red_ok n N) as (Hd & Hs & _); auto.
  assert (HD : (red_d n N <= INT_MAX)%Z) by (unfold red_d; repeat match goal with |- context [match ?q with _ => _ end] => destruct q end; lia).
  pose proof (rad_rep _ _ Hd Hs HD) as R. destruct (cosine_rep _ _ R) as [C _]. destruct (sine_rep _ _ R) as [S _].
  do 4 eexists. do 4 (split; [reflexivity|]).
  destruct (quarter_cases n N) as [->|[->|[->|[->|[->|[->|[->|[->| ->]]]]]]]]; split; auto; apply rep_opp; auto.
Qed.

(** ** atan2 *)
Ltac ltk k := apply rk_lit; [lia|apply Rabs_le; let v := eval cbv in (2 ^ k)%Z in change (bpow radix2 k) with (IZR v); lra].

Lemma kernel_rep b x : rk b x 0 -> rk (atan_kernel B b) (atan_kernel F x) 11.
Proof.
  intros H. unfold atan_kernel. pose proof (rk_mul _ _ _ _ 0 0 ltac:(lia) ltac:(lia) H H) as X. cbn [Z.add] in X.
  assert (X0 : 0 <= nmul F x x) by (apply rnd_pos; apply Rle_0_sqr).
  set (bb := nmul B b b) in *. set (xx := nmul F x x) in *. clearbody bb xx.
  assert (step : forall q p a c k l, (0 <= k <= 20)%Z -> (0 <= l <= 20)%Z -> rk q p k -> rk c a l -> rk (nadd B (nmul B bb q) c) (nadd F (nmul F xx p) a) (Z.max k l + 1)).
  { intros q p a c k l Hk Hl Hq Ha. pose proof (rk_mul _ _ _ _ 0 k ltac:(lia) ltac:(lia) X Hq) as M. replace (Z.max k l + 1)%Z with (Z.max (0 + k) l + 1)%Z by lia. apply rk_add; auto; lia. }
  assert (P0 : rk (nlit B at_P0) (nlit F at_P0) 0) by (unfold at_P0; ltk 0%Z). assert (P1 : rk (nlit B at_P1) (nlit F at_P1) 5) by (unfold at_P1; ltk 5%Z).
  assert (P2 : rk (nlit B at_P2) (nlit F at_P2) 7) by (unfold at_P2; ltk 7%Z). assert (P3 : rk (nlit B at_P3) (nlit F at_P3) 7) by (unfold at_P3; ltk 7%Z).
  assert (P4 : rk (nlit B at_P4) (nlit F at_P4) 7) by (unfold at_P4; ltk 7%Z).
  assert (Q0 : rk (nlit B at_Q0) (nlit F at_Q0) 5) by (unfold at_Q0; ltk 5%Z). assert (Q1 : rk (nlit B at_Q1) (nlit F at_Q1) 8) by (unfold at_Q1; ltk 8%Z).
  assert (Q2 : rk (nlit B at_Q2) (nlit F at_Q2) 9) by (unfold at_Q2; ltk 9%Z). assert (Q3 : rk (nlit B at_Q3) (nlit F at_Q3) 9) by (unfold at_Q3; ltk 9%Z).
  assert (Q4 : rk (nlit B at_Q4) (nlit F at_Q4) 8) by (unfold at_Q4; ltk 8%Z).
  pose proof (step _ _ _ _ 0%Z 5%Z ltac:(lia) ltac:(lia) P0 P1) as A. pose proof (step _ _ _ _ 6%Z 7%Z ltac:(lia) ltac:(lia) A P2) as A2.
  pose proof (step _ _ _ _ 8%Z 7%Z ltac:(lia) ltac:(lia) A2 P3) as A3. pose proof (step _ _ _ _ 9%Z 7%Z ltac:(lia) ltac:(lia) A3 P4) as A4. clear A A2 A3.
  pose proof (rk_add _ _ _ _ 0 5 ltac:(lia) ltac:(lia) X Q0) as D. pose proof (step _ _ _ _ 6%Z 8%Z ltac:(lia) ltac:(lia) D Q1) as D1.
  pose proof (step _ _ _ _ 9%Z 9%Z ltac:(lia) ltac:(lia) D1 Q2) as D2. pose proof (step _ _ _ _ 10%Z 9%Z ltac:(lia) ltac:(lia) D2 Q3) as D3.
  pose proof (step _ _ _ _ 11%Z 8%Z ltac:(lia) ltac:(lia) D3 Q4) as D4.
  assert (pos : forall p a, 0 <= p -> 0 <= a -> 0 <= nadd F (nmul F xx p) (nlit F a)).
  { intros p a Hpp Ha. apply rnd_pos. apply Rplus_le_le_0_compat; apply rnd_pos; auto. apply Rmult_le_pos; auto. }
  assert (L : 128 <= nadd F (nmul F xx (nadd F (nmul F xx (nadd F (nmul F xx (nadd F (nmul F xx (nadd F xx (nlit F at_Q0))) (nlit F at_Q1))) (nlit F at_Q2))) (nlit F at_Q3))) (nlit F at_Q4)).
  { change 128 with (bpow radix2 7). apply rnd_ge; [lia|].
    assert (G : bpow radix2 7 <= nlit F at_Q4) by (apply rnd_ge; [lia|]; unfold at_Q4; change (bpow radix2 7) with 128; lra).
    match goal with |- _ <= ?a + _ => assert (0 <= a) end; [|lra].
    apply rnd_pos, Rmult_le_pos; auto. apply pos; [|unfold at_Q3; lra]. apply pos; [|unfold at_Q2; lra]. apply pos; [|unfold at_Q1; lra].
    apply rnd_pos, Rplus_le_le_0_compat; auto. apply rnd_pos. unfold at_Q0. lra. }
  pose proof (rk_mul _ _ _ _ 0 0 ltac:(lia) ltac:(lia) H X) as Y. pose proof (rk_mul _ _ _ _ 0 10 ltac:(lia) ltac:(lia) Y A4) as Y2. cbn [Z.add] in Y2.
  destruct D4 as [D4 _]. pose proof (rk_div _ _ _ _ 10 0 ltac:(lia) ltac:(lia) Y2 D4) as Y3. refine (rk_add _ _ _ _ 0 10 ltac:(lia) ltac:(lia) H (Y3 _)).
  change (bpow radix2 0) with 1. rewrite Rabs_pos_eq; lra.
Qed.

Lemma l66 : rk (nlit B 0.66) (nlit F 0.66) 0. Proof. ltk 0%Z. Qed.
Lemma l241 : rk (nlit B 2.41421356237309504880) (nlit F 2.41421356237309504880) 2. Proof. ltk 2%Z. Qed.
Lemma halfpi_mb : rk (nadd B (HalfPi B) (nlit B at_MOREBITS)) (nadd F (HalfPi F) (nlit F at_MOREBITS)) 2.
Proof. apply (rk_add _ _ _ _ 1 0); [lia|lia| |]; [unfold HalfPi, HalfPi_lit; ltk 1%Z|unfold at_MOREBITS; ltk 0%Z]. Qed.

Lemma approx_rep b x : rep b x -> 0 <= x -> rk (atan_approx B b) (atan_approx F x) 12.
Proof.
  intros H X0. unfold atan_approx. destruct l66 as [L6 M6]. destruct l241 as [L2 M2].
  rewrite (rep_leb _ _ _ _ _ _ H L6), (rep_ltb _ _ _ _ _ _ L2 H). cbn [nleb nltb Fn].
  destruct (Rle_bool_spec x (nlit F 0.66)) as [S|S].
  { apply (rk_weak _ _ 11); [lia|]. apply kernel_rep. split; auto. rewrite Rabs_pos_eq by auto. eapply Rle_trans; [exact S|]. eapply Rle_trans; [apply Rle_abs|exact M6]. }
  destruct (Rlt_bool_spec (nlit F 2.41421356237309504880) x) as [G|G].
  - assert (X1 : 1 <= x). { assert (bpow radix2 0 <= nlit F 2.41421356237309504880) by (apply rnd_ge; [lia|]; change (bpow radix2 0) with 1; lra). change (bpow radix2 0) with 1 in *. lra. }
    apply (rk_sub _ _ _ _ 2 11); [lia|lia|exact halfpi_mb|]. apply kernel_rep. change 0%Z with (0 - 0)%Z. apply rk_div; [lia|lia|exact rk_1|exact H|].
    change (bpow radix2 0) with 1. rewrite Rabs_pos_eq; lra.
  - assert (X4 : Rabs x <= bpow radix2 2) by (rewrite Rabs_pos_eq by auto; eapply Rle_trans; [exact G|]; eapply Rle_trans; [apply Rle_abs|exact M2]).
    assert (RX : rk b x 2) by (split; auto).
    assert (A : rk (nadd B (FourthPi B) (nmul B (nlit B 0.5) (nlit B at_MOREBITS))) (nadd F (FourthPi F) (nmul F (nlit F 0.5) (nlit F at_MOREBITS))) 1).
    { apply (rk_add _ _ _ _ 0 0); [lia|lia|unfold FourthPi, FourthPi_lit; ltk 0%Z|]. apply (rk_mul _ _ _ _ 0 0); [lia|lia|ltk 0%Z|unfold at_MOREBITS; ltk 0%Z]. }
    apply (rk_add _ _ _ _ 1 11); [lia|lia|exact A|]. apply kernel_rep.
    pose proof (rk_sub _ _ _ _ 2 0 ltac:(lia) ltac:(lia) RX rk_1) as N1. pose proof (rk_add _ _ _ _ 2 0 ltac:(lia) ltac:(lia) RX rk_1) as D1.
    assert (DL : 1 <= nadd F x (n1 F)). { change 1 with (bpow radix2 0) at 1. apply rnd_ge; [lia|]. change (bpow radix2 0) with 1. cbn [n1 Fn]. lra. }
    assert (Q : rk (ndiv B (nsub B b (n1 B)) (nadd B b (n1 B))) (ndiv F (nsub F x (n1 F)) (nadd F x (n1 F))) (3 - 0)).
    { apply rk_div; [lia|lia|exact N1|apply D1|]. change (bpow radix2 0) with 1. rewrite Rabs_pos_eq; lra. }
    destruct Q as [Q _]. split; auto. apply rnd_bnd; [lia|]. change (bpow radix2 0) with 1.
    assert (NL : Rabs (nsub F x (n1 F)) <= nadd F x (n1 F)).
    { cbn [nsub nadd n1 Fn]. apply Rabs_le. split; [rewrite <- rnd_opp|]; apply rnd_le; lra. }
    unfold Rdiv. rewrite Rabs_mult, Rabs_inv, (Rabs_pos_eq (nadd F x (n1 F))) by lra. apply (Rmult_le_reg_r (nadd F x (n1 F))); [lra|]. rewrite Rmult_assoc, Rinv_l by lra. lra.
Qed.

(** an infinite argument gives the same as a number so large that its reciprocal underflows to zero *)
Definition huge : R := bpow radix2 (emax + prec).
Lemma huge_big : bpow radix2 100 <= huge. Proof. apply bpow_le. lia. Qed.
Lemma rnd_huge : rnd huge = huge. Proof. apply rnd_pow. pose proof Hp. unfold Prec_gt_0 in *. lia. Qed.
Lemma inv_huge : rnd (1 / huge) = 0.
Proof.
  unfold huge, Rdiv. rewrite Rmult_1_l, <- bpow_opp. unfold brnd. apply (round_N_small radix2 fexp _ _ (- (emax + prec) + 1)).
  - rewrite Rabs_pos_eq by apply bpow_ge_0. split; [right; f_equal; lia|apply bpow_lt; lia].
  - rewrite fexp_eq. unfold FLT_exp. lia.
Qed.
Lemma div_inf (a : bf) s : is_finite a = true -> exists t, ndiv B a (B754_infinity s) = B754_zero t.
Proof. intros H. cbn [ndiv Bn]. destruct a; try discriminate H; eexists; reflexivity. Qed.
Lemma approx_inf : rk (atan_approx B (B754_infinity false)) (atan_approx F huge) 12.
Proof.
  unfold atan_approx. destruct l66 as [L6 M6]. destruct l241 as [L2 M2]. pose proof huge_big as HB.
  assert (C1 : nleb B (B754_infinity false) (nlit B 0.66) = false) by (destruct L6 as [L6 _]; destruct (nlit B 0.66); try discriminate L6; reflexivity).
  assert (C2 : nltb B (nlit B 2.41421356237309504880) (B754_infinity false) = true) by (destruct L2 as [L2 _]; destruct (nlit B 2.41421356237309504880) as [| | |[]]; try discriminate L2; reflexivity).
  rewrite C1, C2. cbn [nleb nltb Fn]. assert (B2 : 4 < bpow radix2 100) by (change 4 with (bpow radix2 2); apply bpow_lt; lia).
  change (bpow radix2 0) with 1 in M6. change (bpow radix2 2) with 4 in M2. apply Rabs_le_inv in M6, M2. cbn [nlit Fn] in M6, M2.
  cbn [nlit Fn]. rewrite Rle_bool_false, Rlt_bool_true by lra.
  apply (rk_sub _ _ _ _ 2 11); [lia|lia|exact halfpi_mb|]. apply kernel_rep. cbn [ndiv Fn n1]. rewrite inv_huge.
  destruct (div_inf (n1 B) false) as (t & E); [apply rk_1|]. cbn [n1 Bn] in E |- *. rewrite E. split; [split; reflexivity|]. rewrite Rabs_R0. apply bpow_ge_0.
Qed.

Lemma atan_rep b x : rep b x -> rk (Atan2.atan B b) (Atan2.atan F x) 12.
Proof.
  intros H. unfold Atan2.atan. rewrite (rep_leb _ _ _ _ _ _ (rep_0 prec emax) H). cbn [nleb Fn n0]. destruct (Rle_bool_spec 0 x) as [S|S].
  - apply approx_rep; auto.
  - apply rk_opp. apply approx_rep; [apply rep_opp; auto|cbn [nopp Fn]; lra].
Qed.
Lemma atan_inf s : rk (Atan2.atan B (B754_infinity s)) (Atan2.atan F (if s then - huge else huge)) 12.
Proof.
  unfold Atan2.atan. pose proof huge_big. pose proof (bpow_gt_0 radix2 100). cbn [nleb Fn n0]. destruct s.
  - change (nleb B (n0 B) (B754_infinity true)) with false. rewrite Rle_bool_false by lra. apply rk_opp. cbn [nopp Fn]. rewrite Ropp_involutive. apply approx_inf.
  - change (nleb B (n0 B) (B754_infinity false)) with true. rewrite Rle_bool_true by lra. apply approx_inf.
Qed.

(** y, or what stands for it if the quotient y/x overflows *)
Definition yeff (y x : R) : R := if Rlt_bool (Rabs (rnd (y / x))) (bpow radix2 emax) then y else if Rlt_bool (y / x) 0 then - huge * x else huge * x.

Lemma copysign_rep b x k s : rk b x k -> rk (copysign B b s) (copysign F x s) k.
Proof. intros H. unfold copysign. destruct s; auto. apply rk_opp; auto. Qed.
Lemma sign_R (b : bf) : is_finite b = true -> B2R b <> 0 -> Bsign b = Rlt_bool (B2R b) 0.
Proof.
  intros H N. destruct b as [| | |s m e]; try discriminate H; [exfalso; apply N; reflexivity|]. cbn [Bsign B2R]. destruct s.
  - rewrite Rlt_bool_true; auto. apply F2R_lt_0. reflexivity.
  - rewrite Rlt_bool_false; auto. apply F2R_ge_0. discriminate.
Qed.

Lemma atan2_rep sy by_ bx y x : rep by_ y -> rep bx x -> rk (Atan2.atan2 B sy by_ bx) (Atan2.atan2 F sy (yeff y x) x) 13.
Proof.
  intros Hy Hx. unfold Atan2.atan2. pose proof (rep_0 prec emax) as R0. pose proof huge_big as HB. pose proof (bpow_gt_0 radix2 100) as B1.
  rewrite (rep_eqb _ _ _ _ _ _ Hy R0), (rep_leb _ _ _ _ _ _ R0 Hx), (rep_eqb _ _ _ _ _ _ Hx R0), (rep_ltb _ _ _ _ _ _ Hx R0). cbn [neqb nleb nltb n0 Fn].
  assert (K0 : rk (n0 B) (n0 F) 2) by (split; auto; cbn [n0 Fn]; rewrite Rabs_R0; apply bpow_ge_0).
  assert (Kpi : rk (Pi B) (Pi F) 2) by (unfold Pi, Pi_lit; ltk 2%Z). assert (Khp : rk (HalfPi B) (HalfPi F) 1) by (unfold HalfPi, HalfPi_lit; ltk 1%Z).
  assert (Y0 : Req_bool (yeff y x) 0 = Req_bool y 0).
  { unfold yeff. destruct (Rlt_bool_spec (Rabs (rnd (y / x))) (bpow radix2 emax)) as [G|G]; auto.
    assert (NZ : y / x <> 0) by (intros Z; rewrite Z, rnd_0, Rabs_R0 in G; pose proof (bpow_gt_0 radix2 emax); lra).
    assert (Ny : y <> 0) by (intros ->; apply NZ; unfold Rdiv; ring). assert (Nx : x <> 0).
    { intros ->. apply NZ. unfold Rdiv. rewrite Rinv_0. ring. }
    rewrite (Req_bool_false y) by auto. destruct (Rlt_bool (y / x) 0); apply Req_bool_false; intros Z; apply Rmult_integral in Z; lra. }
  rewrite Y0. destruct (Req_bool_spec y 0) as [E|E].
  { destruct (Rle_bool 0 x); (eapply rk_weak; [|apply copysign_rep; eassumption]; lia). }
  destruct (Req_bool_spec x 0) as [Ex|Ex].
  { eapply rk_weak; [|apply copysign_rep; exact Khp]. lia. }
  assert (PH : rk (Atan2.atan B (ndiv B by_ bx)) (Atan2.atan F (ndiv F (yeff y x) x)) 12).
  { unfold yeff. destruct (Rlt_bool_spec (Rabs (rnd (y / x))) (bpow radix2 emax)) as [G|G].
    - apply atan_rep. apply rep_div; auto.
    - destruct Hy as [Fy <-], Hx as [Fx <-]. pose proof (Bdiv_correct prec emax _ _ mode_NE by_ bx Ex) as P. cbn [round_mode] in P. rewrite Rlt_bool_false in P by exact G.
      unfold binary_overflow, overflow_to_inf in P. 
      assert (Q : ndiv B by_ bx = B754_infinity (xorb (Bsign by_) (Bsign bx))).
      { cbn [ndiv Bn]. destruct (Bdiv mode_NE by_ bx); cbn in P; try discriminate P. inversion P. reflexivity. }
      rewrite Q. rewrite (sign_R by_), (sign_R bx) by auto.
      replace (xorb (Rlt_bool (B2R by_) 0) (Rlt_bool (B2R bx) 0)) with (Rlt_bool (B2R by_ / B2R bx) 0).
      2:{ destruct (Rlt_bool_spec (B2R by_) 0), (Rlt_bool_spec (B2R bx) 0); cbn [xorb]; [apply Rlt_bool_false|apply Rlt_bool_true|apply Rlt_bool_true|apply Rlt_bool_false].
          - pose proof (Rinv_lt_0_compat (B2R bx) ltac:(lra)). unfold Rdiv. nra.
          - pose proof (Rinv_0_lt_compat (B2R bx) ltac:(lra)). unfold Rdiv. nra.
          - pose proof (Rinv_lt_0_compat (B2R bx) ltac:(lra)). unfold Rdiv. assert (0 < B2R by_) by lra. nra.
          - pose proof (Rinv_0_lt_compat (B2R bx) ltac:(lra)). unfold Rdiv. nra. }
      match goal with |- rk _ (Atan2.atan F (ndiv F ?w _)) _ => replace (ndiv F w (B2R bx)) with (if Rlt_bool (B2R by_ / B2R bx) 0 then - huge else huge) end; [apply atan_inf|].
      cbn [ndiv Fn]. destruct (Rlt_bool (B2R by_ / B2R bx) 0).
      + replace (- huge * B2R bx / B2R bx) with (- huge) by (field; auto). rewrite rnd_opp, rnd_huge. reflexivity.
      + replace (huge * B2R bx / B2R bx) with huge by (field; auto). rewrite rnd_huge. reflexivity. }
  destruct (Rlt_bool_spec x 0) as [S|S]; [|eapply rk_weak; [|exact PH]; lia].
  assert (R0' : rep (n0 B) 0) by exact R0. rewrite (rep_ltb _ _ _ _ _ _ R0 (proj1 PH)). cbn [nltb Fn n0].
  destruct (Rlt_bool 0 _); [apply (rk_sub _ _ _ _ 12 2)|apply (rk_add _ _ _ _ 12 2)]; auto; lia.
Qed.

Lemma atan_big a b h : 0 < h -> h <= a -> h <= b -> Rabs (Ratan.atan a - Ratan.atan b) <= / h.
Proof.
  intros H A B'.
  assert (G : forall z, h <= z -> 0 < Ratan.atan (/ z) <= / h /\ Ratan.atan z = PI / 2 - Ratan.atan (/ z)).
  { intros z Z. assert (0 < / z) by (apply Rinv_0_lt_compat; lra). split; [split|].
    - rewrite <- Ratan.atan_0. apply atan_increasing; auto.
    - apply Rle_trans with (/ z); [|apply Rinv_le; auto].
      pose proof (AtRound.atan_lip (/ z) 0) as L. rewrite Ratan.atan_0, !Rminus_0_r in L. rewrite (Rabs_pos_eq (/ z)) in L by lra. eapply Rle_trans; [apply Rle_abs|exact L].
    - rewrite atan_inv by lra. lra. }
  destruct (G a A) as [[? ?] ->], (G b B') as [[? ?] ->]. apply Rabs_le. lra.
Qed.
Lemma angle_right x y t : 0 < x -> angle_of x y t -> t = Ratan.atan (y / x).
Proof. intros X A. apply (angle_unique x y); auto; [lra|apply atan_polar; auto]. Qed.
Lemma angle_left x y t : x < 0 -> y <> 0 -> angle_of x y t -> t = Ratan.atan (y / x) + (if Rlt_bool 0 y then PI else - PI).
Proof.
  intros X Y A. apply (angle_unique x y); auto; [lra|]. pose proof (atan_polar (- x) (- y) ltac:(lra)) as P. replace (- y / - x) with (y / x) in P by (field; lra).
  pose proof (angle_turn _ _ _ P) as G. rewrite !Ropp_involutive in G. pose proof (Ratan.atan_bound (y / x)) as AB. pose proof PI_RGT_0.
  destruct (Rlt_bool_spec 0 y) as [S|S]; apply G; auto.
  - assert (y / x < 0) by (unfold Rdiv; pose proof (Rinv_lt_0_compat x X); nra). assert (Ratan.atan (y / x) < 0) by (rewrite <- Ratan.atan_0; apply atan_increasing; auto). lra.
  - assert (0 < y / x) by (unfold Rdiv; pose proof (Rinv_lt_0_compat x X); nra). assert (0 < Ratan.atan (y / x)) by (rewrite <- Ratan.atan_0; apply atan_increasing; auto). lra.
Qed.
Lemma angle_close x y y' t t' h : 0 < h -> x <> 0 -> h <= Rabs (y / x) -> h <= Rabs (y' / x) -> 0 < y / x <-> 0 < y' / x -> angle_of x y t -> angle_of x y' t' -> Rabs (t - t') <= / h.
Proof.
  intros H X H1 H2 S A A'.
  assert (D : Rabs (Ratan.atan (y / x) - Ratan.atan (y' / x)) <= / h).
  { destruct (Rlt_or_le 0 (y / x)) as [P|P].
    - assert (P' := proj1 S P). rewrite (Rabs_pos_eq (y / x)) in H1 by lra. rewrite (Rabs_pos_eq (y' / x)) in H2 by lra. apply atan_big; auto.
    - assert (P' : y' / x <= 0) by (apply Rnot_lt_le; intros C; apply S in C; lra). rewrite Rabs_left1 in H1, H2 by lra.
      rewrite Rabs_minus_sym. replace (Ratan.atan (y' / x) - Ratan.atan (y / x)) with (Ratan.atan (- (y / x)) - Ratan.atan (- (y' / x))) by (rewrite !Ratan.atan_opp; ring). apply atan_big; auto. }
  destruct (Rlt_or_le 0 x) as [P|P].
  - rewrite (angle_right _ _ _ P A), (angle_right _ _ _ P A'). auto.
  - assert (Y : y <> 0) by (intros ->; unfold Rdiv in H1; rewrite Rmult_0_l, Rabs_R0 in H1; lra). assert (Y' : y' <> 0) by (intros ->; unfold Rdiv in H2; rewrite Rmult_0_l, Rabs_R0 in H2; lra).
    assert (X' : x < 0) by lra. rewrite (angle_left x y t), (angle_left x y' t'); auto. pose proof (Rinv_lt_0_compat x X') as I. unfold Rdiv in S.
    replace (Rlt_bool 0 y') with (Rlt_bool 0 y); [match goal with |- Rabs ?q <= _ => replace q with (Ratan.atan (y / x) - Ratan.atan (y' / x)) by ring end; auto|].
    destruct (Rlt_bool_spec 0 y), (Rlt_bool_spec 0 y'); auto; exfalso.
    + assert (0 < y' * / x) by (assert (y' < 0) by lra; nra). apply S in H4. nra.
    + assert (0 < y * / x) by (assert (y < 0) by lra; nra). apply S in H4. nra.
Qed.

Lemma yeff_spec y x : x <> 0 -> yeff y x = y \/ bpow radix2 100 <= Rabs (y / x) /\ bpow radix2 100 <= Rabs (yeff y x / x) /\ (0 < y / x <-> 0 < yeff y x / x) /\ (0 < y <-> 0 < yeff y x) /\ (y < 0 <-> yeff y x < 0).
Proof.
  intros X. unfold yeff. destruct (Rlt_bool_spec (Rabs (rnd (y / x))) (bpow radix2 emax)) as [G|G]; auto. right. pose proof huge_big as HB. pose proof (bpow_gt_0 radix2 100) as B1.
  assert (L : bpow radix2 100 <= Rabs (y / x)).
  { apply Rnot_lt_le. intros C. apply (Rlt_irrefl (bpow radix2 emax)). eapply Rle_lt_trans; [exact G|]. eapply Rle_lt_trans; [apply rnd_bnd; [|apply Rlt_le; exact C]; lia|]. apply bpow_lt. lia. }
  split; auto. set (w := if Rlt_bool (y / x) 0 then - huge * x else huge * x).
  assert (E : w / x = if Rlt_bool (y / x) 0 then - huge else huge) by (unfold w; destruct (Rlt_bool (y / x) 0); field; auto).
  assert (Ey : y = y / x * x) by (field; auto). assert (Ew : w = w / x * x) by (field; auto).
  assert (Q : (0 < y / x <-> 0 < w / x) /\ (y / x < 0 <-> w / x < 0)).
  { rewrite E. destruct (Rlt_bool_spec (y / x) 0) as [S|S]; [|rewrite Rabs_pos_eq in L by auto]; lra. }
  split. { rewrite E. destruct (Rlt_bool (y / x) 0); rewrite ?Rabs_Ropp, Rabs_pos_eq; lra. }
  split; [apply Q|]. destruct Q as [Q1 Q2].
  assert (GG : forall a b, (0 < a <-> 0 < b) -> (a < 0 <-> b < 0) -> (0 < a * x -> 0 < b * x) /\ (a * x < 0 -> b * x < 0)).
  { intros a b P Q. destruct (Rlt_or_le 0 x) as [P0|P0]; [|assert (P' : x < 0) by lra]; split; intros.
    - assert (0 < b) by (apply P; nra). nra.
    - assert (b < 0) by (apply Q; nra). nra.
    - assert (b < 0) by (apply Q; nra). nra.
    - assert (0 < b) by (apply P; nra). nra. }
  pose proof (GG _ _ Q1 Q2) as G1. pose proof (GG (w / x) (y / x) ltac:(tauto) ltac:(tauto)) as G2. rewrite <- Ey, <- Ew in G1, G2. tauto.
Qed.

(** atan2 of any finite arguments, even if y/x overflows *)
Lemma ieee_atan2 (y x : bf) : is_finite y = true -> is_finite x = true -> ~ (B2R x = 0 /\ B2R y = 0) -> (B2R y = 0 -> Bsign y = false) ->
  0 <= B2R x \/ B2R y = 0 \/ 1e-33 <= Rabs (B2R y / B2R x) ->
  exists t, angle_of (B2R x) (B2R y) t /\ is_finite (Atan2.atan2 B (Bsign y) y x) = true /\ Rabs (B2R (Atan2.atan2 B (Bsign y) y x) - t) <= 13 * uu + 1.2e-16.
Proof.
  intros Fy Fx NZ S0 H. set (X := B2R x) in *. set (Y := B2R y) in *.
  destruct (atan2_rep (Bsign y) y x Y X) as [[FF EE] _]; [split; auto|split; auto|]. pose proof uu_range as U. pose proof ee_range as E.
  assert (SG : (Y < 0 -> Bsign y = true) /\ (0 <= Y -> Bsign y = false)).
  { split; intros HH.
    - rewrite (sign_R y Fy) by (fold Y; lra). apply Rlt_bool_true; auto.
    - destruct (Req_dec Y 0) as [Z|Z]; auto. rewrite (sign_R y Fy) by auto. apply Rlt_bool_false; auto. }
  assert (I : / bpow radix2 100 <= 1e-30). { change (bpow radix2 100) with 1267650600228229401496703205376. lra. } pose proof (bpow_gt_0 radix2 100) as B1.
  destruct (Req_dec X 0) as [Z|Z].
  - assert (YE : yeff Y X = Y). { unfold yeff. rewrite Z. unfold Rdiv. rewrite Rinv_0, Rmult_0_r, rnd_0, Rabs_R0, Rlt_bool_true; auto. apply bpow_gt_0. }
    rewrite YE in EE. destruct (AtRound.atan2_round uu ee rnd U ltac:(lra) rnd_ok (Bsign y) X Y) as (t & k & A & K & G1 & G2 & G3); try lra; try tauto.
    exists t. split; auto. split; auto. rewrite EE. specialize (G3 ltac:(lra)). lra.
  - destruct (yeff_spec Y X Z) as [YE|(L1 & L2 & S1 & S2 & S3)].
    + rewrite YE in EE. destruct (AtRound.atan2_round uu ee rnd U ltac:(lra) rnd_ok (Bsign y) X Y) as (t & k & A & K & G1 & G2 & G3); try lra; try tauto.
      exists t. split; auto. split; auto. rewrite EE. destruct H as [H|H]; [specialize (G3 H)|rewrite (G2 ltac:(tauto)), Rmult_0_r, Rplus_0_r in G1]; lra.
    + assert (I2 : 1e-33 <= bpow radix2 100). { change (bpow radix2 100) with 1267650600228229401496703205376. lra. }
      destruct (AtRound.atan2_round uu ee rnd U ltac:(lra) rnd_ok (Bsign y) X (yeff Y X)) as (t & k & A & K & G1 & G2 & G3); try lra.
      { intros Q. apply SG, S3, Q. } { intros Q. apply SG. apply Rnot_lt_le. intros C. apply S3 in C. lra. }
      assert (NY : Y <> 0). { intros Q. rewrite Q in L1. unfold Rdiv in L1. rewrite Rmult_0_l, Rabs_R0 in L1. lra. }
      destruct (AtRound.atan2_round uu ee rnd U ltac:(lra) rnd_ok (Bsign y) X Y) as (t' & _ & A' & _); try lra; try tauto.
      exists t'. split; auto. split; auto. rewrite EE. pose proof (angle_close X (yeff Y X) Y t t' _ B1 Z L2 L1 ltac:(tauto) A A') as C.
      assert (D : Rabs (Atan2.atan2 F (Bsign y) (yeff Y X) X - t) <= 13 * uu + 1.1e-16).
      { rewrite (G2 ltac:(right; right; lra)), Rmult_0_r, Rplus_0_r in G1. lra. }
      replace (Atan2.atan2 F (Bsign y) (yeff Y X) X - t') with ((Atan2.atan2 F (Bsign y) (yeff Y X) X - t) + (t - t')) by ring.
      eapply Rle_trans; [apply Rabs_triang|]. lra.
Qed.
End Fun.
