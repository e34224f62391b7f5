(* An error bound for the CORDIC arctangent of every vector that is not too short. *)
From Coq Require Import ZArith List Lia Bool Reals Lra.
From Coquelicot Require Import Coquelicot.
From Flocq Require Import Core.
From Interval Require Import Tactic.
From Verif Require Import Model.Cordic Proofs.BaseLemmas Proofs.CordicProofs.
Import ListNotations.
Open Scope R_scope.

(** * Polar form *)

Lemma atan_abs t : Rabs (atan t) <= Rabs t.
Proof.
  assert (H : forall u, 0 <= u -> 0 <= atan u <= u).
  { intros u Hu. destruct (Req_dec u 0) as [->|Hne]; [ rewrite atan_0; lra | ].
    split; [ rewrite <- atan_0; left; apply atan_increasing; lra | ].
    destruct (MVT_gen atan 0 u (fun x => / (1 + x ^ 2))) as (x & Hx & E).
    - intros x _. apply is_derive_Reals. apply derivable_pt_lim_atan.
    - intros x _. apply derivable_continuous_pt. apply derivable_pt_atan.
    - rewrite atan_0, !Rminus_0_r in E. rewrite E.
      assert (0 < / (1 + x ^ 2) <= 1).
      { assert (1 <= 1 + x ^ 2) by nra. split; [ apply Rinv_0_lt_compat; lra | ].
        rewrite <- Rinv_1. apply Rinv_le_contravar; lra. }
      nra. }
  destruct (Rle_dec 0 t) as [Ht|Ht].
  - rewrite !Rabs_pos_eq by (try apply H; lra). apply H; exact Ht.
  - rewrite <- (Rabs_Ropp t), <- Rabs_Ropp, <- atan_opp. rewrite !Rabs_pos_eq by (try apply H; lra). apply H; lra.
Qed.

Lemma polar a b : 0 < a -> (a, b) = (sqrt (a ^ 2 + b ^ 2) * circ (atan (b / a)))%C.
Proof.
  intros Ha. unfold circ. rewrite cos_atan, sin_atan.
  assert (E : sqrt (a ^ 2 + b ^ 2) = a * sqrt (1 + (b / a)²)).
  { rewrite <- (sqrt_pow2 a) at 2 by lra. rewrite <- sqrt_mult_alt by nra. f_equal. unfold Rsqr. field. lra. }
  assert (0 < sqrt (1 + (b / a)²)) by (apply sqrt_lt_R0; generalize (Rle_0_sqr (b / a)); lra).
  rewrite E. unfold Cmult, RtoC. cbn [fst snd]. f_equal; field; lra.
Qed.

Lemma pert rho phi (d : C) e : 0 <= e -> e < rho -> Cmod d <= e ->
  exists (rho' eta : R), (rho * circ phi + d = rho' * circ (phi + eta))%C /\ Rabs eta <= e / (rho - e) /\ rho - e <= rho'.
Proof.
  intros He Hr Hd.
  set (w := (rho + d * circ (- phi))%C).
  assert (Hw : (rho * circ phi + d = circ phi * w)%C).
  { unfold w. rewrite Cmult_plus_distr_l. f_equal; [ apply Cmult_comm | ].
    rewrite (Cmult_comm d), Cmult_assoc, <- circ_add. replace (phi + - phi) with 0 by ring.
    unfold circ. rewrite cos_0, sin_0. unfold Cmult. destruct d; cbn. f_equal; ring. }
  assert (HD : Cmod (d * circ (- phi))%C <= e) by (rewrite Cmod_mult, Cmod_circ, Rmult_1_r; exact Hd).
  set (d' := (d * circ (- phi))%C) in *.
  assert (H1 : Rabs (fst d') <= e) by (apply Rle_trans with (2 := HD); apply Rle_trans with (2 := Rmax_Cmod _); apply Rmax_l).
  assert (H2 : Rabs (snd d') <= e) by (apply Rle_trans with (2 := HD); apply Rle_trans with (2 := Rmax_Cmod _); apply Rmax_r).
  assert (E1 : fst w = rho + fst d') by reflexivity.
  assert (E2 : snd w = snd d') by (unfold w; cbn; ring).
  apply Rabs_le_inv in H1.
  assert (Hp : 0 < fst w) by lra.
  exists (sqrt (fst w ^ 2 + snd w ^ 2)), (atan (snd w / fst w)). repeat split.
  - rewrite Hw, circ_add. rewrite Cmult_assoc, (Cmult_comm _ (circ phi)), <- Cmult_assoc. f_equal.
    rewrite <- polar by exact Hp. destruct w; reflexivity.
  - apply Rle_trans with (1 := atan_abs _). unfold Rdiv at 1. rewrite Rabs_mult, E2, Rabs_inv, (Rabs_pos_eq (fst w)) by lra.
    apply Rmult_le_compat; [ apply Rabs_pos | left; apply Rinv_0_lt_compat; lra | exact H2 | ].
    apply Rinv_le_contravar; lra.
  - apply Rle_trans with (fst w); [ lra | ]. rewrite <- (sqrt_pow2 (fst w)) at 1 by lra. apply sqrt_le_1_alt. nra.
Qed.

(** * One step *)

Definition tt_ (i : Z) : R := / IZR (2 ^ i).
Definition aa (i : Z) : R := atan (tt_ i).
Definition gg (i : Z) : R := sqrt (1 + tt_ i ^ 2).

Lemma shiftr_real v i : (0 <= i)%Z -> Rabs (IZR (Z.shiftr v i) - IZR v * tt_ i) <= 1.
Proof.
  intros Hi. rewrite Z.shiftr_div_pow2 by exact Hi. apply floor_div. apply Z.pow_pos_nonneg; lia.
Qed.

Lemma tt_pos i : (0 <= i)%Z -> 0 < tt_ i <= 1.
Proof.
  intros Hi. assert (H : (1 <= 2 ^ i)%Z) by (generalize (Z.pow_pos_nonneg 2 i); lia).
  apply IZR_le in H. unfold tt_. split; [ apply Rinv_0_lt_compat; lra | ].
  rewrite <- Rinv_1. apply Rinv_le_contravar; lra.
Qed.

Lemma gg_ge1 i : 1 <= gg i.
Proof. unfold gg. rewrite <- sqrt_1 at 1. apply sqrt_le_1_alt. nra. Qed.

(** the direction of the turn *)
Definition sg (im : Z) : R := if (im <? 0)%Z then -1 else 1.

Definition rv (i im : Z) : C := (1, - (sg im * tt_ i)).

Lemma turn i im : (0 <= i)%Z -> (rv i im = gg i * circ (- (sg im * aa i)))%C.
Proof.
  intros Hi. unfold rv. rewrite (polar 1 (- (sg im * tt_ i))) by lra. f_equal.
  - f_equal. unfold gg. f_equal. unfold sg. destruct (im <? 0)%Z; ring.
  - f_equal. unfold sg, aa. destruct (im <? 0)%Z.
    + replace (- (-1 * tt_ i) / 1) with (tt_ i) by field. ring.
    + replace (- (1 * tt_ i) / 1) with (- tt_ i) by field. rewrite atan_opp. ring.
Qed.

Lemma step_real FAC i angle re im s' :
  (0 <= i < 16)%Z -> cordic_step FAC i (angle, (re, im)) = Ok s' ->
  exists an r m, s' = (an, (r, m)) /\ IZR an = IZR angle + sg im * IZR (lut_at FAC i) /\
    exists d, zc r m = (zc re im * rv i im + d)%C /\ Rabs (fst d) <= 1 /\ Rabs (snd d) <= 1 /\
      (i = 0%Z -> d = 0%C).
Proof.
  intros Hi H. unfold cordic_step in H. rewrite lut_get in H by lia. cbn [bind] in H.
  pose proof (shiftr_real re i ltac:(lia)) as Hre. pose proof (shiftr_real im i ltac:(lia)) as Him.
  unfold rv, sg. destruct (im <? 0)%Z.
  - unfold ichk in H. repeat match type of H with context [int_ok ?z] => destruct (int_ok z); cbn [bind] in H; [ | discriminate ] end.
    injection H as <-. do 3 eexists. split; [ reflexivity | ]. split; [ rewrite minus_IZR; ring | ].
    exists (- (IZR (Z.shiftr im i) - IZR im * tt_ i), (IZR (Z.shiftr re i) - IZR re * tt_ i)). repeat split.
    + unfold zc, Cmult, Cplus. cbn [fst snd]. rewrite minus_IZR, plus_IZR. f_equal; ring.
    + cbn [fst]. rewrite Rabs_Ropp. exact Him.
    + exact Hre.
    + intros ->. unfold tt_. rewrite !Z.shiftr_0_r. cbn [Z.pow]. rewrite Rinv_1. unfold RtoC. f_equal; ring.
  - unfold ichk in H. repeat match type of H with context [int_ok ?z] => destruct (int_ok z); cbn [bind] in H; [ | discriminate ] end.
    injection H as <-. do 3 eexists. split; [ reflexivity | ]. split; [ rewrite plus_IZR; ring | ].
    exists ((IZR (Z.shiftr im i) - IZR im * tt_ i), - (IZR (Z.shiftr re i) - IZR re * tt_ i)). repeat split.
    + unfold zc, Cmult, Cplus. cbn [fst snd]. rewrite minus_IZR, plus_IZR. f_equal; ring.
    + exact Him.
    + cbn [snd]. rewrite Rabs_Ropp. exact Hre.
    + intros ->. unfold tt_. rewrite !Z.shiftr_0_r. cbn [Z.pow]. rewrite Rinv_1. unfold RtoC. f_equal; ring.
Qed.

Lemma for_loop_partial {T} (P : Z -> T -> Prop) (f : Z -> T -> outcome T) n : forall i s s',
  (forall j t t', (i <= j < i + Z.of_nat n)%Z -> P j t -> f j t = Ok t' -> P (j + 1)%Z t') ->
  P i s -> for_loop n i f s = Ok s' -> P (i + Z.of_nat n)%Z s'.
Proof.
  induction n as [|n IH]; intros i s s' Hf HP H.
  - cbn in H. injection H as <-. rewrite Z.add_0_r. exact HP.
  - cbn [for_loop] in H. destruct (f i s) as [t| | |] eqn:E; try discriminate. cbn [bind] in H.
    replace (i + Z.of_nat (S n))%Z with (i + 1 + Z.of_nat n)%Z by lia.
    apply (IH _ t); [ intros; eapply Hf; eauto; lia | | exact H ].
    eapply Hf; eauto; lia.
Qed.

Lemma aa_half i : (1 <= i <= 15)%Z -> aa (i - 1) <= 2 * aa i.
Proof.
  intros Hi.
  assert (H : (i = 1 \/ i = 2 \/ i = 3 \/ i = 4 \/ i = 5 \/ i = 6 \/ i = 7 \/ i = 8 \/ i = 9 \/ i = 10 \/ i = 11 \/ i = 12 \/ i = 13 \/ i = 14 \/ i = 15)%Z) by lia.
  unfold aa, tt_.
  repeat (destruct H as [->|H]); [ .. | subst i ];
    match goal with |- context [IZR (2 ^ (?a - 1))] => let v := eval vm_compute in (2 ^ (a - 1))%Z in change (2 ^ (a - 1))%Z with v end;
    match goal with |- context [IZR (2 ^ ?a)] => let v := eval vm_compute in (2 ^ a)%Z in change (2 ^ a)%Z with v end;
    interval with (i_prec 80).
Qed.

Section Bound.
Variables (FAC : Z) (theta Z0 : R).
Hypothesis Hlut : forall i, (0 <= i < 16)%Z -> Rabs (IZR (lut_at FAC i) - IZR FAC * aa i / PI) <= / 2.
Hypothesis HZ : 300 <= Z0.

Definition noise (i : Z) : R := IZR (Z.max 0 (i - 1)) / Z0.
Definition lowr (i : Z) : R :=
  if (i =? 0)%Z then Z0 else if (i =? 1)%Z then 1.414 * Z0 else 1.58 * Z0 - 1.5 * IZR (i - 1).
Definition off (i : Z) : R := if (i =? 0)%Z then PI / 2 else aa (i - 1) + noise (i - 1).
Definition Inv (i : Z) (s : Z * (Z * Z)) : Prop :=
  exists (rho phi psi : R), zc (fst (snd s)) (snd (snd s)) = (rho * circ phi)%C /\ lowr i <= rho /\
    Rabs phi <= PI / 2 /\ Rabs (theta - psi - phi) <= noise i /\ Rabs (theta - psi) <= off i /\
    Rabs (IZR (fst s) - IZR FAC * psi / PI) <= IZR i / 2.

Lemma noise_le i : (0 <= i <= 16)%Z -> 0 <= noise i <= 0.05.
Proof.
  intros Hi. unfold noise. assert (H : (0 <= Z.max 0 (i - 1) <= 15)%Z) by lia.
  destruct H as [H1 H2]. apply IZR_le in H1, H2. split.
  - apply Rcomplements.Rdiv_le_0_compat; lra.
  - apply Rcomplements.Rle_div_l; lra.
Qed.

Lemma lowr_pos i : (0 <= i <= 16)%Z -> Z0 <= lowr i.
Proof.
  intros Hi. unfold lowr. destruct (Z.eqb_spec i 0); [ lra | ]. destruct (Z.eqb_spec i 1); [ lra | ].
  assert (H : (i - 1 <= 15)%Z) by lia. apply IZR_le in H. lra.
Qed.

(** the length after the exact part of a step *)
Lemma long i : (0 <= i < 16)%Z -> (1 <= i)%Z -> 1.5 * Z0 + 1.5 <= lowr i * gg i /\ lowr (i + 1) + 1.5 <= lowr i * gg i.
Proof.
  intros Hi H1. unfold lowr. replace (i =? 0)%Z with false by (symmetry; apply Z.eqb_neq; lia).
  replace (i + 1 =? 0)%Z with false by (symmetry; apply Z.eqb_neq; lia).
  replace (i + 1 =? 1)%Z with false by (symmetry; apply Z.eqb_neq; lia).
  destruct (Z.eqb_spec i 1) as [->|Hn].
  - assert (1.118 <= gg 1) by (unfold gg, tt_; change (2 ^ 1)%Z with 2%Z; interval).
    change (1 + 1 - 1)%Z with 1%Z. nra.
  - generalize (gg_ge1 i). intros Hg. replace (i + 1 - 1)%Z with (i - 1 + 1)%Z by ring. rewrite plus_IZR.
    assert (H : (i - 1 <= 14)%Z) by lia. apply IZR_le in H. nra.
Qed.

Lemma Inv_step i s s' : (0 <= i < 16)%Z -> Inv i s -> cordic_step FAC i s = Ok s' -> Inv (i + 1) s'.
Proof.
  intros Hi (rho & phi & psi & Hz & Hrho & Hphi & Hn & Ho & Ha) Hs.
  destruct s as (angle & re & im). cbn [fst snd] in *.
  destruct (step_real _ _ _ _ _ _ Hi Hs) as (an & r & m & -> & Han & d & Hd & Hd1 & Hd2 & Hd0).
  pose proof (lowr_pos i ltac:(lia)) as HL.
  pose proof PI_RGT_0 as HPI.
  (* the sign of the imaginary part decides on the side *)
  assert (Hside : 0 <= sg im * phi).
  { assert (E : IZR im = rho * sin phi) by (apply (f_equal snd) in Hz; cbn in Hz; rewrite Hz; ring).
    apply Rabs_le_inv in Hphi. unfold sg. destruct (Z.ltb_spec im 0) as [L|L].
    - apply IZR_lt in L. destruct (Rle_dec phi 0); [ lra | exfalso ].
      assert (0 <= sin phi) by (apply sin_ge_0; lra). nra.
    - apply IZR_le in L. destruct (Rle_dec 0 phi); [ lra | exfalso ].
      assert (sin phi < 0) by (apply sin_lt_0_var; lra). nra. }
  assert (Hsg : sg im = 1 \/ sg im = -1) by (unfold sg; destruct (im <? 0)%Z; lra).
  assert (Hex : (zc re im * rv i im = (rho * gg i) * circ (phi - sg im * aa i))%C).
  { rewrite turn by lia. rewrite Hz. replace (phi - sg im * aa i) with (phi + - (sg im * aa i)) by ring. rewrite circ_add. ring. }
  (* the rounded part *)
  assert (Hstep : exists (rho' eta : R), zc r m = (rho' * circ (phi - sg im * aa i + eta))%C /\
            Rabs eta <= noise (i + 1) - noise i /\ lowr (i + 1) <= rho').
  { destruct (Z.eq_dec i 0) as [Hi0|Hi0].
    - subst i. exists (rho * gg 0), 0. rewrite Hd, Hex, (Hd0 eq_refl), Rplus_0_r, Cplus_0_r, RtoC_mult. repeat split.
      + rewrite Rabs_R0. unfold noise. cbn. lra.
      + change (lowr 0) with Z0 in *. change (lowr (0 + 1)) with (1.414 * Z0).
        assert (1.414 <= gg 0) by (unfold gg, tt_; change (2 ^ 0)%Z with 1%Z; interval). nra.
    - destruct (long i Hi ltac:(lia)) as [L1 L2].
      assert (Hlen : lowr i * gg i <= rho * gg i) by (apply Rmult_le_compat_r; [ generalize (gg_ge1 i); lra | exact Hrho ]).
      assert (Hcd : Cmod d <= 1.5) by (apply Rle_trans with (3 / 2 * 1); [ apply Cmod_le_2; assumption | lra ]).
      destruct (pert (rho * gg i) (phi - sg im * aa i) d 1.5 ltac:(lra) ltac:(lra) Hcd) as (rho' & eta & E & He & Hr).
      exists rho', eta. rewrite Hd, Hex, <- RtoC_mult, E. repeat split.
      + apply Rle_trans with (1 := He).
        apply Rle_trans with (1.5 / (1.5 * Z0)).
        * apply Rmult_le_compat_l; [ lra | ]. apply Rinv_le_contravar; lra.
        * unfold noise. replace (Z.max 0 (i + 1 - 1)) with (Z.max 0 (i - 1) + 1)%Z by lia. rewrite plus_IZR.
          right. field. lra.
      + lra. }
  destruct Hstep as (rho' & eta & E & He & Hr).
  assert (Hai : 0 <= aa i).
  { unfold aa. rewrite <- atan_0. left. apply atan_increasing. apply tt_pos. lia. }
  assert (Hai4 : aa i <= PI / 4).
  { unfold aa. rewrite <- atan_1. destruct (tt_pos i ltac:(lia)) as [_ [L|L]]; [ left; apply atan_increasing; exact L | right; rewrite L; reflexivity ]. }
  assert (Hoff : off i <= 2 * aa i + noise i).
  { unfold off. destruct (Z.eqb_spec i 0) as [Hi0|Hi0].
    - subst i. unfold aa, tt_. change (2 ^ 0)%Z with 1%Z. rewrite Rinv_1, atan_1. generalize (noise_le 0). lra || (intros N; specialize (N ltac:(lia)); lra).
    - generalize (aa_half i ltac:(lia)). unfold noise.
      assert (IZR (Z.max 0 (i - 1 - 1)) / Z0 <= IZR (Z.max 0 (i - 1)) / Z0).
      { apply Rmult_le_compat_r; [ left; apply Rinv_0_lt_compat; lra | apply IZR_le; lia ]. }
      lra. }
  assert (Hn' : Rabs (theta - (psi + sg im * aa i) - (phi - sg im * aa i + eta)) <= noise (i + 1)).
  { apply Rabs_le_inv in Hn, He. apply Rabs_le. lra. }
  assert (Ho' : Rabs (theta - (psi + sg im * aa i)) <= aa i + noise i).
  { apply Rabs_le_inv in Hn, Ho. apply Rabs_le. destruct Hsg as [Es|Es]; rewrite Es in *; lra. }
  exists rho', (phi - sg im * aa i + eta), (psi + sg im * aa i). cbn [fst snd].
  split; [ exact E | ]. split; [ exact Hr | ].
  split; [ | split; [ exact Hn' | split ] ].
  - pose proof (noise_le i ltac:(lia)). pose proof (noise_le (i + 1) ltac:(lia)).
    assert (3 < PI) by interval.
    apply Rabs_le_inv in Hn', Ho'. apply Rabs_le. lra.
  - unfold off. replace (i + 1 =? 0)%Z with false by (symmetry; apply Z.eqb_neq; lia).
    replace (i + 1 - 1)%Z with i by ring. exact Ho'.
  - rewrite Han, plus_IZR.
    replace (IZR angle + sg im * IZR (lut_at FAC i) - IZR FAC * (psi + sg im * aa i) / PI)
      with ((IZR angle - IZR FAC * psi / PI) + sg im * (IZR (lut_at FAC i) - IZR FAC * aa i / PI)) by (field; lra).
    apply Rle_trans with (1 := Rabs_triang _ _). rewrite Rabs_mult.
    assert (Rabs (sg im) = 1) by (destruct Hsg as [->| ->]; [ rewrite Rabs_pos_eq; lra | rewrite Rabs_left; lra ]).
    pose proof (Hlut i Hi) as HLi. rewrite H. lra.
Qed.

Lemma Inv_loop n s s' : (Z.of_nat n <= 16)%Z -> Inv 0 s -> for_loop n 0 (cordic_step FAC) s = Ok s' -> Inv (Z.of_nat n) s'.
Proof.
  intros Hn HI H. rewrite <- (Z.add_0_l (Z.of_nat n)). apply (for_loop_partial Inv (cordic_step FAC) n 0 s s'); try assumption.
  intros j t t' Hj HP Hs. apply (Inv_step j t); try assumption. lia.
Qed.
End Bound.

(** * The table of angles *)

Ltac lut_case i :=
  match goal with |- context [lut_at ?F i] => let v := eval vm_compute in (lut_at F i) in replace (lut_at F i) with v by (vm_compute; reflexivity) end;
  unfold aa, tt_; let v := eval vm_compute in (2 ^ i)%Z in change (2 ^ i)%Z with v; rewrite ?atan_1, ?Rinv_1, ?atan_1; interval with (i_prec 80).

Lemma lut_acc8 i : (0 <= i < 16)%Z -> Rabs (IZR (lut_at 256 i) - IZR 256 * aa i / PI) <= / 2.
Proof.
  intros Hi.
  assert (H : (i = 0 \/ i = 1 \/ i = 2 \/ i = 3 \/ i = 4 \/ i = 5 \/ i = 6 \/ i = 7 \/ i = 8 \/ i = 9 \/ i = 10 \/ i = 11 \/ i = 12 \/ i = 13 \/ i = 14 \/ i = 15)%Z) by lia.
  repeat (destruct H as [->|H]); [ .. | subst i ]; match goal with |- context [aa ?i] => lut_case i end.
Qed.
Lemma lut_acc16 i : (0 <= i < 16)%Z -> Rabs (IZR (lut_at 131072 i) - IZR 131072 * aa i / PI) <= / 2.
Proof.
  intros Hi.
  assert (H : (i = 0 \/ i = 1 \/ i = 2 \/ i = 3 \/ i = 4 \/ i = 5 \/ i = 6 \/ i = 7 \/ i = 8 \/ i = 9 \/ i = 10 \/ i = 11 \/ i = 12 \/ i = 13 \/ i = 14 \/ i = 15)%Z) by lia.
  repeat (destruct H as [->|H]); [ .. | subst i ]; match goal with |- context [aa ?i] => lut_case i end.
Qed.

(** * All vectors *)

Lemma circ_eq a b : circ a = circ b -> exists k : Z, a = b + 2 * IZR k * PI.
Proof.
  intros H. assert (Hc : cos a = cos b) by (apply (f_equal fst) in H; exact H).
  assert (Hs : sin a = sin b) by (apply (f_equal snd) in H; exact H).
  assert (E : sin (a - b) = 0) by (rewrite sin_minus, Hc, Hs; ring).
  assert (F : cos (a - b) = 1) by (rewrite cos_minus, Hc, Hs; generalize (sin2_cos2 b); unfold Rsqr; lra).
  destruct (sin_eq_0_0 _ E) as (k & Hk). exists (k / 2)%Z.
  destruct (Z.Even_or_Odd k) as [[j ->]|[j ->]].
  - replace (2 * j / 2)%Z with j by (rewrite Z.mul_comm, Z.div_mul; lia).
    rewrite mult_IZR in Hk. lra.
  - exfalso. rewrite Hk, plus_IZR, mult_IZR in F.
    replace ((2 * IZR j + 1) * PI) with (PI + 2 * IZR j * PI) in F by ring.
    assert (G : cos (PI + 2 * IZR j * PI) = cos PI).
    { destruct (Z_le_dec 0 j) as [Hj|Hj].
      - rewrite <- (cos_period PI (Z.to_nat j)). rewrite INR_IZR_INZ, Z2Nat.id by lia. reflexivity.
      - rewrite <- (cos_period (PI + 2 * IZR j * PI) (Z.to_nat (- j))). rewrite INR_IZR_INZ, Z2Nat.id, opp_IZR by lia. f_equal. ring. }
    rewrite G, cos_PI in F. lra.
Qed.

Lemma to_type_mod BITS v : (1 <= BITS)%Z -> exists k, to_type BITS v = (v + k * 2 ^ BITS)%Z.
Proof.
  intros H. exists (- ((v + 2 ^ (BITS - 1)) / 2 ^ BITS))%Z. unfold to_type.
  assert (0 < 2 ^ BITS)%Z by (apply Z.pow_pos_nonneg; lia).
  pose proof (Z.div_mod (v + 2 ^ (BITS - 1)) (2 ^ BITS) ltac:(lia)). lia.
Qed.

Lemma cordic_acc BYTES (x y : Z) (r theta : R) : (BYTES = 1 \/ BYTES = 2)%Z ->
  (- 2 ^ (8 * BYTES - 1) <= x < 2 ^ (8 * BYTES - 1))%Z -> (- 2 ^ (8 * BYTES - 1) <= y < 2 ^ (8 * BYTES - 1))%Z ->
  150 <= r -> IZR x = r * cos theta -> IZR y = r * sin theta ->
  exists a k, cordic_atan2 BYTES y x = Ok a /\
    Rabs (IZR a - theta * IZR (2 ^ (8 * BYTES - 1)) / PI - IZR k * IZR (2 ^ (8 * BYTES))) <=
      3 + IZR (2 ^ (8 * BYTES - 1)) / PI * (aa (8 * BYTES - 1) + IZR (8 * BYTES - 2) / (2 * r)).
Proof.
  intros HB Hx Hy Hr Ex Ey.
  destruct (cordic_safe BYTES x y HB Hx Hy) as (a & Ha & _).
  pose proof Ha as Ha0. pose proof PI_RGT_0 as HPI.
  unfold cordic_atan2, shl_int in Ha. cbv zeta in Ha.
  assert (HP : (0 < 2 ^ (8 * BYTES - 1) <= 32768)%Z) by (destruct HB; subst; cbn; lia).
  assert (INT_MAX = 2147483647)%Z by reflexivity. assert (INT_MIN = -2147483648)%Z by reflexivity.
  rewrite !ichk_ok in Ha by lia. cbn [bind] in Ha.
  set (re := (if (x <? 0)%Z then - (2 * x) else 2 * x)%Z) in *.
  replace (if (x <? 0)%Z then ichk (- (2 * x)) else Ok (2 * x)%Z) with (Ok re) in Ha
    by (unfold re; destruct (x <? 0)%Z; [ rewrite ichk_ok by lia | ]; reflexivity).
  cbn [bind] in Ha.
  set (FAC := (BYTES * 2 ^ (8 * BYTES))%Z) in *.
  destruct (for_loop (Z.to_nat (8 * BYTES)) 0 (cordic_step FAC) (0%Z, (re, (2 * y)%Z))) as [s'| | |] eqn:EL; try discriminate.
  cbn [bind] in Ha.
  (* the first-quadrant representative of the angle *)
  assert (Hu : -1 <= sin theta <= 1) by apply SIN_bound.
  set (th := asin (sin theta)).
  assert (Hth : - (PI / 2) <= th <= PI / 2) by apply asin_bound.
  assert (Hs : sin th = sin theta) by (apply sin_asin; lra).
  assert (Hc : cos th = Rabs (cos theta)).
  { unfold th. rewrite cos_asin by lra. replace (1 - (sin theta)²) with ((cos theta)²) by (generalize (sin2_cos2 theta); lra).
    apply sqrt_Rsqr_abs. }
  assert (HI : Inv FAC th (2 * r) 0 (0%Z, (re, (2 * y)%Z))).
  { exists (2 * r), th, 0. cbn [fst snd]. repeat split.
    - unfold zc, circ, Cmult, RtoC. cbn [fst snd]. rewrite Hs, Hc. f_equal; [ | rewrite mult_IZR, Ey; ring ].
      unfold re. destruct (Z.ltb_spec x 0) as [L|L].
      + apply IZR_lt in L. rewrite Rabs_left by nra. rewrite opp_IZR, mult_IZR, Ex. ring.
      + apply IZR_le in L. rewrite Rabs_pos_eq by nra. rewrite mult_IZR, Ex. ring.
    - unfold lowr. cbn. lra.
    - apply Rabs_le. lra.
    - replace (th - 0 - th) with 0 by ring. rewrite Rabs_R0. unfold noise. cbn. lra.
    - unfold off. cbn [Z.eqb]. apply Rabs_le. lra.
    - replace (0 - IZR FAC * 0 / PI) with 0 by (field; lra). rewrite Rabs_R0. lra. }
  assert (Hlut : forall i, (0 <= i < 16)%Z -> Rabs (IZR (lut_at FAC i) - IZR FAC * aa i / PI) <= / 2).
  { unfold FAC. destruct HB; subst BYTES; [ exact lut_acc8 | exact lut_acc16 ]. }
  pose proof (Inv_loop FAC th (2 * r) Hlut ltac:(lra) (Z.to_nat (8 * BYTES)) _ _ ltac:(lia) HI EL) as HF.
  destruct HF as (rho & phi & psi & _ & _ & _ & _ & Ho & Hang).
  rewrite Z2Nat.id in Ho, Hang by lia.
  unfold off in Ho. replace (8 * BYTES =? 0)%Z with false in Ho by (symmetry; apply Z.eqb_neq; lia).
  unfold noise in Ho. replace (Z.max 0 (8 * BYTES - 1 - 1)) with (8 * BYTES - 2)%Z in Ho by lia.
  destruct s' as (an & rest). cbn [fst snd] in Hang.
  set (an2 := (if (x <? 0)%Z then FAC - an else an)%Z).
  assert (Ha2 : a = to_type (8 * BYTES) (Z.shiftr an2 BYTES)).
  { unfold an2. destruct (x <? 0)%Z.
    - unfold ichk in Ha. destruct (int_ok (FAC - an)); cbn [bind] in Ha; [ | discriminate ]. injection Ha as <-. reflexivity.
    - cbn [bind] in Ha. injection Ha as <-. reflexivity. }
  set (th2 := if (x <? 0)%Z then PI - th else th).
  assert (Hk : exists k, th2 = theta + 2 * IZR k * PI).
  { apply circ_eq. unfold circ, th2. destruct (Z.ltb_spec x 0) as [L|L].
    - apply IZR_lt in L. rewrite cos_minus, sin_minus, cos_PI, sin_PI, Hs, Hc, Rabs_left by nra. f_equal; ring.
    - apply IZR_le in L. rewrite Hs, Hc, Rabs_pos_eq by nra. reflexivity. }
  destruct Hk as (k & Hk).
  set (W := aa (8 * BYTES - 1) + IZR (8 * BYTES - 2) / (2 * r)) in *.
  assert (HFp : 0 < IZR FAC) by (apply (IZR_lt 0); unfold FAC; destruct HB; subst; cbn; lia).
  assert (Herr : Rabs (IZR an2 - IZR FAC * th2 / PI) <= IZR (8 * BYTES) / 2 + IZR FAC / PI * W).
  { assert (B : Rabs (IZR an - IZR FAC * th / PI) <= IZR (8 * BYTES) / 2 + IZR FAC / PI * W).
    { replace (IZR an - IZR FAC * th / PI) with ((IZR an - IZR FAC * psi / PI) - IZR FAC / PI * (th - psi)) by (field; lra).
      apply Rle_trans with (1 := Rabs_triang _ _). rewrite Rabs_Ropp, Rabs_mult.
      rewrite (Rabs_pos_eq (IZR FAC / PI)) by (apply Rcomplements.Rdiv_le_0_compat; lra).
      apply Rplus_le_compat; [ exact Hang | ]. apply Rmult_le_compat_l; [ apply Rcomplements.Rdiv_le_0_compat; lra | exact Ho ]. }
    unfold an2, th2. destruct (x <? 0)%Z; [ | exact B ].
    rewrite minus_IZR. replace (IZR FAC - IZR an - IZR FAC * (PI - th) / PI) with (- (IZR an - IZR FAC * th / PI)) by (field; lra).
    rewrite Rabs_Ropp. exact B. }
  destruct (to_type_mod (8 * BYTES) (Z.shiftr an2 BYTES) ltac:(lia)) as (m & Hm).
  exists a, (k + m)%Z. split; [ exact Ha0 | ].
  assert (HH : IZR FAC * tt_ BYTES = IZR (2 ^ (8 * BYTES - 1)) /\ IZR (2 ^ (8 * BYTES)) = 2 * IZR (2 ^ (8 * BYTES - 1)) /\
               tt_ BYTES * (IZR (8 * BYTES) / 2) = 2 /\ 0 < tt_ BYTES).
  { unfold FAC, tt_. destruct HB; subst BYTES; cbn; lra. }
  destruct HH as (H1 & H2 & H3 & H4).
  set (H' := IZR (2 ^ (8 * BYTES - 1))) in *.
  pose proof (shiftr_real an2 BYTES ltac:(lia)) as Hq.
  rewrite Ha2, Hm, !plus_IZR, mult_IZR, H2.
  replace (IZR (Z.shiftr an2 BYTES) + IZR m * (2 * H') - theta * H' / PI - (IZR k + IZR m) * (2 * H'))
    with ((IZR (Z.shiftr an2 BYTES) - IZR an2 * tt_ BYTES) + tt_ BYTES * (IZR an2 - IZR FAC * th2 / PI)).
  2:{ rewrite Hk, <- H1. field. lra. }
  apply Rle_trans with (1 := Rabs_triang _ _). rewrite Rabs_mult, (Rabs_pos_eq (tt_ BYTES)) by lra.
  apply Rmult_le_compat_l with (r := tt_ BYTES) in Herr; [ | lra ].
  replace (tt_ BYTES * (IZR (8 * BYTES) / 2 + IZR FAC / PI * W)) with (2 + H' / PI * W) in Herr
    by (rewrite Rmult_plus_distr_l, H3, <- H1; field; lra).
  lra.
Qed.

Lemma cordic_acc8 (x y : Z) (r theta : R) : (-128 <= x < 128)%Z -> (-128 <= y < 128)%Z ->
  150 <= r -> IZR x = r * cos theta -> IZR y = r * sin theta ->
  exists a k, cordic_atan2 1 y x = Ok a /\ Rabs (IZR a - theta * 128 / PI - IZR k * 256) <= 3.32 + 123 / r.
Proof.
  intros Hx Hy Hr Ex Ey. destruct (cordic_acc 1 x y r theta ltac:(lia) Hx Hy Hr Ex Ey) as (a & k & Ha & Hb).
  exists a, k. split; [ exact Ha | ]. apply Rle_trans with (1 := Hb).
  change (IZR (2 ^ (8 * 1 - 1))) with 128. change (8 * 1 - 1)%Z with 7%Z. change (8 * 1 - 2)%Z with 6%Z.
  assert (128 / PI * aa 7 <= 0.32) by (unfold aa, tt_; change (2 ^ 7)%Z with 128%Z; interval).
  assert (0 < / r) by (apply Rinv_0_lt_compat; lra).
  assert (128 / PI * 3 <= 123) by interval.
  replace (128 / PI * (aa 7 + 6 / (2 * r))) with (128 / PI * aa 7 + (128 / PI * 3) * / r) by (field; split; [ lra | apply PI_neq0 ]).
  unfold Rdiv at 3. nra.
Qed.
Lemma cordic_acc16 (x y : Z) (r theta : R) : (-32768 <= x < 32768)%Z -> (-32768 <= y < 32768)%Z ->
  150 <= r -> IZR x = r * cos theta -> IZR y = r * sin theta ->
  exists a k, cordic_atan2 2 y x = Ok a /\ Rabs (IZR a - theta * 32768 / PI - IZR k * 65536) <= 3.32 + 73014 / r.
Proof.
  intros Hx Hy Hr Ex Ey. destruct (cordic_acc 2 x y r theta ltac:(lia) Hx Hy Hr Ex Ey) as (a & k & Ha & Hb).
  exists a, k. split; [ exact Ha | ]. apply Rle_trans with (1 := Hb).
  change (IZR (2 ^ (8 * 2 - 1))) with 32768. change (8 * 2 - 1)%Z with 15%Z. change (8 * 2 - 2)%Z with 14%Z.
  assert (32768 / PI * aa 15 <= 0.32) by (unfold aa, tt_; change (2 ^ 15)%Z with 32768%Z; interval).
  assert (0 < / r) by (apply Rinv_0_lt_compat; lra).
  assert (32768 / PI * 7 <= 73014) by interval.
  replace (32768 / PI * (aa 15 + 14 / (2 * r))) with (32768 / PI * aa 15 + (32768 / PI * 7) * / r) by (field; split; [ lra | apply PI_neq0 ]).
  unfold Rdiv at 3. nra.
Qed.
