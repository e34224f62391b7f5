(* EMA, EMACascade and BlockDC come to rest *)
From Coq Require Import Reals ZArith Lia Lra List Psatz.
From Flocq Require Import Core.
From Verif Require Import Spec.Rest Spec.Rounding Model.Ema Proofs.BaseLemmas Proofs.RestLemmas.
Import ListNotations.
Open Scope R_scope.

Section Cascade.
Context {T : Type} (N : num T) {V : Type} (M : vsp T V).
Definition sec (alpha : T) (p : V) (x : nat -> V) (t : nat) : V := em_prev (state_at (ema_step N M) (mkEma p alpha) x t).
Lemma ema_alpha alpha p (x : nat -> V) t : em_alpha (state_at (ema_step N M) (mkEma p alpha) x t) = alpha.
Proof. induction t; cbn; auto. Qed.
Lemma sec_S alpha p (x : nat -> V) t : sec alpha p x (S t) = lerp N M (sec alpha p x t) (x t) alpha.
Proof. unfold sec. cbn. rewrite ema_alpha. auto. Qed.
Lemma ema_out alpha p (x : nat -> V) t : out (ema_step N M) (mkEma p alpha) x t = sec alpha p x (S t).
Proof. reflexivity. Qed.
Lemma emac_states alpha p ps (x : nat -> V) t : state_at (emac_step N M) (mkEmac (p :: ps) alpha) x t =
  mkEmac (sec alpha p x t :: ec_prev (state_at (emac_step N M) (mkEmac ps alpha) (fun t => sec alpha p x (S t)) t)) alpha /\
  ec_alpha (state_at (emac_step N M) (mkEmac ps alpha) (fun t => sec alpha p x (S t)) t) = alpha.
Proof.
  induction t as [|t [IH1 IH2]]; [split; reflexivity|]. cbn [state_at]. rewrite IH1, sec_S.
  destruct (state_at (emac_step N M) (mkEmac ps alpha) (fun t => sec alpha p x (S t)) t) as [qs al]. cbn in IH2. subst al.
  unfold emac_step. cbn [ec_prev ec_alpha emac_loop]. destruct (emac_loop N M alpha qs _) as [rs o]. cbn. auto.
Qed.
Lemma emac_out alpha p ps (x : nat -> V) t : out (emac_step N M) (mkEmac (p :: ps) alpha) x t =
  out (emac_step N M) (mkEmac ps alpha) (fun t => sec alpha p x (S t)) t.
Proof.
  unfold out. destruct (emac_states alpha p ps x t) as [E1 E2]. rewrite E1, sec_S.
  destruct (state_at (emac_step N M) (mkEmac ps alpha) (fun t => sec alpha p x (S t)) t) as [qs al]. cbn in E2. subst al.
  unfold emac_step. cbn [ec_prev ec_alpha emac_loop]. destruct (emac_loop N M alpha qs _) as [rs o]. reflexivity.
Qed.
Lemma rests_S {A} (s : nat -> A) r : rests_at s r -> rests_at (fun t => s (S t)) r.
Proof. intros [T0 H]. exists T0. intros t Ht. apply H. lia. Qed.
(** [eqm a b]: b can be the resting point of a section with constant input a *)
Lemma cascade_rests alpha (eqm : V -> V -> Prop) :
  (forall p x xc, rests_at x xc -> exists r, rests_at (sec alpha p x) r /\ eqm xc r) ->
  forall ps (x : nat -> V) xc, rests_at x xc -> exists rs, length rs = length ps /\ rests_at (out (emac_step N M) (mkEmac ps alpha) x) (last rs xc) /\
    forall i, (i < length rs)%nat -> eqm (nth i (xc :: rs) xc) (nth i rs xc).
Proof.
  intros H. induction ps as [|p ps IH]; intros x xc R.
  - exists []. split; [reflexivity|]. split; [|cbn; intros; lia]. cbn. destruct R as [T0 R]. exists T0. intros t Ht. unfold out, emac_step.
    assert (E : ec_prev (state_at (emac_step N M) (mkEmac [] alpha) x t) = []). { clear. induction t; cbn [state_at]; auto. unfold emac_step at 1. rewrite IHt. reflexivity. }
    unfold emac_step in E. rewrite E. cbn. auto.
  - destruct (H p x xc R) as (r & R1 & R2). destruct (IH (fun t => sec alpha p x (S t)) r (rests_S _ _ R1)) as (rs & L & (T1 & Q) & Q2).
    exists (r :: rs). split; [cbn; auto|]. split.
    + exists T1. intros t Ht. rewrite emac_out, Q by auto. destruct rs; [reflexivity|]. cbn [last]. clear. revert v r. induction rs; intros; [reflexivity|]. cbn [last] in *. apply IHrs; auto.
    + intros [|i] Hi; [exact R2|]. cbn in Hi. specialize (Q2 i ltac:(lia)). change (nth (S i) (xc :: r :: rs) xc) with (nth i (r :: rs) xc). change (nth (S i) (r :: rs) xc) with (nth i rs xc).
      rewrite (nth_indep _ xc r) by (cbn; lia). rewrite (nth_indep rs xc r) by lia. auto.
Qed.
End Cascade.

(** real and complex sections *)
Section Sections.
Context (emin prec : Z) {Hp : Prec_gt_0 prec} (rm : R -> Z) {Hv : Valid_rnd rm}.
Notation rnd := (round radix2 (FLT_exp emin prec) rm).
Lemma sec_real alpha p x xc : 0 <= rnd (1 - alpha) < 1 -> rests_at x xc ->
  exists r, rests_at (sec (Fn rnd) (vreal (Fn rnd)) alpha p x) r /\ lerp (Fn rnd) (vreal (Fn rnd)) r xc alpha = r.
Proof. intros Hc R. apply (lerp_rests emin prec rm alpha x); auto. intros t. rewrite sec_S. reflexivity. Qed.
Lemma sec_cplx alpha p (x : nat -> cplx R) xc : 0 <= rnd (1 - alpha) < 1 -> rests_at x xc ->
  exists r, rests_at (sec (Fn rnd) (vcplx (Fn rnd)) alpha p x) r /\ lerp (Fn rnd) (vcplx (Fn rnd)) r xc alpha = r.
Proof.
  intros Hc [T0 R].
  destruct (lerp_rests emin prec rm alpha (fun t => fst (x t)) (fun t => fst (sec (Fn rnd) (vcplx (Fn rnd)) alpha p x t)) (fst xc)) as (r1 & (T1 & A1) & B1); auto.
  { exists T0. intros t Ht. rewrite R; auto. } { intros t. rewrite sec_S. reflexivity. }
  destruct (lerp_rests emin prec rm alpha (fun t => snd (x t)) (fun t => snd (sec (Fn rnd) (vcplx (Fn rnd)) alpha p x t)) (snd xc)) as (r2 & (T2 & A2) & B2); auto.
  { exists T0. intros t Ht. rewrite R; auto. } { intros t. rewrite sec_S. reflexivity. }
  exists (r1, r2). split.
  - exists (Nat.max T1 T2). intros t Ht. specialize (A1 t ltac:(lia)). specialize (A2 t ltac:(lia)). cbv beta in A1, A2. destruct (sec (Fn rnd) (vcplx (Fn rnd)) alpha p x t) as [a b]. cbn in A1, A2. subst. reflexivity.
  - rewrite <- B1 at 2. rewrite <- B2 at 2. reflexivity.
Qed.
End Sections.

(** resting points of a cascade *)
Lemma chain_bound (d X : R) : 0 <= d -> 0 <= X -> forall (rs : list R) (xc : R), (forall i, (i < length rs)%nat -> Rabs (nth i rs xc - nth i (xc :: rs) xc) <= d * (Rabs (nth i (xc :: rs) xc) + X)) ->
  Rabs (last rs xc - xc) <= ((1 + d) ^ length rs - 1) * (Rabs xc + X).
Proof.
  intros Hd HX. induction rs as [|r rs IH] using rev_ind; intros xc H.
  - cbn. rewrite Rminus_eq_0, Rabs_R0. lra.
  - rewrite last_last, app_length, Nat.add_1_r. cbn [pow].
    assert (I : Rabs (last rs xc - xc) <= ((1 + d) ^ length rs - 1) * (Rabs xc + X)).
    { apply IH. intros i Hi. specialize (H i ltac:(rewrite app_length; cbn; lia)). rewrite app_nth1 in H by lia. rewrite app_comm_cons, app_nth1 in H by (cbn; lia). auto. }
    specialize (H (length rs) ltac:(rewrite app_length; cbn; lia)). rewrite app_nth2, Nat.sub_diag in H by lia. change (nth 0 [r] xc) with r in H.
    assert (E : nth (length rs) (xc :: rs ++ [r]) xc = last rs xc).
    { rewrite app_comm_cons, app_nth1 by (cbn; lia). clear. destruct rs as [|a rs]; [reflexivity|]. cbn [length nth]. revert a. induction rs as [|b rs IHr]; intros; [reflexivity|]. change (nth (length rs) (b :: rs) xc = last (b :: rs) xc). apply IHr. }
    rewrite E in H. set (l := last rs xc) in *. pose proof (pow_R1_Rle (1 + d) (length rs) ltac:(lra)). set (w := (1 + d) ^ length rs) in *. pose proof (Rabs_pos xc).
    assert (L : Rabs l <= Rabs xc + Rabs (l - xc)). { replace l with (xc + (l - xc)) at 1 by ring. apply Rabs_triang. }
    replace (r - xc) with ((r - l) + (l - xc)) by ring. eapply Rle_trans; [apply Rabs_triang|].
    set (y := Rabs xc + X) in *. assert (0 <= y) by (unfold y; lra). cbn in H. assert (Rabs l + X <= w * y) by (unfold y in *; lra). assert (d * (Rabs l + X) <= d * (w * y)) by (apply Rmult_le_compat_l; auto). lra.
Qed.

(** BlockDC *)
Section Bdc.
Context (emin prec : Z) {Hp : Prec_gt_0 prec} (rm : R -> Z) {Hv : Valid_rnd rm}.
Notation rnd := (round radix2 (FLT_exp emin prec) rm).
Lemma bdc_ab (d : blockdc R R) (x : nat -> R) t : bd_a (state_at (blockdc_step (vreal (Fn rnd))) d x t) = bd_a d /\ bd_b (state_at (blockdc_step (vreal (Fn rnd))) d x t) = bd_b d.
Proof. induction t as [|t [A B]]; cbn; auto. Qed.
Lemma bdc_next d (x : nat -> R) t : x (S t) = x t -> out (blockdc_step (vreal (Fn rnd))) d x (S t) = rnd (bd_a d * out (blockdc_step (vreal (Fn rnd))) d x t).
Proof.
  intros E. unfold out. cbn [state_at]. set (q := state_at (blockdc_step (vreal (Fn rnd))) d x t). destruct (bdc_ab d x t) as [A B]. fold q in A, B.
  cbn. rewrite E, Rminus_eq_0, (round_0 radix2 (FLT_exp emin prec) rm), Rmult_0_r, (round_0 radix2 (FLT_exp emin prec) rm), Rplus_0_l, A, B. rewrite (rnd_rnd emin prec rm). auto.
Qed.
End Bdc.
