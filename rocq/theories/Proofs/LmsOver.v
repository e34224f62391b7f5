(** NLMS: what a division mu / power that is not finite does (for C111). *)
From Coq Require Import Reals ZArith Lia Lra List.
From Flocq Require Import Core IEEE754.BinarySingleNaN.
From Verif Require Import Proofs.BaseLemmas Proofs.ContainerProofs Proofs.ShiftProofs Proofs.CdcProofs Proofs.LmsProofs Proofs.NanProofs Model.NumIeee Model.Lms Model.OSignal Spec.NonFinite Spec.Window.
Import ListNotations.

Lemma nth_error_eq {A} : forall (l m : list A), (forall i, nth_error l i = nth_error m i) -> l = m.
Proof.
  induction l as [|a l IH]; intros [|b m] H; auto; [specialize (H 0%nat); discriminate|specialize (H 0%nat); discriminate|].
  pose proof (H 0%nat) as E. injection E as ->. f_equal. apply IH. intros i. exact (H (S i)).
Qed.
Section Gen.
Context {T : Type} (N : num T) (bad : T -> Prop).
Hypothesis Badd : forall a b, bad a \/ bad b -> bad (nadd N a b).
Hypothesis Bsub : forall a b, bad a \/ bad b -> bad (nsub N a b).
Hypothesis Bmul : forall a b, bad a \/ bad b -> bad (nmul N a b).
(** the power of a window, as computed *)
Definition powersum (l : list T) : T := fold_left (fun a h => nadd N a (nmul N h h)) l (n0 N).
Lemma window_wat (n : nat) (x : nat -> T) t : (1 <= n)%nat -> window n (n0 N) (map x (seq 0 (S t))) = map (fun i => wat (n0 N) (Z.of_nat n) x t (Z.of_nat i)) (seq 0 n).
Proof.
  intros Hn. apply nth_error_eq. intros i. destruct (Nat.lt_ge_cases i n) as [L|L].
  - rewrite window_nth_full by auto. rewrite map_length, seq_length. rewrite (map_nth_error (fun i => wat (n0 N) (Z.of_nat n) x t (Z.of_nat i)) i (seq 0 n) (d:=i)) by (rewrite (nth_error_nth' _ O) by (rewrite seq_length; auto); rewrite seq_nth by auto; reflexivity).
    unfold wat, hist_at. destruct (Nat.ltb_spec (S t + i) n).
    + rewrite (proj2 (Z.ltb_lt _ 0)) by lia. reflexivity.
    + rewrite (proj2 (Z.ltb_ge _ 0)) by lia. rewrite nth_error_map, (nth_error_nth' _ O) by (rewrite seq_length; lia). rewrite seq_nth by lia. cbn [option_map]. do 2 f_equal. lia.
  - transitivity (@None T); [|symmetry]; apply nth_error_None; [unfold window; rewrite skipn_length, app_length, repeat_length, map_length, seq_length; lia|rewrite map_length, seq_length; lia].
Qed.
Lemma powersum_fsum (n : nat) (x : nat -> T) t : (1 <= n)%nat ->
  powersum (window n (n0 N) (map x (seq 0 (S t)))) = fsum N n (fun i => nmul N (wat (n0 N) (Z.of_nat n) x t (Z.of_nat i)) (wat (n0 N) (Z.of_nat n) x t (Z.of_nat i))).
Proof.
  intros Hn. rewrite window_wat by auto. unfold powersum, fsum. set (g := fun i => wat (n0 N) (Z.of_nat n) x t (Z.of_nat i)).
  assert (G : forall l a, fold_left (fun a h => nadd N a (nmul N h h)) (map g l) a = fold_left (fun a i => nadd N a (nmul N (g i) (g i))) l a) by (induction l as [|i l IH]; intros a; cbn [map fold_left]; auto).
  apply G.
Qed.

Definition inp (x : nat -> T * T * T) (k : nat) : T := fst (fst (x k)).
Definition ok (n : nat) (x : nat -> T * T * T) (t : nat) (s : lms T) : Prop := length (lm_filter s) = n /\ bip_inv (Z.of_nat n) (n0 N) (map (inp x) (seq 0 t)) (lm_history s).
Lemma lms_step_bad (n : nat) (x : nat -> T * T * T) t s : (1 <= n)%nat -> ok n x t s -> exists s' o, nlms_step N (Z.of_nat n) s (x t) = Ok (s', o) /\ ok n x (S t) s' /\
  (Forall bad (lm_filter s) -> Forall bad (lm_filter s') /\ bad o) /\
  (let P := powersum (window n (n0 N) (map (inp x) (seq 0 (S t)))) in neqb N P (nofZ N 0) = false -> bad (ndiv N (snd (x t)) P) -> Forall bad (lm_filter s')).
Proof.
  intros Hn (L & Ib). destruct (bip_call (n0 N) (Z.of_nat n) (inp x) t _ ltac:(lia) Ib) as (b & E & I' & Rd). rewrite powersum_fsum by auto.
  set (w := fun i => wat (n0 N) (Z.of_nat n) (inp x) t (Z.of_nat i)).
  destruct (x t) as [[i0 d] mu] eqn:Ex. assert (Ei : inp x t = i0) by (unfold inp; rewrite Ex; reflexivity). rewrite Ei in E. unfold nlms_step. rewrite E. cbn [bind snd]. rewrite Nat2Z.id.
  set (f := fun i => nth i (lm_filter s) (n0 N)).
  rewrite (loop_fsum N n _ (fun i => nmul N (f i) (w i))).
  2:{ intros i a Hi. rewrite (list_get (n0 N) _ n) by (auto; lia). cbn [bind]. rewrite Rd by lia. cbn [bind]. rewrite Nat2Z.id. reflexivity. }
  cbn [bind]. rewrite (loop_fsum N n _ (fun i => nmul N (w i) (w i))).
  2:{ intros i a Hi. rewrite Rd by lia. reflexivity. }
  cbn [bind]. set (est := fsum N n (fun i => nmul N (f i) (w i))). set (P := fsum N n (fun i => nmul N (w i) (w i))). cbv zeta.
  change (fsum N n (fun i => nmul N (wat (n0 N) (Z.of_nat n) (inp x) t (Z.of_nat i)) (wat (n0 N) (Z.of_nat n) (inp x) t (Z.of_nat i)))) with P.
  assert (Bf : Forall bad (lm_filter s) -> bad est).
  { intros H. apply (fsum_bad N bad Badd n _ 0); [lia|]. apply Bmul. left. apply (proj1 (Forall_forall _ _) H). apply nth_In. lia. }
  destruct (neqb N P (nofZ N 0)) eqn:EP.
  - eexists _, _. split; [reflexivity|]. unfold ok. cbn [lm_filter lm_history]. split; [auto|]. split; [auto|]. discriminate.
  - destruct (upd_loop (n0 N) (bip_read b (bip_ptr b)) (wat (n0 N) (Z.of_nat n) (inp x) t) (fun v h => nadd N v (nmul N (nmul N (ndiv N mu P) (nsub N d est)) h)) n (lm_filter s) L) as (f' & Ef & Lf & Nf); [intros; apply Rd; lia|].
    rewrite Ef. cbn [bind]. eexists _, _. split; [reflexivity|]. unfold ok. cbn [lm_filter lm_history]. split; [auto|].
    assert (G : bad (nmul N (ndiv N mu P) (nsub N d est)) -> Forall bad f').
    { intros H. apply Forall_forall. intros v Hv. destruct (In_nth _ _ (n0 N) Hv) as (i & Hi & <-). rewrite Nf by lia. apply Badd. right. apply Bmul. auto. }
    split; [intros H; split; [apply G, Bmul; right; apply Bsub; auto|apply Bsub; auto]|]. intros _ H. apply G, Bmul. auto.
Qed.
Lemma lms_over (n : nat) (x : nat -> T * T * T) (t0 : nat) : (1 <= n)%nat -> let P := powersum (window n (n0 N) (map (inp x) (seq 0 (S t0)))) in
  neqb N P (nofZ N 0) = false -> bad (ndiv N (snd (x t0)) P) -> forall t, (t0 < t)%nat -> returns bad (oout (nlms_step N (Z.of_nat n)) (Ok (nlms_new N (Z.of_nat n))) x t).
Proof.
  intros Hn P HP HB. assert (G : forall u, exists s, ostate_at (nlms_step N (Z.of_nat n)) (Ok (nlms_new N (Z.of_nat n))) x u = Ok s /\ ok n x u s /\ ((t0 < u)%nat -> Forall bad (lm_filter s))).
  { induction u as [|u (s & E & K & Q)]; cbn [ostate_at].
    - eexists. split; [reflexivity|]. split; [|lia]. unfold ok. cbn [nlms_new lm_filter lm_history]. rewrite repeat_length, Nat2Z.id. split; auto. cbn [seq map]. apply bip_new_inv. lia.
    - rewrite E. cbn [bind]. destruct (lms_step_bad n x u s Hn K) as (s' & o & -> & K' & Q1 & Q2). cbn [bind fst]. exists s'. split; [reflexivity|]. split; [exact K'|].
      intros L. destruct (Nat.eq_dec t0 u) as [->|]; [apply Q2; auto|]. apply Q1, Q. lia. }
  intros t Ht. destruct (G t) as (s & E & K & Q). unfold oout. rewrite E. cbn [bind]. destruct (lms_step_bad n x t s Hn K) as (s' & o & -> & _ & Q1 & _). cbn [bind snd]. exists o. split; [reflexivity|]. apply Q1, Q, Ht.
Qed.
End Gen.

Section Ieee.
Context (prec emax : Z) {Hp : Prec_gt_0 prec} {Hpe : Prec_lt_emax prec emax}.
Notation bf := (binary_float prec emax).
Notation B := (Bn prec emax).
(** the first window holds one sample *)
Lemma first_power (n : nat) (x : nat -> bf) : (1 <= n)%nat -> neqb B (nmul B (x 0%nat) (x 0%nat)) (nofZ B 0) = false -> powersum B (window n (n0 B) (map x (seq 0 1))) = nmul B (x 0%nat) (x 0%nat).
Proof.
  intros Hn H. cbn [seq map]. unfold window. cbn [length]. destruct n as [|n]; [lia|]. cbn [repeat app skipn]. unfold powersum. rewrite fold_left_app. cbn [fold_left].
  assert (Z0 : fold_left (fun a h => nadd B a (nmul B h h)) (repeat (n0 B) n) (n0 B) = n0 B) by (clear; induction n as [|n IH]; cbn [repeat fold_left]; [reflexivity|exact IH]).
  rewrite Z0. set (p := nmul B (x 0%nat) (x 0%nat)) in *. clearbody p. destruct p as [s| | |]; try reflexivity. destruct s; discriminate H.
Qed.
(** no overflow as long as the power is a normal number *)
Lemma rate_finite (mu P : bf) : (2 <= prec)%Z -> is_finite mu = true -> is_finite P = true -> (Rabs (B2R mu) <= 2)%R -> (bpow radix2 (2 - emax) <= Rabs (B2R P))%R -> is_finite (ndiv B mu P) = true.
Proof.
  intros Hp2 Fm FP Hm HP. pose proof (bpow_gt_0 radix2 (2 - emax)) as b0. assert (NP : B2R P <> 0%R) by (intros E; rewrite E, Rabs_R0 in HP; lra).
  pose proof (Bdiv_correct prec emax _ _ mode_NE mu P NP) as Q. cbn [round_mode] in Q. change (ndiv B mu P) with (Bdiv mode_NE mu P).
  rewrite Rlt_bool_true in Q; [destruct Q as (_ & -> & _); auto|].
  apply Rle_lt_trans with (bpow radix2 (emax - 1)); [|apply bpow_lt; lia].
  assert (V : Valid_exp (SpecFloat.fexp prec emax)) by (apply fexp_correct; assumption). apply (@abs_round_le_generic radix2 _ V ZnearestE _); [apply generic_format_bpow; unfold Prec_gt_0, Prec_lt_emax in *; unfold SpecFloat.fexp, SpecFloat.emin; lia|].
  unfold Rdiv. rewrite Rabs_mult, Rabs_inv. replace (bpow radix2 (emax - 1)) with (2 * / bpow radix2 (2 - emax))%R.
  - apply Rmult_le_compat; [apply Rabs_pos|apply Rlt_le, Rinv_0_lt_compat, Rabs_pos_lt; auto|auto|apply Rinv_le; lra].
  - rewrite <- bpow_opp. change 2%R with (bpow radix2 1). rewrite <- bpow_plus. f_equal. lia.
Qed.
End Ieee.
