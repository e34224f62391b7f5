(** NCLMS: what a sample that is not finite, or a division mu / power that is not finite, does (for C111). *)
From Coq Require Import Reals ZArith Lia Lra List.
From Flocq Require Import Core IEEE754.BinarySingleNaN.
From Verif Require Import Proofs.BaseLemmas Proofs.ContainerProofs Proofs.ShiftProofs Proofs.CdcProofs Proofs.LmsProofs Proofs.NanProofs Proofs.FftProofs Model.NumIeee Model.Lms Model.OSignal Spec.NonFinite Spec.Window.
Import ListNotations.

Section Fold.
Context {A B : Type} (op : A -> B -> A).
Lemma loop_fold n (body : Z -> A -> outcome A) g a0 : (forall i s, (i < n)%nat -> body (Z.of_nat i) s = Ok (op s (g i))) -> for_loop n 0 body a0 = Ok (fold_left (fun a i => op a (g i)) (seq 0 n) a0).
Proof.
  intros H. destruct (for_loop_inv (fun k s => s = fold_left (fun a i => op a (g i)) (seq 0 (Z.to_nat k)) a0) body n 0 a0) as (s & E & ->); auto.
  - intros j s Hj ->. rewrite <- (Z2Nat.id j) by lia. rewrite H by lia. eexists. split; [reflexivity|]. replace (Z.to_nat (Z.of_nat (Z.to_nat j) + 1)) with (S (Z.to_nat j)) by lia. rewrite seq_S, fold_left_app, Nat2Z.id. reflexivity.
  - rewrite E. do 3 f_equal. lia.
Qed.
Lemma fold_map (g : nat -> B) : forall l a, fold_left op (map g l) a = fold_left (fun a i => op a (g i)) l a.
Proof. induction l as [|i l IH]; intros a; cbn [map fold_left]; auto. Qed.
Context (badA : A -> Prop) (badB : B -> Prop) (H : forall a b, badA a \/ badB b -> badA (op a b)).
Lemma fold_bad_gen l (g : nat -> B) : forall a, badA a \/ (exists i, In i l /\ badB (g i)) -> badA (fold_left (fun a i => op a (g i)) l a).
Proof.
  induction l as [|i l IH]; intros a [Q|(j & Hj & Q)]; cbn [fold_left]; [exact Q|destruct Hj| |].
  - apply IH. left. apply H. auto.
  - apply IH. destruct Hj as [->|Hj]; [left; apply H; auto|right; eauto].
Qed.
End Fold.
Lemma window_wat' {V} (z : V) (n : nat) (x : nat -> V) t : (1 <= n)%nat -> window n z (map x (seq 0 (S t))) = map (fun i => wat z (Z.of_nat n) x t (Z.of_nat i)) (seq 0 n).
Proof.
  intros Hn. apply nth_error_ext'. intros i. destruct (Nat.lt_ge_cases i n) as [L|L].
  - rewrite window_nth_full by auto. rewrite map_length, seq_length. rewrite (map_nth_error (fun i => wat z (Z.of_nat n) x t (Z.of_nat i)) i (seq 0 n) (d:=i)) by (rewrite (nth_error_nth' _ O) by (rewrite seq_length; auto); rewrite seq_nth by auto; reflexivity).
    unfold wat, hist_at. destruct (Nat.ltb_spec (S t + i) n).
    + rewrite (proj2 (Z.ltb_lt _ 0)) by lia. reflexivity.
    + rewrite (proj2 (Z.ltb_ge _ 0)) by lia. rewrite nth_error_map, (nth_error_nth' _ O) by (rewrite seq_length; lia). rewrite seq_nth by lia. cbn [option_map]. do 2 f_equal. lia.
  - transitivity (@None V); [|symmetry]; apply nth_error_None; [unfold window; rewrite skipn_length, app_length, repeat_length, map_length, seq_length; lia|rewrite map_length, seq_length; lia].
Qed.

Section Gen.
Context {T : Type} (N : num T) (bad : T -> Prop).
Hypothesis Badd : forall a b, bad a \/ bad b -> bad (nadd N a b).
Hypothesis Bsub : forall a b, bad a \/ bad b -> bad (nsub N a b).
Hypothesis Bmul : forall a b, bad a \/ bad b -> bad (nmul N a b).
Hypothesis Bopp : forall a, bad a -> bad (nopp N a).
Hypothesis Beq : forall a, bad a -> neqb N a (nofZ N 0) = false.
Definition pb (z : cplx T) : Prop := bad (fst z) \/ bad (snd z).
Lemma pb_mul a b : pb a \/ pb b -> pb (cmul N a b).
Proof. unfold pb, cmul, creal, cimag. cbn [fst snd]. intros [[H|H]|[H|H]]; left; apply Bsub; [left|right|left|right]; apply Bmul; auto. Qed.
Lemma pb_add_eq a b : pb a \/ pb b -> pb (cadd_eq N a b).
Proof. unfold pb, cadd_eq, cadd, creal, cimag. cbn [fst snd]. intros [[H|H]|[H|H]]; [left|right|left|right]; apply Badd; auto. Qed.
Lemma pb_sub a b : pb a \/ pb b -> pb (csub N a b).
Proof. unfold pb, csub, creal, cimag. cbn [fst snd]. intros [[H|H]|[H|H]]; [left|right|left|right]; apply Bsub; auto. Qed.
Lemma pb_conj a : pb a -> pb (cconj N a).
Proof. unfold pb, cconj, creal, cimag. cbn [fst snd]. intros [H|H]; auto. Qed.
Lemma pb_scale t a : bad t \/ pb a -> pb (cscale N t a).
Proof. unfold pb, cscale, creal, cimag. cbn [fst snd]. intros [H|[H|H]]; [left|left|right]; apply Bmul; auto. Qed.
Lemma pb_norm a : pb a -> bad (cnorm N a).
Proof. unfold pb, cnorm, creal, cimag. intros [H|H]; apply Badd; [left|right]; apply Bmul; auto. Qed.

Definition cpowersum (l : list (cplx T)) : T := fold_left (fun a h => nadd N a (cnorm N h)) l (n0 N).
Definition cinp (x : nat -> cplx T * cplx T * T) (k : nat) : cplx T := cconj N (fst (fst (x k))).
Definition cok (n : nat) (x : nat -> cplx T * cplx T * T) (t : nat) (s : lms (cplx T)) : Prop := length (lm_filter s) = n /\ bip_inv (Z.of_nat n) (czero N) (map (cinp x) (seq 0 t)) (lm_history s).
Lemma clms_step_bad (n : nat) (x : nat -> cplx T * cplx T * T) t s : (1 <= n)%nat -> cok n x t s -> exists s' o, nclms_step N (Z.of_nat n) s (x t) = Ok (s', o) /\ cok n x (S t) s' /\
  (Forall pb (lm_filter s) \/ pb (fst (fst (x t))) -> Forall pb (lm_filter s') /\ pb o) /\
  (let P := cpowersum (window n (czero N) (map (cinp x) (seq 0 (S t)))) in neqb N P (nofZ N 0) = false -> bad (ndiv N (snd (x t)) P) -> Forall pb (lm_filter s')).
Proof.
  intros Hn (L & Ib). destruct (bip_call (czero N) (Z.of_nat n) (cinp x) t _ ltac:(lia) Ib) as (b & E & I' & Rd). rewrite window_wat' by auto. unfold cpowersum. rewrite fold_map.
  set (w := fun i => wat (czero N) (Z.of_nat n) (cinp x) t (Z.of_nat i)).
  destruct (x t) as [[i0 d] mu] eqn:Ex. assert (Ei : cinp x t = cconj N i0) by (unfold cinp; rewrite Ex; reflexivity). rewrite Ei in E. unfold nclms_step. rewrite E. cbn [bind snd fst]. rewrite Nat2Z.id.
  set (f := fun i => nth i (lm_filter s) (czero N)).
  rewrite (loop_fold (cadd_eq N) n _ (fun i => cmul N (cconj N (f i)) (w i))).
  2:{ intros i a Hi. rewrite (list_get (czero N) _ n) by (auto; lia). cbn [bind]. rewrite Rd by lia. cbn [bind]. rewrite Nat2Z.id. reflexivity. }
  cbn [bind]. rewrite (loop_fold (nadd N) n _ (fun i => cnorm N (w i))).
  2:{ intros i a Hi. rewrite Rd by lia. reflexivity. }
  cbn [bind]. set (est := fold_left _ (seq 0 n) (cofr N (n0 N))). change (fold_left (fun a i => nadd N a (cnorm N (wat (czero N) (Z.of_nat n) (cinp x) t (Z.of_nat i)))) (seq 0 n) (n0 N)) with (fold_left (fun a i => nadd N a (cnorm N (w i))) (seq 0 n) (n0 N)).
  set (P := fold_left (fun a i => nadd N a (cnorm N (w i))) (seq 0 n) (n0 N)). cbv zeta.
  assert (Wn : w (n - 1)%nat = cconj N i0). { unfold w, wat, hist_at. rewrite (proj2 (Z.ltb_ge _ 0)) by lia. rewrite <- Ei. f_equal. lia. }
  assert (Bf : Forall pb (lm_filter s) \/ pb i0 -> pb est).
  { intros H. apply (fold_bad_gen (cadd_eq N) pb pb pb_add_eq). right. destruct H as [H|H].
    - exists 0%nat. rewrite in_seq. split; [lia|]. apply pb_mul. left. apply pb_conj. apply (proj1 (Forall_forall _ _) H). apply nth_In. lia.
    - exists (n - 1)%nat. rewrite in_seq. split; [lia|]. apply pb_mul. right. rewrite Wn. apply pb_conj, H. }
  assert (BP : pb i0 -> bad P).
  { intros H. apply (fold_bad_gen (nadd N) bad bad Badd). right. exists (n - 1)%nat. rewrite in_seq. split; [lia|]. rewrite Wn. apply pb_norm, pb_conj, H. }
  assert (Be : pb est -> pb (cconj N (csub N (cconj N d) est))) by (intros H; apply pb_conj, pb_sub; auto).
  destruct (neqb N P (nofZ N 0)) eqn:EP.
  - eexists _, _. split; [reflexivity|]. unfold cok. cbn [lm_filter lm_history]. split; [auto|]. split; [|discriminate]. intros H. split; [|auto]. destruct H as [H|H]; auto. exfalso. rewrite (Beq P (BP H)) in EP. discriminate.
  - destruct (upd_loop (czero N) (bip_read b (bip_ptr b)) (wat (czero N) (Z.of_nat n) (cinp x) t) (fun v h => cadd_eq N v (cmul N (cscale N (ndiv N mu P) (cconj N (csub N (cconj N d) est))) h)) n (lm_filter s) L) as (f' & Ef & Lf & Nf); [intros; apply Rd; lia|].
    rewrite Ef. cbn [bind]. eexists _, _. split; [reflexivity|]. unfold cok. cbn [lm_filter lm_history]. split; [auto|].
    assert (G : pb (cscale N (ndiv N mu P) (cconj N (csub N (cconj N d) est))) -> Forall pb f').
    { intros H. apply Forall_forall. intros v Hv. destruct (In_nth _ _ (czero N) Hv) as (i & Hi & <-). rewrite Nf by lia. apply pb_add_eq. right. apply pb_mul. auto. }
    split; [intros H; split; [apply G, pb_scale; right; auto|auto]|]. intros _ H. apply G, pb_scale. auto.
Qed.
Lemma cok_new n x : (1 <= n)%nat -> cok n x 0 (nclms_new N (Z.of_nat n)).
Proof. intros Hn. unfold cok. cbn [nclms_new lm_filter lm_history]. rewrite repeat_length, Nat2Z.id. split; auto. cbn [seq map]. apply bip_new_inv. lia. Qed.
Lemma clms_over (n : nat) (x : nat -> cplx T * cplx T * T) (t0 : nat) : (1 <= n)%nat -> let P := cpowersum (window n (czero N) (map (cinp x) (seq 0 (S t0)))) in
  neqb N P (nofZ N 0) = false -> bad (ndiv N (snd (x t0)) P) -> forall t, (t0 < t)%nat -> returns pb (oout (nclms_step N (Z.of_nat n)) (Ok (nclms_new N (Z.of_nat n))) x t).
Proof.
  intros Hn P HP HB. assert (G : forall u, exists s, ostate_at (nclms_step N (Z.of_nat n)) (Ok (nclms_new N (Z.of_nat n))) x u = Ok s /\ cok n x u s /\ ((t0 < u)%nat -> Forall pb (lm_filter s))).
  { induction u as [|u (s & E & K & Q)]; cbn [ostate_at].
    - eexists. split; [reflexivity|]. split; [|lia]. apply cok_new, Hn.
    - rewrite E. cbn [bind]. destruct (clms_step_bad n x u s Hn K) as (s' & o & -> & K' & Q1 & Q2). cbn [bind fst]. exists s'. split; [reflexivity|]. split; [exact K'|].
      intros L. destruct (Nat.eq_dec t0 u) as [->|]; [apply Q2; auto|]. apply Q1. left. apply Q. lia. }
  intros t Ht. destruct (G t) as (s & E & K & Q). unfold oout. rewrite E. cbn [bind]. destruct (clms_step_bad n x t s Hn K) as (s' & o & -> & _ & Q1 & _). cbn [bind snd]. exists o. split; [reflexivity|]. apply Q1. left. apply Q, Ht.
Qed.
Lemma clms_spoils (n : nat) : (1 <= n)%nat -> spoils (fun p => pb (fst (fst p))) (returns pb) (oout (nclms_step N (Z.of_nat n)) (Ok (nclms_new N (Z.of_nat n)))).
Proof.
  intros Hn. apply (spoils_oinv _ pb (fun s => Forall pb (lm_filter s)) _ (fun t x s => cok n x t s)); [intros; apply cok_new, Hn|].
  intros t x s K. destruct (clms_step_bad n x t s Hn K) as (s' & o & E & K' & Q & _). exists s', o. auto.
Qed.
End Gen.

Section Ieee.
Context (prec emax : Z) {Hp : Prec_gt_0 prec} {Hpe : Prec_lt_emax prec emax}.
Notation bf := (binary_float prec emax).
Notation B := (Bn prec emax).
Lemma nf_opp (a : bf) : nonfinite a -> nonfinite (nopp B a). Proof. unfold nonfinite. destruct a; cbn; auto. Qed.
Lemma nan_opp (a : bf) : nan a -> nan (nopp B a). Proof. unfold nan. destruct a; cbn; auto. Qed.
Lemma first_cpower (n : nat) (x : nat -> cplx bf) : (1 <= n)%nat -> neqb B (cnorm B (x 0%nat)) (nofZ B 0) = false -> cpowersum B (window n (czero B) (map x (seq 0 1))) = cnorm B (x 0%nat).
Proof.
  intros Hn H. cbn [seq map]. unfold window. cbn [length]. destruct n as [|n]; [lia|]. cbn [repeat app skipn]. unfold cpowersum. rewrite fold_left_app. cbn [fold_left].
  assert (Z0 : fold_left (fun a h => nadd B a (cnorm B h)) (repeat (czero B) n) (n0 B) = n0 B) by (clear; induction n as [|n IH]; cbn [repeat fold_left]; [reflexivity|exact IH]).
  rewrite Z0. set (p := cnorm B (x 0%nat)) in *. clearbody p. destruct p as [s| | |]; try reflexivity. destruct s; discriminate H.
Qed.
End Ieee.
