(* NaN and infinities in the filters *)
From Coq Require Import Reals ZArith Lia List.
From Flocq Require Import Core IEEE754.BinarySingleNaN.
From Verif Require Import Proofs.BaseLemmas Proofs.ContainerProofs Proofs.ShiftProofs Proofs.CdcProofs Proofs.LmsProofs Model.NumIeee Model.Ema Model.Biquad Model.Normalize Model.Sma Model.Lms Model.Demod Model.Cdc Model.OSignal Spec.NonFinite Spec.Window.
Import ListNotations.

(** ** Outputs from an invariant *)
Section Gen.
Context {S I O : Type} (bad : I -> Prop) (bado : O -> Prop) (Inv : S -> Prop).
Lemma spoils_inv (step : S -> I -> S * O) : (forall s i, Inv s \/ bad i -> Inv (fst (step s i)) /\ bado (snd (step s i))) -> forall s0, spoils bad bado (out step s0).
Proof.
  intros H s0 x t0 t B Le. unfold out. apply H. destruct (Nat.eq_dec t0 t) as [->|Ne]; auto. left. induction Le as [|t Le IH]; [congruence|]. cbn [state_at]. apply H. destruct (Nat.eq_dec t0 t) as [->|]; auto.
Qed.
(** ok: an invariant that makes calls succeed *)
Lemma spoils_oinv (step : S -> I -> outcome (S * O)) (ok : nat -> (nat -> I) -> S -> Prop) s0 : (forall x, ok 0%nat x s0) ->
  (forall t x s, ok t x s -> exists s' o, step s (x t) = Ok (s', o) /\ ok (Datatypes.S t) x s' /\ (Inv s \/ bad (x t) -> Inv s' /\ bado o)) -> spoils bad (returns bado) (oout step (Ok s0)).
Proof.
  intros H0 H x t0 t B Le. assert (G : forall u, exists s, ostate_at step (Ok s0) x u = Ok s /\ ok u x s /\ ((t0 < u)%nat -> Inv s)).
  { induction u as [|u (s & E & K & Q)]; cbn [ostate_at]; [exists s0; repeat split; auto; lia|]. rewrite E. cbn [bind]. destruct (H u x s K) as (s' & o & -> & K' & P). cbn [bind fst]. exists s'. split; [reflexivity|]. split; [exact K'|].
    intros L. apply P. destruct (Nat.eq_dec t0 u) as [->|]; auto. left. apply Q. lia. }
  destruct (G t) as (s & E & K & Q). unfold oout. rewrite E. cbn [bind]. destruct (H t x s K) as (s' & o & -> & _ & P). cbn [bind snd]. exists o. split; [reflexivity|]. apply P. destruct (Nat.eq_dec t0 t) as [->|]; auto. left. apply Q. lia.
Qed.
End Gen.

(** ** Absorbing values *)
Record absorbing {T V} (M : vsp T V) (bad : V -> Prop) := {
  ab_add : forall a b, bad a \/ bad b -> bad (vadd M a b); ab_sub : forall a b, bad a \/ bad b -> bad (vsub M a b); ab_scale : forall t b, bad b -> bad (vscale M t b) }.
Section Filters.
Context {T V : Type} (N : num T) (M : vsp T V) (bad : V -> Prop) (A : absorbing M bad).
Lemma lerp_bad a b x : bad a \/ bad b -> bad (lerp N M a b x).
Proof. intros [H|H]; apply (ab_add _ _ A); [left|right]; apply (ab_scale _ _ A); auto. Qed.
Lemma ema_bad e : spoils bad bad (out (ema_step N M) e).
Proof. apply (spoils_inv bad bad (fun e => bad (em_prev e))). intros s i H. cbn. split; apply lerp_bad; auto. Qed.
Lemma emac_loop_bad al ps : forall i, Exists bad ps \/ bad i -> (ps = [] -> bad i) -> bad (snd (emac_loop N M al ps i)) /\ (ps <> [] -> Exists bad (fst (emac_loop N M al ps i))) /\ length (fst (emac_loop N M al ps i)) = length ps.
Proof.
  induction ps as [|p ps IH]; intros i H H0; cbn [emac_loop]; [cbn; repeat split; auto; congruence|]. set (j := lerp N M p i al).
  destruct (emac_loop N M al ps j) as [qs o] eqn:E. cbn [fst snd]. destruct H as [H|H].
  - inversion H as [? ? Hp|? ? Hp]; subst.
    + assert (Bj : bad j) by (apply lerp_bad; auto). specialize (IH j (or_intror Bj) (fun _ => Bj)). rewrite E in IH. cbn [fst snd] in IH. destruct IH as (B & _ & L). repeat split; auto. cbn; congruence.
    + assert (Ne : ps <> []) by (intros ->; inversion Hp). specialize (IH j (or_introl Hp)). rewrite E in IH. cbn [fst snd] in IH. destruct IH as (B & X & L); [congruence|]. repeat split; auto. cbn; congruence.
  - assert (Bj : bad j) by (apply lerp_bad; auto). specialize (IH j (or_intror Bj) (fun _ => Bj)). rewrite E in IH. cbn [fst snd] in IH. destruct IH as (B & _ & L). repeat split; auto. cbn; congruence.
Qed.
Lemma emac_bad e : ec_prev e <> [] -> spoils bad bad (out (emac_step N M) e).
Proof.
  intros Ne x t0 t B Le.
  assert (G : forall u, ec_prev (state_at (emac_step N M) e x u) <> [] /\ ((t0 < u)%nat -> Exists bad (ec_prev (state_at (emac_step N M) e x u)))).
  { induction u as [|u [Nu IH]]; [split; [auto|lia]|]. cbn [state_at]. unfold emac_step. set (s := state_at _ e x u) in *.
    destruct (emac_loop N M (ec_alpha s) (ec_prev s) (x u)) as [qs o] eqn:E. cbn [fst ec_prev].
    assert (L : length qs = length (ec_prev s)). { clear -E. revert qs o E. generalize (x u). induction (ec_prev s) as [|p ps IH]; intros i qs o E; cbn in E; [injection E as <- <-; auto|]. destruct (emac_loop N M (ec_alpha s) ps _) as [q2 o2] eqn:E2. injection E as <- <-. cbn. f_equal. eapply IH; eauto. }
    assert (Nq : qs <> []) by (destruct qs, (ec_prev s); cbn in L; congruence). split; auto. intros L0.
    destruct (emac_loop_bad (ec_alpha s) (ec_prev s) (x u)) as (_ & X & _); [|congruence|rewrite E in X; apply X; auto]. destruct (Nat.eq_dec t0 u) as [->|]; [right; auto|left; apply IH; lia]. }
  destruct (G t) as [Nt Gt]. unfold out, emac_step. set (s := state_at _ e x t) in *. destruct (emac_loop_bad (ec_alpha s) (ec_prev s) (x t)) as (R & _ & _); [|congruence|].
  - destruct (Nat.eq_dec t0 t) as [->|]; [right; auto|left; apply Gt; lia].
  - destruct (emac_loop N M (ec_alpha s) (ec_prev s) (x t)). exact R.
Qed.
Lemma blockdc_bad d : spoils bad bad (out (blockdc_step (T := T) M) d).
Proof.
  apply (spoils_inv bad bad (fun d => bad (bd_y1 d))). intros s i H. cbn. assert (B : bad (vadd M (vscale M (bd_b s) (vsub M i (bd_x1 s))) (vscale M (bd_a s) (bd_y1 s)))); [|auto].
  apply (ab_add _ _ A). destruct H as [H|H]; [right|left]; apply (ab_scale _ _ A); auto. apply (ab_sub _ _ A). auto.
Qed.
Lemma biquad_bad b : spoils bad bad (out (biquad_step (T := T) M) b).
Proof.
  apply (spoils_inv bad bad (fun s => bad (bq_y1 s))). intros s i H. cbn. match goal with |- ?P /\ _ => assert (B : P); [|auto] end.
  apply (ab_sub _ _ A). left. apply (ab_sub _ _ A). destruct H as [H|H]; [right; apply (ab_scale _ _ A); auto|left]. apply (ab_add _ _ A). left. apply (ab_add _ _ A). left. apply (ab_scale _ _ A); auto.
Qed.
Lemma bqc_bad_step s : forall i, (Exists (fun b => bad (bq_y1 b)) s \/ bad i) -> (s = [] -> bad i) ->
  bad (snd (bqc_step (T := T) M s i)) /\ (s <> [] -> Exists (fun b => bad (bq_y1 b)) (fst (bqc_step (T := T) M s i))) /\ length (fst (bqc_step (T := T) M s i)) = length s.
Proof.
  induction s as [|b s IH]; intros i H H0; cbn [bqc_step]; [cbn; repeat split; auto; congruence|]. destruct (biquad_step M b i) as [b' y] eqn:E. destruct (bqc_step M s y) as [s' o] eqn:E2. cbn [fst snd].
  assert (Eb : bq_y1 b' = y) by (injection E as <- <-; reflexivity).
  assert (By : bad (bq_y1 b) \/ bad i -> bad y). { intros H1. injection E as _ <-. apply (ab_sub _ _ A). left. apply (ab_sub _ _ A). destruct H1; [right; apply (ab_scale _ _ A); auto|left]. apply (ab_add _ _ A). left. apply (ab_add _ _ A). left. apply (ab_scale _ _ A); auto. }
  specialize (IH y). rewrite E2 in IH. cbn [fst snd] in IH.
  destruct H as [H|H]; [inversion H as [? ? Hp|? ? Hp]; subst|].
  - destruct IH as (B & _ & L); auto. split; [auto|]. split; [intros _; left; auto|cbn; congruence].
  - assert (Ne : s <> []) by (intros ->; inversion Hp). destruct IH as (B & X & L); auto; [congruence|]. repeat split; auto. cbn; congruence.
  - destruct IH as (B & _ & L); auto. split; [auto|]. split; [intros _; left; rewrite Eb; auto|cbn; congruence].
Qed.
Lemma bqc_bad s : s <> [] -> spoils bad bad (out (bqc_step (T := T) M) s).
Proof.
  intros Ne x t0 t B Le.
  assert (Len : forall s i, length (fst (bqc_step (T := T) M s i)) = length s).
  { clear. induction s as [|b s IH]; intros i; cbn [bqc_step]; auto. destruct (biquad_step M b i) as [b' y]. specialize (IH y). destruct (bqc_step M s y). cbn in *. congruence. }
  assert (G : forall u, state_at (bqc_step M) s x u <> [] /\ ((t0 < u)%nat -> Exists (fun b => bad (bq_y1 b)) (state_at (bqc_step M) s x u))).
  { induction u as [|u [Nu IH]]; [split; [auto|lia]|]. cbn [state_at]. set (q := state_at _ s x u) in *. split; [intros E; pose proof (Len q (x u)) as L; rewrite E in L; destruct q; [congruence|discriminate]|]. intros L.
    apply bqc_bad_step; auto; [|congruence]. destruct (Nat.eq_dec t0 u) as [->|]; [right; auto|left; apply IH; lia]. }
  destruct (G t) as [Nt Gt]. unfold out. apply bqc_bad_step; [|congruence]. destruct (Nat.eq_dec t0 t) as [->|]; [right; auto|left; apply Gt; lia].
Qed.
Lemma integrator_bad s : spoils bad bad (out (integrator_step (vadd M)) s).
Proof. apply (spoils_inv bad bad bad). intros a i H. cbn. pose proof (ab_add _ _ A a i H). auto. Qed.
(** SMA2 and SMA3; div keeps bad *)
Context (div : V -> V) (Hdiv : forall a, bad a -> bad (div a)).
Lemma sma2_bad NUM norm : (0 < NUM)%Z -> spoils bad (returns bad) (oout (sma2_call (vadd M) (vsub M) div NUM norm) (Ok (sma2_new (v0 M) NUM))).
Proof.
  intros Hn. apply (spoils_oinv bad bad (fun s => bad (s2_sum s)) _ (fun t x s => exists h, delay_inv NUM (v0 M) h (s2_delay s))).
  - intros _. exists []. apply delay_new_inv. auto.
  - intros t x s (h & Hh). destruct (delay_call_inv NUM Hn (v0 M) h _ (x t) Hh) as (d & old & E & _ & Hd). unfold sma2_call. rewrite E. cbn [bind]. eexists _, _. split; [reflexivity|]. split; [cbn; eauto|]. cbn [s2_sum].
    intros H. assert (B : bad (vadd M (s2_sum s) (vsub M (x t) old))). { apply (ab_add _ _ A). destruct H; auto. right. apply (ab_sub _ _ A). auto. } split; auto. destruct norm; auto.
Qed.
Lemma kahan_bad k i : bad (k_high k) \/ bad i -> bad (k_high (fst (kahan_call (vadd M) (vsub M) k i))) /\ bad (snd (kahan_call (vadd M) (vsub M) k i)).
Proof. intros H. cbn. assert (bad (vadd M (k_high k) (vsub M i (k_low k)))); [|auto]. apply (ab_add _ _ A). destruct H; auto. right. apply (ab_sub _ _ A). auto. Qed.
Lemma kahan_stream_bad k : spoils bad bad (out (kahan_call (vadd M) (vsub M)) k).
Proof. apply (spoils_inv bad bad (fun k => bad (k_high k))). intros. apply kahan_bad. auto. Qed.
Lemma sma3_bad NUM norm : (0 < NUM)%Z -> spoils bad (returns bad) (oout (sma3_call (vadd M) (vsub M) (vopp M) div NUM norm) (Ok (sma3_new (v0 M) NUM))).
Proof.
  intros Hn. apply (spoils_oinv bad bad (fun s => bad (k_high (s3_sum s))) _ (fun t x s => exists h, delay_inv NUM (v0 M) h (s3_delay s))).
  - intros _. exists []. apply delay_new_inv. auto.
  - intros t x s (h & Hh). destruct (delay_call_inv NUM Hn (v0 M) h _ (x t) Hh) as (d & old & E & _ & Hd). unfold sma3_call. rewrite E. cbn [bind].
    destruct (kahan_call (vadd M) (vsub M) (s3_sum s) (vopp M old)) as [k1 o1] eqn:E1. destruct (kahan_call (vadd M) (vsub M) k1 (x t)) as [k2 o2] eqn:E2.
    eexists _, _. split; [reflexivity|]. split; [cbn; eauto|]. cbn [s3_sum]. intros H.
    assert (B : bad (k_high k2) /\ bad o2). { pose proof (kahan_bad k1 (x t)) as K. rewrite E2 in K. apply K. destruct H as [H|H]; auto. left. pose proof (kahan_bad (s3_sum s) (vopp M old) (or_introl H)) as K1. rewrite E1 in K1. apply K1. }
    split; [tauto|]. destruct norm; [apply Hdiv|]; tauto.
Qed.
End Filters.

(** NormalizeSine: the high-pass stays bad, its output is the numerator *)
Lemma norm_bad {T} (N : num T) (bad : T -> Prop) (A : absorbing (vreal N) bad) (Hd : forall a b, bad a -> bad (ndiv N a b)) n : spoils bad bad (out (norm_step N) n).
Proof.
  apply (spoils_inv bad bad (fun n => bad (bd_y1 (ns_hpf n)))). intros s i H. unfold norm_step. destruct (blockdc_step (vreal N) (ns_hpf s) i) as [h tmp] eqn:E. destruct (ema_step N (vreal N) (ns_lpf s) (nmul N tmp tmp)) as [l p]. cbn [fst snd ns_hpf].
  assert (B : bad tmp). { injection E as _ <-. apply (ab_add _ _ A). destruct H as [H|H]; [right|left]; apply (ab_scale _ _ A); auto. apply (ab_sub _ _ A). auto. }
  assert (Eh : bd_y1 h = tmp) by (injection E as <- <-; reflexivity). rewrite Eh. auto.
Qed.

(** ** NLMS *)
Section Nlms.
Context {T : Type} (N : num T) (bad : T -> Prop).
Hypothesis Badd : forall a b, bad a \/ bad b -> bad (nadd N a b).
Hypothesis Bsub : forall a b, bad a \/ bad b -> bad (nsub N a b).
Hypothesis Bmul : forall a b, bad a \/ bad b -> bad (nmul N a b).
Hypothesis Beq : forall a, bad a -> neqb N a (nofZ N 0) = false.
Definition fsum (n : nat) (g : nat -> T) : T := fold_left (fun a i => nadd N a (g i)) (seq 0 n) (n0 N).
Lemma loop_fsum n (body : Z -> T -> outcome T) g : (forall i s, (i < n)%nat -> body (Z.of_nat i) s = Ok (nadd N s (g i))) -> for_loop n 0 body (n0 N) = Ok (fsum n g).
Proof.
  intros H. unfold fsum. destruct (for_loop_inv (fun k s => s = fold_left (fun a i => nadd N a (g i)) (seq 0 (Z.to_nat k)) (n0 N)) body n 0 (n0 N)) as (s & E & ->); auto.
  - intros j s Hj ->. rewrite <- (Z2Nat.id j) by lia. rewrite H by lia. eexists. split; [reflexivity|]. replace (Z.to_nat (Z.of_nat (Z.to_nat j) + 1)) with (S (Z.to_nat j)) by lia. rewrite seq_S, fold_left_app, Nat2Z.id. reflexivity.
  - rewrite E. do 3 f_equal. lia.
Qed.
Lemma fold_bad l (g : nat -> T) : forall a, bad a \/ (exists i, In i l /\ bad (g i)) -> bad (fold_left (fun a i => nadd N a (g i)) l a).
Proof.
  induction l as [|i l IH]; intros a [H|(j & Hj & H)]; cbn [fold_left]; [exact H|destruct Hj| |].
  - apply IH. left. apply Badd. auto.
  - apply IH. destruct Hj as [->|Hj]; [left; apply Badd; auto|right; eauto].
Qed.
Lemma fsum_bad n g i : (i < n)%nat -> bad (g i) -> bad (fsum n g).
Proof. intros L H. apply fold_bad. right. exists i. rewrite in_seq. split; [lia|auto]. Qed.
(** a bad coefficient at all positions *)
Lemma nlms_bad (n : nat) : (1 <= n)%nat -> spoils (fun p => bad (fst (fst p))) (returns bad) (oout (nlms_step N (Z.of_nat n)) (Ok (nlms_new N (Z.of_nat n)))).
Proof.
  intros Hn. apply (spoils_oinv _ bad (fun s => Forall bad (lm_filter s)) _ (fun t x s => length (lm_filter s) = n /\ bip_inv (Z.of_nat n) (n0 N) (map (fun k => fst (fst (x k))) (seq 0 t)) (lm_history s))).
  - intros x. cbn [nlms_new lm_filter lm_history]. rewrite repeat_length, Nat2Z.id. split; auto. cbn [seq map]. apply bip_new_inv. lia.
  - intros t x s (L & Ib). pose (xi := fun k => fst (fst (x k))). destruct (bip_call (n0 N) (Z.of_nat n) xi t _ ltac:(lia) Ib) as (b & E & I' & Rd).
    destruct (x t) as [[inp d] mu] eqn:Ex. assert (Ei : xi t = inp) by (unfold xi; rewrite Ex; reflexivity). rewrite Ei in E. unfold nlms_step. rewrite E. cbn [bind]. rewrite Nat2Z.id.
    set (w := fun i => wat (n0 N) (Z.of_nat n) xi t (Z.of_nat i)). set (f := fun i => nth i (lm_filter s) (n0 N)).
    rewrite (loop_fsum n _ (fun i => nmul N (f i) (w i))).
    2:{ intros i a Hi. rewrite (list_get (n0 N) _ n) by (auto; lia). cbn [bind]. rewrite Rd by lia. cbn [bind]. rewrite Nat2Z.id. reflexivity. }
    cbn [bind]. rewrite (loop_fsum n _ (fun i => nmul N (w i) (w i))).
    2:{ intros i a Hi. rewrite Rd by lia. reflexivity. }
    cbn [bind]. set (est := fsum n (fun i => nmul N (f i) (w i))). set (P := fsum n (fun i => nmul N (w i) (w i))).
    assert (Wn : w (n - 1)%nat = inp). { unfold w, wat, hist_at. rewrite (proj2 (Z.ltb_ge _ 0)) by lia. rewrite <- Ei. f_equal. lia. }
    assert (Bf : Forall bad (lm_filter s) \/ bad inp -> bad est).
    { intros [H|H]; [apply (fsum_bad n _ 0); [lia|]; apply Bmul; left; apply (proj1 (Forall_forall _ _) H); apply nth_In; lia|]. apply (fsum_bad n _ (n - 1)); [lia|]. apply Bmul. right. rewrite Wn. exact H. }
    assert (BP : bad inp -> bad P). { intros H. apply (fsum_bad n _ (n - 1)); [lia|]. apply Bmul. right. rewrite Wn. exact H. }
    destruct (neqb N P (nofZ N 0)) eqn:EP.
    + eexists _, _. split; [reflexivity|]. cbn [lm_filter lm_history fst]. split; [auto|]. intros [H|H]; [split; auto|]. exfalso. rewrite (Beq P (BP H)) in EP. discriminate.
    + destruct (upd_loop (n0 N) (bip_read b (bip_ptr b)) (wat (n0 N) (Z.of_nat n) xi t) (fun v h => nadd N v (nmul N (nmul N (ndiv N mu P) (nsub N d est)) h)) n (lm_filter s) L) as (f' & Ef & Lf & Nf); [intros; apply Rd; lia|].
      rewrite Ef. cbn [bind]. eexists _, _. split; [reflexivity|]. cbn [lm_filter lm_history fst]. split; [auto|]. intros H. apply Bf in H. split; [|apply Bsub; auto].
      apply Forall_forall. intros v Hv. destruct (In_nth _ _ (n0 N) Hv) as (i & Hi & <-). rewrite Nf by lia. apply Badd. right. apply Bmul. left. apply Bmul. right. apply Bsub. auto.
Qed.
End Nlms.

(** ** Instances *)
Section Ieee.
Context (prec emax : Z) {Hp : Prec_gt_0 prec} {Hpe : Prec_lt_emax prec emax}.
Notation bf := (binary_float prec emax).
Notation B := (Bn prec emax).
Lemma nf_add (a b : bf) : nonfinite a \/ nonfinite b -> nonfinite (nadd B a b).
Proof. unfold nonfinite. destruct a as [| [] | |], b as [| [] | |]; cbn; intros [H|H]; auto; discriminate. Qed.
Lemma nf_sub (a b : bf) : nonfinite a \/ nonfinite b -> nonfinite (nsub B a b).
Proof. unfold nonfinite. destruct a as [| [] | |], b as [| [] | |]; cbn; intros [H|H]; auto; discriminate. Qed.
Lemma nf_mul (a b : bf) : nonfinite a \/ nonfinite b -> nonfinite (nmul B a b).
Proof. unfold nonfinite. destruct a as [| [] | |], b as [| [] | |]; cbn; intros [H|H]; auto; discriminate. Qed.
Lemma nf_div (a b : bf) : nonfinite a -> nonfinite (ndiv B a b).
Proof. unfold nonfinite. destruct a as [| [] | |], b as [| [] | |]; cbn; intros H; auto; discriminate. Qed.
Lemma nan_add (a b : bf) : nan a \/ nan b -> nan (nadd B a b).
Proof. unfold nan. destruct a as [| [] | |], b as [| [] | |]; cbn; intros [H|H]; auto; discriminate. Qed.
Lemma nan_sub (a b : bf) : nan a \/ nan b -> nan (nsub B a b).
Proof. unfold nan. destruct a as [| [] | |], b as [| [] | |]; cbn; intros [H|H]; auto; discriminate. Qed.
Lemma nan_mul (a b : bf) : nan a \/ nan b -> nan (nmul B a b).
Proof. unfold nan. destruct a as [| [] | |], b as [| [] | |]; cbn; intros [H|H]; auto; discriminate. Qed.
Lemma nan_div (a b : bf) : nan a \/ nan b -> nan (ndiv B a b).
Proof. unfold nan. destruct a as [| [] | |], b as [| [] | |]; cbn; intros [H|H]; auto; discriminate. Qed.
Lemma nan_sqrt (a : bf) : nan a -> nan (nsqrt B a). Proof. unfold nan. destruct a; cbn; auto; discriminate. Qed.
Lemma nan_lt (a b : bf) : nan a \/ nan b -> nltb B a b = false.
Proof. unfold nan. destruct a, b; cbn; intros [H|H]; auto; discriminate. Qed.
Lemma nan_eq (a b : bf) : nan a \/ nan b -> neqb B a b = false.
Proof. unfold nan. destruct a, b; cbn; intros [H|H]; auto; discriminate. Qed.
Lemma nf_real : absorbing (vreal B) nonfinite. Proof. split; cbn; intros; [apply nf_add|apply nf_sub|apply nf_mul]; auto. Qed.
Lemma nan_real : absorbing (vreal B) nan. Proof. split; cbn; intros; [apply nan_add|apply nan_sub|apply nan_mul]; auto. Qed.
Lemma part_cplx (bad : bf -> Prop) : absorbing (vreal B) bad -> absorbing (vcplx B) (part bad).
Proof.
  intros A. split; unfold part; cbn.
  - intros a b [[H|H]|[H|H]]; [left|right|left|right]; apply (ab_add _ _ A); auto.
  - intros a b [[H|H]|[H|H]]; [left|right|left|right]; apply (ab_sub _ _ A); auto.
  - intros t b [H|H]; [left|right]; apply (ab_scale _ _ A); auto.
Qed.
Lemma nf_neq0 (a : bf) : nonfinite a -> neqb B a (nofZ B 0) = false.
Proof. unfold nonfinite. assert (E : nofZ B 0 = B754_zero false) by reflexivity. rewrite E. destruct a as [| [] | |]; cbn; auto; discriminate. Qed.
(** AM: NaN *)
Lemma nan_abs (z : cplx bf) : part nan z -> nan (cabs B z).
Proof. intros H. apply nan_sqrt, nan_add. destruct H; [left|right]; apply nan_mul; auto. Qed.
Lemma amd_nan a : spoils (part nan) nan (out (amd_step B) a).
Proof.
  apply (spoils_inv (part nan) nan (fun a => nan (am_avg a))). intros s i H. unfold amd_step. cbn [fst snd am_avg].
  set (amp := cabs B i). set (w := if nltb B amp (am_avg s) then am_dec s else am_att s).
  assert (L : nan (lerp B (vreal B) (am_avg s) amp w)) by (apply (lerp_bad _ _ _ nan_real); destruct H as [H|H]; [left; exact H|right; apply nan_abs; exact H]).
  assert (Mx : nmin B (nmax B (lerp B (vreal B) (am_avg s) amp w) (am_lo s)) (am_hi s) = lerp B (vreal B) (am_avg s) amp w).
  { unfold nmin, nmax. rewrite (nan_lt _ (am_lo s)) by auto. rewrite nan_lt by auto. reflexivity. }
  rewrite Mx. split; auto. apply nan_div. left. apply nan_sub. left. apply nan_mul. left. apply nan_div. auto.
Qed.
End Ieee.

(** ** Finite memory, any arithmetic *)
Section Mem.
Context {S I O C : Type} (step : S -> I -> S * O) (sc : S -> C).
Hypothesis Hsc : forall s i, sc (fst (step s i)) = sc s.
Lemma state_sc s0 x t : sc (state_at step s0 x t) = sc s0. Proof. induction t as [|t IH]; cbn [state_at]; auto. rewrite Hsc. auto. Qed.
Lemma mem2 s0 : (forall s s' i, sc s = sc s' -> fst (step s i) = fst (step s' i)) -> remembers 2 (out step s0).
Proof.
  intros H x y [|t] E; unfold out; cbn [state_at]; [rewrite (E 0%nat) by lia; reflexivity|]. rewrite (E (Datatypes.S t)), (E t) by lia.
  rewrite (H _ (state_at step s0 y t)); [reflexivity|]. rewrite !state_sc. reflexivity.
Qed.
Lemma mem3 s0 : (forall s s' i j, sc s = sc s' -> fst (step (fst (step s i)) j) = fst (step (fst (step s' i)) j)) -> remembers 3 (out step s0).
Proof.
  intros H x y [|[|t]] E; unfold out; cbn [state_at]; [rewrite (E 0%nat) by lia; reflexivity|rewrite (E 0%nat), (E 1%nat) by lia; reflexivity|]. rewrite (E (Datatypes.S (Datatypes.S t))), (E (Datatypes.S t)), (E t) by lia.
  rewrite (H _ (state_at step s0 y t)); [reflexivity|]. rewrite !state_sc. reflexivity.
Qed.
End Mem.
Section Memory.
Context {T : Type} (N : num T).
Lemma differentiator_memory {A} (sub : A -> A -> A) p : remembers 2 (out (differentiator_step sub) p).
Proof. apply (mem2 _ (fun _ => tt)); reflexivity. Qed.
Lemma fmd1_memory argf f : remembers 2 (out (fmd1_step N argf) f). Proof. apply (mem2 _ fm_scale); [reflexivity|]. intros s s' i H. cbn. rewrite H. reflexivity. Qed.
Lemma fmd2_memory argf f : remembers 2 (out (fmd2_step N argf) f). Proof. apply (mem2 _ fm_scale); [reflexivity|]. intros s s' i H. cbn. rewrite H. reflexivity. Qed.
Lemma fmd3_memory argf f : remembers 2 (out (fmd3_step N argf) f). Proof. apply (mem2 _ fm_scale); [reflexivity|]. intros s s' i H. cbn. rewrite H. reflexivity. Qed.
Lemma fmd4_memory f : remembers 2 (out (fmd4_step N) f). Proof. apply (mem2 _ fm_scale); [reflexivity|]. intros s s' i H. cbn. rewrite H. reflexivity. Qed.
Lemma fmd5_memory f : remembers 3 (out (fmd5_step N) f).
Proof. apply (mem3 _ fm_scale); [intros [[p q] c] i; reflexivity|]. intros [[p q] c] [[p' q'] c'] i j H. cbn in *. rewrite H. reflexivity. Qed.
Local Open Scope Z_scope.
Lemma acc_ext f g n : (forall i, 0 <= i <= Z.of_nat n -> f i = g i) -> acc N f n = acc N g n.
Proof.
  intros H. unfold acc. rewrite (H 0) by lia. assert (G : forall l a, (forall i, In i l -> f i = g i) -> fold_left (fun a i => nadd N a (f i)) l a = fold_left (fun a i => nadd N a (g i)) l a).
  { induction l as [|i l IH]; intros a Hl; cbn [fold_left]; auto. rewrite (Hl i) by (left; auto). apply IH. intros j Hj. apply Hl. right. auto. }
  apply G. intros i Hi. apply in_map_iff in Hi. destruct Hi as (j & <- & Hj). apply in_seq in Hj. apply H. lia.
Qed.
Lemma hilbert_memory (K : nat) imco reco : (1 <= K)%nat -> length imco = K ->
  remembers (4 * K + 1) (oout (hilbert_step N (4 * Z.of_nat K + 1)) (Ok (mkHilbert (repeat (n0 N) (4 * K + 1)) imco reco))).
Proof.
  intros HK HC x y t E. rewrite (proj2 (hilbert_state N K HK imco reco HC x t)), (proj2 (hilbert_state N K HK imco reco HC y t)). cbv zeta.
  assert (Z : forall u, Z.of_nat t - 4 * Z.of_nat K <= u <= Z.of_nat t -> zext N x u = zext N y u). { intros u Hu. unfold zext. destruct (Z.ltb_spec u 0); auto. apply E. lia. }
  rewrite (Z (Z.of_nat t - 1 - 2 * Z.of_nat K)) by lia. do 2 f_equal. apply acc_ext. intros i Hi. rewrite !Z by lia. reflexivity.
Qed.
Lemma cdc_memory (K : nat) imco reco : (1 <= K)%nat -> length imco = K ->
  remembers (2 * K) (oout (cdc_step N (4 * Z.of_nat K + 1)) (Ok (mkCdc (repeat (n0 N) K) (repeat (n0 N) (2 * K)) imco reco false))).
Proof.
  intros HK HC x y t E. rewrite (proj2 (cdc_state N K HK imco reco HC x t)), (proj2 (cdc_state N K HK imco reco HC y t)). cbv zeta.
  assert (Z0 : forall (h : T * T -> T) u, Z.of_nat t - 2 * Z.of_nat K + 1 <= u <= Z.of_nat t -> alt N (fun v => h (x v)) u = alt N (fun v => h (y v)) u).
  { intros h u Hu. unfold alt. destruct (Z.ltb_spec u 0); auto. rewrite (E (Z.to_nat u)) by lia. reflexivity. }
  rewrite (Z0 snd (Z.of_nat t - Z.of_nat K)) by lia. do 2 f_equal. apply acc_ext. intros i Hi. rewrite !(Z0 fst) by lia. reflexivity.
Qed.
Lemma ring_det {A} n buf buf' pos (w : list A) : ring n buf pos w -> ring n buf' pos w -> buf = buf'.
Proof.
  intros (Hn & L & P & Lw & H) (_ & L' & _ & _ & H'). apply list_eq_znth; [lia|]. intros i Hi.
  assert (E : (pos + ((i - pos) mod n)) mod n = i). { rewrite Zplus_mod_idemp_r. replace (pos + (i - pos)) with i by lia. apply Z.mod_small. lia. }
  pose proof (Z.mod_pos_bound (i - pos) n ltac:(lia)). specialize (H ((i - pos) mod n) ltac:(lia)). specialize (H' ((i - pos) mod n) ltac:(lia)). rewrite E in *. congruence.
Qed.
Lemma window_sig {A} (z : A) n x y t : (forall k, (k <= t < k + n)%nat -> x k = y k) -> window n z (map x (seq 0 (S t))) = window n z (map y (seq 0 (S t))).
Proof.
  intros E. apply (nth_ext _ _ z z); [rewrite !window_length; auto|]. intros i Hi. rewrite window_length in Hi.
  assert (G : forall x : nat -> A, nth_error (window n z (map x (seq 0 (S t)))) i = Some (if (S t + i <? n)%nat then z else x (S t + i - n)%nat)).
  { intros u. rewrite window_nth_full by lia. rewrite map_length, seq_length. destruct (Nat.ltb_spec (S t + i) n); auto. rewrite nth_error_map, (nth_error_nth' _ O) by (rewrite seq_length; lia). rewrite seq_nth by lia. reflexivity. }
  rewrite (nth_error_nth _ _ z (G x)), (nth_error_nth _ _ z (G y)). destruct (Nat.ltb_spec (S t + i) n); auto. apply E. lia.
Qed.
Lemma sma1_memory {A} (zero : A) add div (n : nat) : (1 <= n)%nat -> remembers n (oout (sma1_call add div (Z.of_nat n)) (Ok (sma1_new zero (Z.of_nat n)))).
Proof.
  intros Hn. set (NUM := Z.of_nat n).
  assert (Step : forall x s t, ring NUM (s1_inp s) (Z.of_nat t mod NUM) (window n zero (map x (seq 0 t))) -> s1_pos s = Z.of_nat t mod NUM -> exists s' o,
    sma1_call add div NUM s (x t) = Ok (s', o) /\ ring NUM (s1_inp s') (Z.of_nat (S t) mod NUM) (window n zero (map x (seq 0 (S t)))) /\ s1_pos s' = Z.of_nat (S t) mod NUM /\
    (h0 <- get (s1_inp s') 0 ;; sum <- for_loop (Z.to_nat (NUM - 1)) 1 (fun i sum => v <- get (s1_inp s') i ;; Ok (add sum v)) h0 ;; Ok (div sum)) = Ok o).
  { intros x s t R P. unfold sma1_call. rewrite P. pose proof (Z.mod_pos_bound (Z.of_nat t) NUM ltac:(lia)) as Mb. destruct (ring_push _ _ _ _ (x t) R) as (-> & R'). cbn [bind].
    rewrite <- (Nat2Z.id n) in R' at 1. fold NUM in R'. rewrite <- window_snoc in R' by lia. rewrite inc_wrap by lia.
    assert (Lh : zlen (zupd (s1_inp s) (Z.of_nat t mod NUM) (x t)) = NUM) by apply R'. set (h := zupd _ _ _) in *.
    destruct (get_in_range h 0) as (h0 & _ & E0); [lia|]. rewrite E0. cbn [bind].
    destruct (for_loop_inv (fun _ _ => True) (fun i sum => v <- get h i ;; Ok (add sum v)) (Z.to_nat (NUM - 1)) 1 h0 I) as (sm & Es & _).
    { intros j a Hj _. destruct (get_in_range h j) as (v & _ & Ev); [lia|]. rewrite Ev. cbn [bind]. eauto. }
    rewrite Es. cbn [bind]. eexists _, _. split; [reflexivity|]. cbn [s1_inp s1_pos]. assert (Em : (Z.of_nat t mod NUM + 1) mod NUM = Z.of_nat (S t) mod NUM) by (rewrite Zplus_mod_idemp_l; f_equal; lia).
    rewrite <- Em. split; [rewrite seq_S, map_app; unfold NUM in R'; rewrite Nat2Z.id in R'; exact R'|]. split; [reflexivity|]. rewrite E0. cbn [bind]. rewrite Es. reflexivity. }
  assert (G : forall x t, exists s, ostate_at (sma1_call add div NUM) (Ok (sma1_new zero NUM)) x t = Ok s /\ ring NUM (s1_inp s) (Z.of_nat t mod NUM) (window n zero (map x (seq 0 t))) /\ s1_pos s = Z.of_nat t mod NUM).
  { intros x. induction t as [|t (s & E & R & P)]; cbn [ostate_at].
    - eexists. split; [reflexivity|]. cbn [sma1_new s1_inp s1_pos seq map]. rewrite window_nil, Z.mod_0_l by lia. split; auto. pose proof (ring_init NUM zero ltac:(lia)) as Ri. unfold NUM in Ri |- *. rewrite Nat2Z.id in Ri |- *. exact Ri.
    - rewrite E. cbn [bind]. destruct (Step x s t R P) as (s' & o & -> & R' & P' & _). cbn [bind fst]. eauto. }
  intros x y t E. unfold oout. destruct (G x t) as (s & -> & R & P). destruct (G y t) as (s' & -> & R' & P'). cbn [bind].
  destruct (Step x s t R P) as (s1 & o & -> & Rs & _ & Eo). destruct (Step y s' t R' P') as (s2 & o' & -> & Rs' & _ & Eo'). cbn [bind snd].
  rewrite (window_sig zero n x y t E) in Rs. rewrite (ring_det _ _ _ _ _ Rs Rs') in Eo. congruence.
Qed.
End Memory.
