(* The filters in the IEEE formats: a finite output is the one computed with unbounded exponents, and bounded input gives finite outputs *)
From Coq Require Import ZArith Reals Lia Lra List Bool.
From Flocq Require Import Core BinarySingleNaN.
From Verif Require Import Model.Base Model.Num Model.Complex Model.NumIeee Model.Signal Model.OSignal Model.Ema Model.Biquad Model.Kahan Model.Delay Model.Swa Model.Sma Model.Cdc Model.Utils
  Spec.Rounding Spec.Overflow Proofs.BaseLemmas Proofs.IeeeProofs Proofs.IeeeFun Proofs.IeeeFft Proofs.Param Proofs.ParamFilt Proofs.SecondOrder Proofs.BiquadProofs Proofs.EmaProofs Proofs.IirRound.
Import ListNotations.
Open Scope R_scope.

Section Filt.
Context (prec emax : Z) {Hp : Prec_gt_0 prec} {Hpe : Prec_lt_emax prec emax}.
Notation bf := (binary_float prec emax).
Notation B := (Bn prec emax).
Notation rnd := (brnd prec emax).
Notation F := (Fn rnd).
Notation rF := (relF prec emax).

Lemma self b : rF b (B2R b). Proof. intros _. reflexivity. Qed.
Lemma cself (z : bf * bf) : crel rF z (B2R (fst z), B2R (snd z)). Proof. split; apply self. Qed.
Lemma zF : rF (n0 B) (n0 F). Proof. intros _. reflexivity. Qed.
Lemma oneF : rF (n1 B) (n1 F). Proof. apply rep_relF, rep_1. Qed.
Lemma addF a b x y : rF a x -> rF b y -> rF (nadd B a b) (nadd F x y). Proof. apply relF_add. Qed.
Lemma subF a b x y : rF a x -> rF b y -> rF (nsub B a b) (nsub F x y). Proof. apply relF_sub. Qed.
Lemma mulF a b x y : rF a x -> rF b y -> rF (nmul B a b) (nmul F x y). Proof. apply relF_mul. Qed.
Lemma oppF a x : rF a x -> rF (nopp B a) (nopp F x). Proof. apply relF_opp. Qed.
Lemma czF : crel rF (v0 (vcplx B)) (v0 (vcplx F)). Proof. split; apply zF. Qed.
Lemma caddF a b x y : crel rF a x -> crel rF b y -> crel rF (cadd B a b) (cadd F x y). Proof. intros [] []. split; apply addF; auto. Qed.
Lemma csubF a b x y : crel rF a x -> crel rF b y -> crel rF (csub B a b) (csub F x y). Proof. intros [] []. split; apply subF; auto. Qed.
Lemma cscaleF a b x y : rF a x -> crel rF b y -> crel rF (cscale B a b) (cscale F x y). Proof. intros ? []. split; apply mulF; auto. Qed.
Lemma coppF a x : crel rF a x -> crel rF (copp B a) (copp F x). Proof. intros []. split; apply oppF; auto. Qed.
Lemma divF (P24 : (24 <= prec)%Z) (E128 : (128 <= emax)%Z) NUM a x : (0 < NUM <= INT_MAX)%Z -> rF a x -> rF (ndiv B a (nofZ B NUM)) (ndiv F x (nofZ F NUM)).
Proof.
  intros HN Ha H. assert (K : rk prec emax (nofZ B NUM) (nofZ F NUM) 31) by (apply rk_ofZ; auto; unfold INT_MAX in HN; lia).
  destruct K as [[Fc Vc] Bc]. cbn [ndiv Bn Fn] in *. set (c := nofZ B NUM) in *.
  assert (C1 : 1 <= B2R c). { rewrite Vc. cbn [nofZ Fn]. apply (rnd_ge prec emax P24 E128 0); [lia|]. cbn. apply IZR_le. lia. }
  assert (Fa : is_finite a = true). { change (nofZ _ NUM) with c in H. destruct a, c; try discriminate H; try discriminate Fc; try reflexivity. }
  pose proof (Bdiv_correct prec emax _ _ mode_NE a c ltac:(lra)) as P. cbn [round_mode] in P. rewrite <- (Ha Fa), <- Vc. change (nofZ _ NUM) with c in H |- *.
  destruct (Rlt_bool _ _); [apply P|]. apply inf_nf in P. congruence.
Qed.
Ltac fin := first [exact oneF|exact zF|exact czF|exact addF|exact subF|exact mulF|exact oppF|exact caddF|exact csubF|exact cscaleF|exact coppF|apply self|apply cself|intros; apply self|intros; apply cself].


Lemma bqrel_self (b : biquad bf bf) : bqrel rF rF b (bq_R B2R b). Proof. unfold bqrel, corel, bq_R, coefs_R; cbn; repeat (split; [apply self|]); apply self. Qed.
Lemma bqrel_cself (b : biquad bf (bf * bf)) : bqrel rF (crel rF) b (bq_R cR2 b). Proof. unfold bqrel, corel, bq_R, coefs_R; cbn. repeat (split; [first [apply cself|apply self]|]). apply self. Qed.
Lemma Forall2_map_self {A W} (P : A -> W -> Prop) f l : (forall a, P a (f a)) -> Forall2 P l (map f l). Proof. intros. induction l; cbn; auto. Qed.

Lemma ema_f p al : faithful (out (ema_step B (vreal B)) (mkEma p al)) (out (ema_step F (vreal F)) (mkEma (B2R p) (B2R al))).
Proof. intros x t. apply (ema_rel B F (vreal B) (vreal F) rF rF); fin. Qed.
Lemma ema_cf p al : cfaithful (out (ema_step B (vcplx B)) (mkEma p al)) (out (ema_step F (vcplx F)) (mkEma (cR2 p) (B2R al))).
Proof. intros x t. apply (ema_rel B F (vcplx B) (vcplx F) rF (crel rF)); fin. Qed.
Lemma emac_f p al : faithful (out (emac_step B (vreal B)) (mkEmac p al)) (out (emac_step F (vreal F)) (mkEmac (map B2R p) (B2R al))).
Proof. intros x t. apply (emac_rel B F (vreal B) (vreal F) rF rF); try (apply Forall2_map_self); fin. Qed.
Lemma emac_cf p al : cfaithful (out (emac_step B (vcplx B)) (mkEmac p al)) (out (emac_step F (vcplx F)) (mkEmac (map cR2 p) (B2R al))).
Proof. intros x t. apply (emac_rel B F (vcplx B) (vcplx F) rF (crel rF)); try (apply Forall2_map_self); fin. Qed.
Lemma bd_f x1 y1 a b : faithful (out (blockdc_step (vreal B)) (mkBdc x1 y1 a b)) (out (blockdc_step (vreal F)) (mkBdc (B2R x1) (B2R y1) (B2R a) (B2R b))).
Proof. intros x t. apply (bd_rel (vreal B) (vreal F) rF rF); try (repeat (split; [apply self|]); apply self); fin. Qed.
Lemma bd_cf x1 y1 a b : cfaithful (out (blockdc_step (vcplx B)) (mkBdc x1 y1 a b)) (out (blockdc_step (vcplx F)) (mkBdc (cR2 x1) (cR2 y1) (B2R a) (B2R b))).
Proof. intros x t. apply (bd_rel (vcplx B) (vcplx F) rF (crel rF)); try (repeat (split; [first [apply cself|apply self]|]); apply self); fin. Qed.
Lemma bq_f b : faithful (out (biquad_step (vreal B)) b) (out (biquad_step (vreal F)) (bq_R B2R b)).
Proof. intros x t. apply (bq_rel (vreal B) (vreal F) rF rF); try apply bqrel_self; fin. Qed.
Lemma bq_cf b : cfaithful (out (biquad_step (vcplx B)) b) (out (biquad_step (vcplx F)) (bq_R cR2 b)).
Proof. intros x t. apply (bq_rel (vcplx B) (vcplx F) rF (crel rF)); try apply bqrel_cself; fin. Qed.
Lemma bqc_f b : faithful (out (bqc_step (vreal B)) b) (out (bqc_step (vreal F)) (map (bq_R B2R) b)).
Proof. intros x t. apply (bqc_rel (vreal B) (vreal F) rF rF); try (apply Forall2_map_self, bqrel_self); fin. Qed.
Lemma bqc_cf b : cfaithful (out (bqc_step (vcplx B)) b) (out (bqc_step (vcplx F)) (map (bq_R cR2) b)).
Proof. intros x t. apply (bqc_rel (vcplx B) (vcplx F) rF (crel rF)); try (apply Forall2_map_self, bqrel_cself); fin. Qed.
Lemma integ_f s : faithful (out (integrator_step (nadd B)) s) (out (integrator_step (nadd F)) (B2R s)).
Proof. intros x t. apply (integ_rel (vreal B) (vreal F) rF); fin. Qed.
Lemma diff_f s : faithful (out (differentiator_step (nsub B)) s) (out (differentiator_step (nsub F)) (B2R s)).
Proof. intros x t. apply (diff_rel (vreal B) (vreal F) rF); fin. Qed.
Lemma kahan_f h l : faithful (out (kahan_call (nadd B) (nsub B)) (mkKahan h l)) (out (kahan_call (nadd F) (nsub F)) (mkKahan (B2R h) (B2R l))).
Proof. intros x t. apply (ka_rel (vreal B) (vreal F) rF); try (split; apply self); fin. Qed.
Lemma ofaith (oB : (nat -> bf) -> nat -> outcome bf) oF : (forall x t, orel rF (oB x t) (oF (fun k => B2R (x k)) t)) -> ofaithful oB oF.
Proof. intros H x t v E Fv. specialize (H x t). rewrite E in H. destruct (oF _ t); try contradiction. cbn in H. f_equal. symmetry. apply H; auto. Qed.
Section Sma.
Context (P24 : (24 <= prec)%Z) (E128 : (128 <= emax)%Z) (NUM : Z) (HN : (0 < NUM <= INT_MAX)%Z).
Lemma sma1_f : ofaithful (oout (sma1_call (nadd B) (fun v => ndiv B v (nofZ B NUM)) NUM) (Ok (sma1_new (n0 B) NUM))) (oout (sma1_call (nadd F) (fun v => ndiv F v (nofZ F NUM)) NUM) (Ok (sma1_new (n0 F) NUM))).
Proof. apply ofaith. intros x t. apply (sma1_rel (vreal B) (vreal F) rF); try (intros; apply divF; assumption); fin. Qed.
Lemma sma2_f norm : ofaithful (oout (sma2_call (nadd B) (nsub B) (fun v => ndiv B v (nofZ B NUM)) NUM norm) (Ok (sma2_new (n0 B) NUM))) (oout (sma2_call (nadd F) (nsub F) (fun v => ndiv F v (nofZ F NUM)) NUM norm) (Ok (sma2_new (n0 F) NUM))).
Proof. apply ofaith. intros x t. apply (sma2_rel (vreal B) (vreal F) rF); try (intros; apply divF; assumption); fin. Qed.
Lemma sma3_f norm : ofaithful (oout (sma3_call (nadd B) (nsub B) (nopp B) (fun v => ndiv B v (nofZ B NUM)) NUM norm) (Ok (sma3_new (n0 B) NUM))) (oout (sma3_call (nadd F) (nsub F) (nopp F) (fun v => ndiv F v (nofZ F NUM)) NUM norm) (Ok (sma3_new (n0 F) NUM))).
Proof. apply ofaith. intros x t. apply (sma3_rel (vreal B) (vreal F) rF); try (intros; apply divF; assumption); fin. Qed.
Lemma sma4_f norm : ofaithful (oout (sma4_call (nadd B) (fun v => ndiv B v (nofZ B NUM)) NUM norm) (Ok (sma4_new (n0 B) NUM))) (oout (sma4_call (nadd F) (fun v => ndiv F v (nofZ F NUM)) NUM norm) (Ok (sma4_new (n0 F) NUM))).
Proof. apply ofaith. intros x t. apply (sma4_rel (vreal B) (vreal F) rF); try (intros; apply divF; assumption); fin. Qed.
End Sma.
Lemma hilbert_f TAPS h c r : ocfaithful (oout (hilbert_step B TAPS) (Ok (mkHilbert h c r))) (fun x => oout (hilbert_step F TAPS) (Ok (mkHilbert (map B2R h) (map B2R c) (B2R r))) (fun k => B2R (x k))).
Proof.
  intros x t v E. pose proof (hilbert_rel B F rF TAPS addF subF mulF (mkHilbert h c r) (mkHilbert (map B2R h) (map B2R c) (B2R r)) x (fun k => B2R (x k)) t) as H.
  rewrite E in H. specialize (H (Forall2_map_self _ _ _ self) (Forall2_map_self _ _ _ self) (self _) (fun _ => self _)). destruct (oout (hilbert_step F TAPS) _ _ t) as [w| | |]; try contradiction. exists w. split; [reflexivity|]. exact H.
Qed.
Lemma cdc_f TAPS re im c r sg : ocfaithful (oout (cdc_step B TAPS) (Ok (mkCdc re im c r sg))) (fun x => oout (cdc_step F TAPS) (Ok (mkCdc (map B2R re) (map B2R im) (map B2R c) (B2R r) sg)) (fun k => cR2 (x k))).
Proof.
  intros x t v E. pose proof (cdc_rel B F rF TAPS addF mulF oppF (mkCdc re im c r sg) (mkCdc (map B2R re) (map B2R im) (map B2R c) (B2R r) sg) x (fun k => cR2 (x k)) t) as H.
  rewrite E in H. specialize (H (Forall2_map_self _ _ _ self) (Forall2_map_self _ _ _ self) (Forall2_map_self _ _ _ self) (self _) eq_refl (fun _ => cself _)). destruct (oout (cdc_step F TAPS) _ _ t) as [w| | |]; try contradiction. exists w. split; [reflexivity|]. exact H.
Qed.
End Filt.
