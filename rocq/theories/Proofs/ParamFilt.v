(* Parametricity of the filters: two number types whose operations respect a relation give related outputs *)
From Coq Require Import Reals ZArith Lia List Bool.
From Verif Require Import Model.Num Model.Complex Model.Base Model.Signal Model.OSignal Model.Ema Model.Biquad Model.Kahan Model.Delay Model.Swa Model.Sma Model.Cdc Model.Utils Proofs.BaseLemmas Proofs.Param.
Import ListNotations.
Open Scope Z_scope.

Section Out.
Context {S1 S2 I1 I2 O1 O2 : Type} (RS : S1 -> S2 -> Prop) (RI : I1 -> I2 -> Prop) (RO : O1 -> O2 -> Prop).
Lemma out_rel f g s1 s2 x y t : (forall a b i j, RS a b -> RI i j -> RS (fst (f a i)) (fst (g b j)) /\ RO (snd (f a i)) (snd (g b j))) -> RS s1 s2 -> (forall t, RI (x t) (y t)) -> RO (out f s1 x t) (out g s2 y t).
Proof. intros H H0 HI. assert (G : RS (state_at f s1 x t) (state_at g s2 y t)) by (induction t; cbn [state_at]; [auto|apply H; auto]). unfold out. apply H; auto. Qed.
Definition prel (p : S1 * O1) (q : S2 * O2) : Prop := RS (fst p) (fst q) /\ RO (snd p) (snd q).
Lemma oout_rel f g s1 s2 x y t : (forall a b i j, RS a b -> RI i j -> orel prel (f a i) (g b j)) -> orel RS s1 s2 -> (forall t, RI (x t) (y t)) -> orel RO (oout f s1 x t) (oout g s2 y t).
Proof.
  intros H H0 HI. assert (G : orel RS (ostate_at f s1 x t) (ostate_at g s2 y t)).
  { induction t; cbn [ostate_at]; [auto|]. eapply orel_bind; [exact IHt|]. intros a b Hab. eapply orel_bind; [apply H; [exact Hab|apply HI]|]. intros p q Hp. apply Hp. }
  unfold oout. eapply orel_bind; [exact G|]. intros a b Hab. eapply orel_bind; [apply H; [exact Hab|apply HI]|]. intros p q Hp. apply Hp.
Qed.
End Out.

Section Filt.
Context {T1 T2 V1 V2 : Type} (N1 : num T1) (N2 : num T2) (M1 : vsp T1 V1) (M2 : vsp T2 V2) (RT : T1 -> T2 -> Prop) (RV : V1 -> V2 -> Prop).
Hypothesis R1 : RT (n1 N1) (n1 N2).
Hypothesis Rsub : forall a b x y, RT a x -> RT b y -> RT (nsub N1 a b) (nsub N2 x y).
Hypothesis V0 : RV (v0 M1) (v0 M2).
Hypothesis Vadd : forall a b x y, RV a x -> RV b y -> RV (vadd M1 a b) (vadd M2 x y).
Hypothesis Vsub : forall a b x y, RV a x -> RV b y -> RV (vsub M1 a b) (vsub M2 x y).
Hypothesis Vopp : forall a x, RV a x -> RV (vopp M1 a) (vopp M2 x).
Hypothesis Vscale : forall a b x y, RT a x -> RV b y -> RV (vscale M1 a b) (vscale M2 x y).

Lemma lerp_rel a b p q x y : RV a b -> RV p q -> RT x y -> RV (lerp N1 M1 a p x) (lerp N2 M2 b q y).
Proof. intros. unfold lerp. auto 10. Qed.
Lemma ema_rel p q a b x y t : RV p q -> RT a b -> (forall t, RV (x t) (y t)) -> RV (out (ema_step N1 M1) (mkEma p a) x t) (out (ema_step N2 M2) (mkEma q b) y t).
Proof.
  intros. apply (out_rel (fun e f => RV (em_prev e) (em_prev f) /\ RT (em_alpha e) (em_alpha f)) RV RV); cbn; auto. intros e f i j [] ?. repeat split; auto using lerp_rel.
Qed.
Lemma emac_loop_rel al be : RT al be -> forall p q, Forall2 RV p q -> forall i j, RV i j -> Forall2 RV (fst (emac_loop N1 M1 al p i)) (fst (emac_loop N2 M2 be q j)) /\ RV (snd (emac_loop N1 M1 al p i)) (snd (emac_loop N2 M2 be q j)).
Proof.
  intros Ha. induction 1 as [|p q ps qs H F IH]; intros i j Hi; cbn; auto. pose proof (lerp_rel _ _ _ _ _ _ H Hi Ha) as L. specialize (IH _ _ L).
  destruct (emac_loop N1 M1 al ps _), (emac_loop N2 M2 be qs _). cbn in *. destruct IH. auto.
Qed.
Lemma emac_rel p q a b x y t : Forall2 RV p q -> RT a b -> (forall t, RV (x t) (y t)) -> RV (out (emac_step N1 M1) (mkEmac p a) x t) (out (emac_step N2 M2) (mkEmac q b) y t).
Proof.
  intros. apply (out_rel (fun e f => Forall2 RV (ec_prev e) (ec_prev f) /\ RT (ec_alpha e) (ec_alpha f)) RV RV); cbn; auto. intros e f i j [P Q] Hi. unfold emac_step.
  pose proof (emac_loop_rel _ _ Q _ _ P _ _ Hi) as L. destruct (emac_loop N1 M1 _ _ i), (emac_loop N2 M2 _ _ j). cbn in *. destruct L. auto.
Qed.
Definition bdrel (d : blockdc T1 V1) (e : blockdc T2 V2) : Prop := RV (bd_x1 d) (bd_x1 e) /\ RV (bd_y1 d) (bd_y1 e) /\ RT (bd_a d) (bd_a e) /\ RT (bd_b d) (bd_b e).
Lemma bd_step_rel d e i j : bdrel d e -> RV i j -> bdrel (fst (blockdc_step M1 d i)) (fst (blockdc_step M2 e j)) /\ RV (snd (blockdc_step M1 d i)) (snd (blockdc_step M2 e j)).
Proof. intros (A & B & C & D) H. cbn. unfold bdrel. cbn. auto 12. Qed.
Lemma bd_rel d e x y t : bdrel d e -> (forall t, RV (x t) (y t)) -> RV (out (blockdc_step M1) d x t) (out (blockdc_step M2) e y t).
Proof. intros. apply (out_rel bdrel RV RV); auto. apply bd_step_rel. Qed.
Definition corel (c : coefs T1) (d : coefs T2) : Prop := RT (b0a0 c) (b0a0 d) /\ RT (b1a0 c) (b1a0 d) /\ RT (b2a0 c) (b2a0 d) /\ RT (a1a0 c) (a1a0 d) /\ RT (a2a0 c) (a2a0 d).
Definition bqrel (c : biquad T1 V1) (d : biquad T2 V2) : Prop := RV (bq_x1 c) (bq_x1 d) /\ RV (bq_x2 c) (bq_x2 d) /\ RV (bq_y1 c) (bq_y1 d) /\ RV (bq_y2 c) (bq_y2 d) /\ corel (bq_c c) (bq_c d).
Lemma bq_step_rel c d i j : bqrel c d -> RV i j -> bqrel (fst (biquad_step M1 c i)) (fst (biquad_step M2 d j)) /\ RV (snd (biquad_step M1 c i)) (snd (biquad_step M2 d j)).
Proof.
  intros (A & B & C & D & E) H. pose proof E as (E0 & E1 & E2 & E3 & E4).
  assert (Y : RV (snd (biquad_step M1 c i)) (snd (biquad_step M2 d j))) by (cbn; apply Vsub; [apply Vsub; [apply Vadd; [apply Vadd|]|]|]; apply Vscale; auto).
  split; [|exact Y]. unfold bqrel. cbn in *. auto 10.
Qed.
Lemma bq_rel c d x y t : bqrel c d -> (forall t, RV (x t) (y t)) -> RV (out (biquad_step M1) c x t) (out (biquad_step M2) d y t).
Proof. intros. apply (out_rel bqrel RV RV); auto. apply bq_step_rel. Qed.
Lemma bqc_step_rel : forall c d, Forall2 bqrel c d -> forall i j, RV i j -> Forall2 bqrel (fst (bqc_step M1 c i)) (fst (bqc_step M2 d j)) /\ RV (snd (bqc_step M1 c i)) (snd (bqc_step M2 d j)).
Proof.
  induction 1 as [|c d cs ds H F IH]; intros i j Hi; cbn [bqc_step]; [cbn; auto|]. destruct (bq_step_rel c d i j H Hi) as [P Q]. destruct (biquad_step M1 c i), (biquad_step M2 d j). cbn [fst snd] in *.
  specialize (IH _ _ Q). destruct (bqc_step M1 cs _), (bqc_step M2 ds _). cbn in *. destruct IH. auto.
Qed.
Lemma bqc_rel c d x y t : Forall2 bqrel c d -> (forall t, RV (x t) (y t)) -> RV (out (bqc_step M1) c x t) (out (bqc_step M2) d y t).
Proof. intros. apply (out_rel (Forall2 bqrel) RV RV); auto. intros. apply bqc_step_rel; auto. Qed.
Lemma integ_rel s r x y t : RV s r -> (forall t, RV (x t) (y t)) -> RV (out (integrator_step (vadd M1)) s x t) (out (integrator_step (vadd M2)) r y t).
Proof. intros. apply (out_rel RV RV RV); auto. cbn. auto. Qed.
Lemma diff_rel s r x y t : RV s r -> (forall t, RV (x t) (y t)) -> RV (out (differentiator_step (vsub M1)) s x t) (out (differentiator_step (vsub M2)) r y t).
Proof. intros. apply (out_rel RV RV RV); auto. cbn. auto. Qed.
Definition karel (k : kahan V1) (l : kahan V2) : Prop := RV (k_high k) (k_high l) /\ RV (k_low k) (k_low l).
Lemma ka_step_rel k l i j : karel k l -> RV i j -> karel (fst (kahan_call (vadd M1) (vsub M1) k i)) (fst (kahan_call (vadd M2) (vsub M2) l j)) /\ RV (snd (kahan_call (vadd M1) (vsub M1) k i)) (snd (kahan_call (vadd M2) (vsub M2) l j)).
Proof. intros [A B] H. unfold kahan_call, karel. cbn. auto 12. Qed.
Lemma ka_rel k l x y t : karel k l -> (forall t, RV (x t) (y t)) -> RV (out (kahan_call (vadd M1) (vsub M1)) k x t) (out (kahan_call (vadd M2) (vsub M2)) l y t).
Proof. intros. apply (out_rel karel RV RV); auto. apply ka_step_rel. Qed.

(** moving averages *)
Context (NUM : Z) (d1 : V1 -> V1) (d2 : V2 -> V2).
Hypothesis Vdiv : forall a x, RV a x -> RV (d1 a) (d2 x).
Lemma repeat_rel {A B} (P : A -> B -> Prop) a b n : P a b -> Forall2 P (repeat a n) (repeat b n). Proof. intros. induction n; cbn; auto. Qed.
Definition dlrel (d : delay V1) (e : delay V2) : Prop := Forall2 RV (dl_buf d) (dl_buf e) /\ dl_pos d = dl_pos e.
Lemma dl_rel d e i j : dlrel d e -> RV i j -> orel (prel dlrel RV) (delay_call NUM d i) (delay_call NUM e j).
Proof.
  intros [A B] H. unfold delay_call. rewrite B. eapply orel_bind; [apply get_rel; exact A|]. intros. eapply orel_bind; [apply set_rel; [exact A|exact H]|]. intros. cbn. split; [split|]; cbn; auto.
Qed.
Lemma sma1_rel x y t : (forall t, RV (x t) (y t)) -> orel RV (oout (sma1_call (vadd M1) d1 NUM) (Ok (sma1_new (v0 M1) NUM)) x t) (oout (sma1_call (vadd M2) d2 NUM) (Ok (sma1_new (v0 M2) NUM)) y t).
Proof.
  intros H. apply (oout_rel (fun s r => Forall2 RV (s1_inp s) (s1_inp r) /\ RV (s1_avg s) (s1_avg r) /\ s1_pos s = s1_pos r) RV RV); auto.
  - intros s r i j (A & B & C) Hi. unfold sma1_call. rewrite C. eapply orel_bind; [apply set_rel; [exact A|exact Hi]|]. intros h k Hh. eapply orel_bind; [apply get_rel; exact Hh|]. intros a b Hab.
    eapply orel_bind; [apply for_loop_rel; [exact Hab|]|].
    + intros n p q Hp. eapply orel_bind; [apply get_rel; exact Hh|]. intros. cbn. auto.
    + intros p q Hp. cbn. split; cbn; auto.
  - cbn. repeat split; auto. apply repeat_rel; auto.
Qed.
Lemma sma2_rel norm x y t : (forall t, RV (x t) (y t)) -> orel RV (oout (sma2_call (vadd M1) (vsub M1) d1 NUM norm) (Ok (sma2_new (v0 M1) NUM)) x t) (oout (sma2_call (vadd M2) (vsub M2) d2 NUM norm) (Ok (sma2_new (v0 M2) NUM)) y t).
Proof.
  intros H. apply (oout_rel (fun s r => dlrel (s2_delay s) (s2_delay r) /\ RV (s2_sum s) (s2_sum r)) RV RV); auto.
  - intros s r i j (A & B) Hi. unfold sma2_call. eapply orel_bind; [apply dl_rel; [exact A|exact Hi]|]. intros [d o] [e p] [D E]. cbn in *. split; [split|]; cbn; auto. destruct norm; auto.
  - cbn. repeat split; auto. apply repeat_rel; auto.
Qed.
Lemma sma3_rel norm x y t : (forall t, RV (x t) (y t)) -> orel RV (oout (sma3_call (vadd M1) (vsub M1) (vopp M1) d1 NUM norm) (Ok (sma3_new (v0 M1) NUM)) x t) (oout (sma3_call (vadd M2) (vsub M2) (vopp M2) d2 NUM norm) (Ok (sma3_new (v0 M2) NUM)) y t).
Proof.
  intros H. apply (oout_rel (fun s r => dlrel (s3_delay s) (s3_delay r) /\ karel (s3_sum s) (s3_sum r)) RV RV); auto.
  - intros s r i j (A & B) Hi. unfold sma3_call. eapply orel_bind; [apply dl_rel; [exact A|exact Hi]|]. intros [d o] [e p] [D E]. cbn [fst snd] in *.
    destruct (ka_step_rel _ _ _ _ B (Vopp _ _ E)) as [K _]. destruct (kahan_call _ _ (s3_sum s) _), (kahan_call _ _ (s3_sum r) _). cbn [fst] in K.
    destruct (ka_step_rel _ _ _ _ K Hi) as [K' V']. destruct (kahan_call _ _ k i), (kahan_call _ _ k0 j). cbn in *. split; [split|]; cbn; auto. destruct norm; auto.
  - cbn. repeat split; auto. apply repeat_rel; auto.
Qed.
Lemma swa_up_rel fuel : forall a b c, Forall2 RV a b -> orel (Forall2 RV) (swa_up (vadd M1) fuel a c) (swa_up (vadd M2) fuel b c).
Proof.
  induction fuel as [|f IH]; intros a b c H; cbn [swa_up]; destruct (_ =? 0); cbn; auto. eapply orel_bind; [apply get_rel; exact H|]. intros. eapply orel_bind; [apply get_rel; exact H|]. intros.
  eapply orel_bind; [apply set_rel; [exact H|apply Vadd; eauto]|]. intros. apply IH. auto.
Qed.
Lemma sma4_rel norm x y t : (forall t, RV (x t) (y t)) -> orel RV (oout (sma4_call (vadd M1) d1 NUM norm) (Ok (sma4_new (v0 M1) NUM)) x t) (oout (sma4_call (vadd M2) d2 NUM norm) (Ok (sma4_new (v0 M2) NUM)) y t).
Proof.
  intros H. apply (oout_rel (fun s r => Forall2 RV (w_tree s) (w_tree r) /\ w_leaf s = w_leaf r) RV RV); auto.
  - intros s r i j (A & B) Hi. unfold sma4_call, swa_call. rewrite B.
    apply orel_bind with (P := prel (fun s r => Forall2 RV (w_tree s) (w_tree r) /\ w_leaf s = w_leaf r) RV).
    + eapply orel_bind; [apply set_rel; [exact A|exact Hi]|]. intros. eapply orel_bind; [apply swa_up_rel; eauto|]. intros. eapply orel_bind; [apply get_rel; eauto|]. intros. cbn. split; cbn; auto.
    + intros [p v] [q w] [P Q]. cbn in *. split; cbn; auto. destruct norm; auto.
  - cbn. split; auto. apply repeat_rel; auto.
Qed.
End Filt.

Section Fir.
Context {T1 T2 : Type} (N1 : num T1) (N2 : num T2) (RT : T1 -> T2 -> Prop) (TAPS : Z).
Hypothesis R0 : RT (n0 N1) (n0 N2).
Hypothesis Radd : forall a b x y, RT a x -> RT b y -> RT (nadd N1 a b) (nadd N2 x y).
Hypothesis Rsub : forall a b x y, RT a x -> RT b y -> RT (nsub N1 a b) (nsub N2 x y).
Hypothesis Rmul : forall a b x y, RT a x -> RT b y -> RT (nmul N1 a b) (nmul N2 x y).
Hypothesis Ropp : forall a x, RT a x -> RT (nopp N1 a) (nopp N2 x).
Lemma shift_in_rel {A B} (P : A -> B -> Prop) n a b i j : Forall2 P a b -> P i j -> orel (Forall2 P) (shift_in n a i) (shift_in n b j).
Proof.
  intros H Hi. unfold shift_in. eapply orel_bind; [apply for_loop_rel; [exact H|]|]. { intros. eapply orel_bind; [apply get_rel; eauto|]. intros. apply set_rel; auto. } intros. apply set_rel; auto.
Qed.
Lemma hilbert_rel s r x y t : Forall2 RT (hb_real s) (hb_real r) -> Forall2 RT (hb_imco s) (hb_imco r) -> RT (hb_reco s) (hb_reco r) -> (forall t, RT (x t) (y t)) ->
  orel (crel RT) (oout (hilbert_step N1 TAPS) (Ok s) x t) (oout (hilbert_step N2 TAPS) (Ok r) y t).
Proof.
  intros H1 H2 H3 H. apply (oout_rel (fun s r => Forall2 RT (hb_real s) (hb_real r) /\ Forall2 RT (hb_imco s) (hb_imco r) /\ RT (hb_reco s) (hb_reco r)) RT (crel RT)); cbn; auto.
  intros a b i j (A & B & C) Hi. unfold hilbert_step. repeat (eapply orel_bind; [apply get_rel; eassumption|intros]).
  eapply orel_bind; [apply for_loop_rel with (P := RT); [auto|]|].
  - intros. repeat (eapply orel_bind; [apply get_rel; eassumption|intros]). cbn. auto 10.
  - intros. eapply orel_bind; [apply shift_in_rel; eassumption|]. intros. cbn. split; cbn; auto. split; cbn; auto.
Qed.
Lemma cdc_rel s r x y t : Forall2 RT (cd_real s) (cd_real r) -> Forall2 RT (cd_imag s) (cd_imag r) -> Forall2 RT (cd_imco s) (cd_imco r) -> RT (cd_reco s) (cd_reco r) -> cd_sign s = cd_sign r -> (forall t, crel RT (x t) (y t)) ->
  orel (crel RT) (oout (cdc_step N1 TAPS) (Ok s) x t) (oout (cdc_step N2 TAPS) (Ok r) y t).
Proof.
  intros H1 H2 H3 H4 H5 H. apply (oout_rel (fun s r => Forall2 RT (cd_real s) (cd_real r) /\ Forall2 RT (cd_imag s) (cd_imag r) /\ Forall2 RT (cd_imco s) (cd_imco r) /\ RT (cd_reco s) (cd_reco r) /\ cd_sign s = cd_sign r) (crel RT) (crel RT)); cbn; auto.
  intros a b [i0 i1] [j0 j1] (A & B & C & D & E) [Hi Hj]. cbn [fst snd] in *. unfold cdc_step. rewrite E. eapply orel_bind; [apply get_rel; eassumption|intros].
  eapply orel_bind; [apply shift_in_rel; [eassumption|destruct (cd_sign b); cbn; auto]|intros]. eapply orel_bind; [apply shift_in_rel; [eassumption|destruct (cd_sign b); cbn; auto]|intros].
  repeat (eapply orel_bind; [apply get_rel; eassumption|intros]).
  eapply orel_bind; [apply for_loop_rel with (P := RT); [auto|]|].
  - intros. repeat (eapply orel_bind; [apply get_rel; eassumption|intros]). cbn. auto 10.
  - intros. cbn. split; cbn; auto 10. split; cbn; auto.
Qed.
End Fir.
