(* Bounded input: the recursive filters never overflow *)
From Coq Require Import ZArith Reals Lia Lra List Bool.
From Flocq Require Import Core BinarySingleNaN.
From Verif Require Import Model.Base Model.Num Model.Complex Model.NumIeee Model.Signal Model.Ema Model.Biquad Model.Utils
  Spec.Rounding Spec.Overflow Proofs.BaseLemmas Proofs.IeeeProofs Proofs.IeeeFun Proofs.IeeeFft Proofs.Param Proofs.ParamFilt Proofs.SecondOrder Proofs.BiquadProofs Proofs.EmaProofs Proofs.IirRound Proofs.IeeeFilt.
Import ListNotations.
Open Scope R_scope.

Section Stay.
Context (prec emax : Z) {Hp : Prec_gt_0 prec} {Hpe : Prec_lt_emax prec emax}.
Context (P24 : (24 <= prec)%Z) (E128 : (128 <= emax)%Z).
Notation bf := (binary_float prec emax).
Notation B := (Bn prec emax).
Notation rnd := (brnd prec emax).
Notation F := (Fn rnd).
Notation rF := (relF prec emax).
Notation top := (bpow radix2 emax).
Lemma fm_M (b : bf) m : 1 <= m -> fm b m -> relM prec emax b m. Proof. intros H [A C]. split; auto. Qed.
Lemma fm_le (b : bf) m m' : m <= m' -> fm b m -> fm b m'. Proof. intros H [A C]. split; auto; lra. Qed.

(** one step of an object with real state: bounded operands give a finite result *)
Lemma run_fin {St SF} (RS : St -> SF -> Prop) (Inv : St -> Prop) (step : St -> bf -> St * bf) (stepF : SF -> R -> SF * R) s sF (x : nat -> bf) X Y :
  (forall a b i, RS a b -> Inv a -> fm i X -> RS (fst (step a i)) (fst (stepF b (B2R i))) /\ rF (snd (step a i)) (snd (stepF b (B2R i))) /\ is_finite (snd (step a i)) = true) ->
  (forall a i, Inv a -> fm i X -> fm (snd (step a i)) Y -> Inv (fst (step a i))) ->
  RS s sF -> Inv s -> (forall t, fm (x t) X) -> (forall t, Rabs (out stepF sF (fun k => B2R (x k)) t) <= Y) ->
  forall t, fm (out step s x t) Y /\ B2R (out step s x t) = out stepF sF (fun k => B2R (x k)) t.
Proof.
  intros H1 H2 Hs Hi Hx HY. assert (G : forall t, RS (state_at step s x t) (state_at stepF sF (fun k => B2R (x k)) t) /\ Inv (state_at step s x t)).
  { induction t as [|t [IH1 IH2]]; [auto|]. cbn [state_at]. destruct (H1 _ _ (x t) IH1 IH2 (Hx t)) as (A & C & D). split; [exact A|]. apply H2; auto. split; [exact D|]. rewrite (C D). apply HY. }
  intros t. destruct (G t) as [G1 G2]. destruct (H1 _ _ (x t) G1 G2 (Hx t)) as (A & C & D). unfold out at 1 2. split; [|exact (C D)]. split; [exact D|]. rewrite (C D). apply HY.
Qed.

Lemma lerp_fin (p i al : bf) Z : fm p Z -> fm i Z -> fm al 1 -> 1 <= Z -> 3.1 * Z < top -> is_finite (lerp B (vreal B) p i al) = true.
Proof.
  intros Fp Fi Fa Z1 HT. assert (M1 : relM prec emax (n1 B) 1) by (apply (rk_relM prec emax _ (n1 F) 0); [apply rk_1; auto|cbn; lra|lra]).
  pose proof (relM_add prec emax P24 E128 _ _ _ _ (relM_mul prec emax P24 E128 _ _ _ _ (relM_sub prec emax P24 E128 _ _ _ _ M1 (fm_M _ 1 ltac:(lra) Fa)) (fm_M _ _ Z1 Fp))
    (relM_mul prec emax P24 E128 _ _ _ _ (fm_M _ 1 ltac:(lra) Fa) (fm_M _ _ Z1 Fi))) as [_ Q]. apply Q. cbn [nadd nsub nmul Mn]. lra.
Qed.
Definition ema_st (e : ema bf bf) (f : ema R R) := rF (em_prev e) (em_prev f) /\ rF (em_alpha e) (em_alpha f).
Lemma ema_fin p al (x : nat -> bf) X : is_finite p = true -> is_finite al = true -> 0 < B2R al <= 1 -> bpow radix2 (- prec) <= B2R al / 100 -> Rabs (B2R p) <= X -> (forall t, is_finite (x t) = true /\ Rabs (B2R (x t)) <= X) ->
  5 * (X + 1) <= top -> forall t, is_finite (out (ema_step B (vreal B)) (mkEma p al) x t) = true /\
  Rabs (B2R (out (ema_step B (vreal B)) (mkEma p al) x t) - out (ema_step Rn (vreal Rn)) (mkEma (B2R p) (B2R al)) (fun k => B2R (x k)) t) <= (10 * bpow radix2 (- prec) * X + 8 * bpow radix2 (2 - emax - prec)) / B2R al.
Proof.
  intros Fp Fa Ha Hu HX Hx HT. set (y := fun k => B2R (x k)). set (a := B2R al) in *. pose proof (ee_range6 prec emax P24 E128) as He. pose proof (uu_range prec P24) as Hu1. unfold uu, ee in He, Hu1.
  set (u := bpow radix2 (- prec)) in *. set (e := bpow radix2 (2 - emax - prec)) in *. pose proof (Rabs_pos (B2R p)) as X0.
  assert (E1 : forall t, Rabs (out (ema_step F (vreal F)) (mkEma (B2R p) a) y t - out (ema_step Rn (vreal Rn)) (mkEma (B2R p) a) y t) <= (10 * u * X + 8 * e) / a).
  { intros t. apply ema_round; auto; try lra. apply (rnd_ok prec emax P24 E128). intros k. apply Hx. }
  assert (E2 : forall t, Rabs (out (ema_step Rn (vreal Rn)) (mkEma (B2R p) a) y t) <= X).
  { intros t. apply (em_convex (vreal Rn) (fun v => Rabs v <= X)); auto; cbn; try lra. intros b c k Hk Hb Hc. eapply Rle_trans; [apply Rabs_triang|]. rewrite !Rabs_mult, (Rabs_pos_eq (1 - k)), (Rabs_pos_eq k) by lra.
    assert ((1 - k) * Rabs b <= (1 - k) * X) by (apply Rmult_le_compat_l; lra). assert (k * Rabs c <= k * X) by (apply Rmult_le_compat_l; lra). lra. intros j _. apply Hx. }
  assert (D : (10 * u * X + 8 * e) / a <= 0.1 * X + 0.1).
  { apply Rmult_le_reg_r with a; [lra|]. replace ((10 * u * X + 8 * e) / a * a) with (10 * u * X + 8 * e) by (field; lra). assert (u * X <= a / 100 * X) by (apply Rmult_le_compat_r; lra). nra. }
  set (Z := 1.1 * X + 1). assert (Z1 : 1 <= Z) by (unfold Z; lra).
  assert (T := run_fin ema_st (fun s => fm (em_prev s) Z /\ fm (em_alpha s) 1) (ema_step B (vreal B)) (ema_step F (vreal F)) (mkEma p al) (mkEma (B2R p) a) x X Z).
  intros t. destruct T with (t := t) as [[T1 _] T2].
  - intros s sF i [R1 R2] [I1 I2] Fi.
    assert (L : rF (lerp B (vreal B) (em_prev s) i (em_alpha s)) (lerp F (vreal F) (em_prev sF) (B2R i) (em_alpha sF))).
    { apply (lerp_rel B F (vreal B) (vreal F) rF rF); auto; first [apply oneF|apply subF|apply addF|apply mulF|apply self]. }
    split; [split; [exact L|exact R2]|]. split; [exact L|]. cbn [snd ema_step]. apply (lerp_fin _ _ _ Z); auto; [apply (fm_le _ X); auto; unfold Z; lra|unfold Z; lra].
  - intros s i [I1 I2] Fi O. split; [exact O|exact I2].
  - split; apply self.
  - split; split; cbn; auto; [unfold Z; lra|]. fold a. rewrite Rabs_pos_eq; lra.
  - exact Hx.
  - intros k. replace (out (ema_step F (vreal F)) _ _ k) with ((out (ema_step F (vreal F)) (mkEma (B2R p) a) y k - out (ema_step Rn (vreal Rn)) (mkEma (B2R p) a) y k) + out (ema_step Rn (vreal Rn)) (mkEma (B2R p) a) y k) by (unfold y; ring).
    eapply Rle_trans; [apply Rabs_triang|]. specialize (E1 k). specialize (E2 k). unfold Z. lra.
  - split; [exact T1|]. rewrite T2. apply E1.
Qed.

Lemma bd_exact a b (y : nat -> R) X : 0 <= a < 1 -> 0 <= b <= 1 -> (forall t, Rabs (y t) <= X) -> forall t, Rabs (out (blockdc_step (vreal Rn)) (mkBdc 0 0 a b) y t) <= 2 * X / (1 - a).
Proof.
  intros Ha Hb Hy. set (Q := 2 * X / (1 - a)). assert (X0 : 0 <= X) by (specialize (Hy O); pose proof (Rabs_pos (y O)); lra). assert (QQ : Q * (1 - a) = 2 * X) by (unfold Q; field; lra).
  assert (Q0 : 0 <= Q) by (unfold Q; apply Rmult_le_pos; [lra|left; apply Rinv_0_lt_compat; lra]).
  assert (S : forall x0 x1 y1, Rabs x0 <= X -> Rabs x1 <= X -> Rabs y1 <= Q -> Rabs (b * (x0 - x1) + a * y1) <= Q).
  { intros x0 x1 y1 A C D. eapply Rle_trans; [apply Rabs_triang|]. rewrite !Rabs_mult, (Rabs_pos_eq a), (Rabs_pos_eq b) by lra. assert (Rabs (x0 - x1) <= 2 * X) by (unfold Rminus; eapply Rle_trans; [apply Rabs_triang|rewrite Rabs_Ropp; lra]).
    assert (b * Rabs (x0 - x1) <= 1 * (2 * X)) by (apply Rmult_le_compat; try lra; apply Rabs_pos). assert (a * Rabs y1 <= a * Q) by (apply Rmult_le_compat_l; lra). lra. }
  assert (G : forall t, let s := state_at (blockdc_step (vreal Rn)) (mkBdc 0 0 a b) y t in Rabs (bd_x1 s) <= X /\ Rabs (bd_y1 s) <= Q /\ bd_a s = a /\ bd_b s = b).
  { induction t as [|t IH]; cbn [state_at]; [cbn; rewrite Rabs_R0; auto|]. cbv zeta in IH |- *. destruct IH as (I1 & I2 & I3 & I4). cbn. rewrite I3, I4. repeat split; auto. }
  intros t. destruct (G t) as (I1 & I2 & I3 & I4). unfold out. cbn. rewrite I3, I4. apply S; auto.
Qed.
Lemma bd_step_fin (i x1 y1 a b : bf) Z : fm i Z -> fm x1 Z -> fm y1 Z -> fm a 1 -> fm b 1 -> 1 <= Z -> 3.1 * Z < top -> is_finite (nadd B (nmul B b (nsub B i x1)) (nmul B a y1)) = true.
Proof.
  intros F1 F2 F3 F4 F5 Z1 HT.
  pose proof (relM_add prec emax P24 E128 _ _ _ _ (relM_mul prec emax P24 E128 _ _ _ _ (fm_M _ 1 ltac:(lra) F5) (relM_sub prec emax P24 E128 _ _ _ _ (fm_M _ _ Z1 F1) (fm_M _ _ Z1 F2)))
    (relM_mul prec emax P24 E128 _ _ _ _ (fm_M _ 1 ltac:(lra) F4) (fm_M _ _ Z1 F3))) as [_ Q]. apply Q. cbn [nadd nsub nmul Mn]. lra.
Qed.
Lemma bd_fin a b (x : nat -> bf) X : is_finite a = true -> is_finite b = true -> 0 <= B2R a < 1 -> 0 <= B2R b <= 1 -> bpow radix2 (- prec) <= (1 - B2R a) / 100 -> (forall t, is_finite (x t) = true /\ Rabs (B2R (x t)) <= X) ->
  8 * (X + 1) <= (1 - B2R a) * top -> forall t, is_finite (out (blockdc_step (vreal B)) (mkBdc (n0 B) (n0 B) a b) x t) = true /\
  Rabs (B2R (out (blockdc_step (vreal B)) (mkBdc (n0 B) (n0 B) a b) x t) - out (blockdc_step (vreal Rn)) (mkBdc 0 0 (B2R a) (B2R b)) (fun k => B2R (x k)) t)
  <= (24 * bpow radix2 (- prec) * X + 10 * bpow radix2 (2 - emax - prec)) / (1 - B2R a).
Proof.
  intros Fa Fb Ha Hb Hu Hx HT. set (y := fun k => B2R (x k)). set (ra := B2R a) in *. set (rb := B2R b) in *. pose proof (ee_range6 prec emax P24 E128) as He. pose proof (uu_range prec P24) as Hu1. unfold uu, ee in He, Hu1.
  set (u := bpow radix2 (- prec)) in *. set (e := bpow radix2 (2 - emax - prec)) in *. assert (X0 : 0 <= X) by (destruct (Hx O) as [_ H]; pose proof (Rabs_pos (B2R (x O))); lra).
  assert (E1 : forall t, Rabs (out (blockdc_step (vreal F)) (mkBdc 0 0 ra rb) y t - out (blockdc_step (vreal Rn)) (mkBdc 0 0 ra rb) y t) <= (24 * u * X + 10 * e) / (1 - ra)).
  { intros t. apply blockdc_round; auto; try lra. apply (rnd_ok prec emax P24 E128). intros k. apply Hx. }
  assert (E2 : forall t, Rabs (out (blockdc_step (vreal Rn)) (mkBdc 0 0 ra rb) y t) <= 2 * X / (1 - ra)) by (apply bd_exact; auto; intros k; apply Hx).
  set (Z := (2.3 * X + 1) / (1 - ra)). assert (ZZ : Z * (1 - ra) = 2.3 * X + 1) by (unfold Z; field; lra). assert (Z1 : 1 <= Z) by nra. assert (ZX : X <= Z) by nra.
  assert (ZT : 3.1 * Z < top). { apply Rmult_lt_reg_r with (1 - ra); [lra|]. nra. }
  assert (D : 2 * X / (1 - ra) + (24 * u * X + 10 * e) / (1 - ra) <= Z).
  { unfold Z, Rdiv. rewrite <- Rmult_plus_distr_r. apply Rmult_le_compat_r; [left; apply Rinv_0_lt_compat; lra|]. assert (u * X <= / 100 * X) by (apply Rmult_le_compat_r; lra). lra. }
  assert (T := run_fin (bdrel rF rF) (fun s => fm (bd_x1 s) Z /\ fm (bd_y1 s) Z /\ fm (bd_a s) 1 /\ fm (bd_b s) 1) (blockdc_step (vreal B)) (blockdc_step (vreal F)) (mkBdc (n0 B) (n0 B) a b) (mkBdc 0 0 ra rb) x X Z).
  intros t. destruct T with (t := t) as [[T1 _] T2].
  - intros s sF i RS (I1 & I2 & I3 & I4) Fi.
    destruct (bd_step_rel (vreal B) (vreal F) rF rF) with (d := s) (e := sF) (i := i) (j := B2R i) as [L1 L2]; auto; try first [apply oneF|apply subF|apply addF|apply mulF|apply self].
    split; [exact L1|]. split; [exact L2|]. cbn [snd blockdc_step vreal vadd vsub vscale]. apply (bd_step_fin _ _ _ _ _ Z); auto. apply (fm_le _ X); auto.
  - intros s i (I1 & I2 & I3 & I4) Fi O. repeat split; try apply I3; try apply I4; try apply O; cbn; try apply Fi. eapply Rle_trans; [apply Fi|auto].
  - unfold bdrel. cbn. split; [intros _; reflexivity|]. split; [intros _; reflexivity|]. split; apply self.
  - unfold fm. cbn. rewrite Rabs_R0. fold ra rb. rewrite !Rabs_pos_eq by lra. repeat split; auto; lra.
  - exact Hx.
  - intros k. replace (out (blockdc_step (vreal F)) _ _ k) with ((out (blockdc_step (vreal F)) (mkBdc 0 0 ra rb) y k - out (blockdc_step (vreal Rn)) (mkBdc 0 0 ra rb) y k) + out (blockdc_step (vreal Rn)) (mkBdc 0 0 ra rb) y k) by (unfold y; ring).
    eapply Rle_trans; [apply Rabs_triang|]. specialize (E1 k). specialize (E2 k). lra.
  - split; [exact T1|]. rewrite T2. apply E1.
Qed.

Lemma bq_step_fin (c : coefs bf) (i x1 x2 y1 y2 : bf) C Z : fm (b0a0 c) C -> fm (b1a0 c) C -> fm (b2a0 c) C -> fm (a1a0 c) C -> fm (a2a0 c) C -> 1 <= C -> 1 <= Z -> fm i Z -> fm x1 Z -> fm x2 Z -> fm y1 Z -> fm y2 Z -> 6 * (C * Z) < top ->
  is_finite (snd (biquad_step (vreal B) (mkBiquad x1 x2 y1 y2 c) i)) = true.
Proof.
  intros F0 F1 F2 F3 F4 C1 Z1 G0 G1 G2 G3 G4 HT. cbn [biquad_step snd bq_x1 bq_x2 bq_y1 bq_y2 bq_c vreal vadd vsub vscale].
  assert (M : forall p q, fm p C -> fm q Z -> relM prec emax (nmul B p q) (1.001 * (C * Z))) by (intros p q P Q; apply (relM_mul prec emax P24 E128); apply fm_M; auto).
  pose proof (relM_sub prec emax P24 E128 _ _ _ _ (relM_sub prec emax P24 E128 _ _ _ _ (relM_add prec emax P24 E128 _ _ _ _ (relM_add prec emax P24 E128 _ _ _ _ (M _ _ F0 G0) (M _ _ F1 G1)) (M _ _ F2 G2)) (M _ _ F3 G3)) (M _ _ F4 G4)) as [_ Q].
  apply Q. cbn [nadd nsub nmul Mn]. assert (0 <= C * Z) by (apply Rmult_le_pos; lra). lra.
Qed.
Definition cmax (c : coefs R) : R := 1 + Rabs (b0a0 c) + Rabs (b1a0 c) + Rabs (b2a0 c) + Rabs (a1a0 c) + Rabs (a2a0 c).
Lemma bq_fin (cb : coefs bf) c (x : nat -> bf) X Y : crep cb c -> (forall t, fm (x t) X) -> X <= Y -> 1 <= Y -> 6 * (cmax c * Y) < top ->
  (forall t, Rabs (out (biquad_step (vreal F)) (biquad_set (biquad_new F (vreal F)) c) (fun k => B2R (x k)) t) <= Y) ->
  forall t, fm (out (biquad_step (vreal B)) (biquad_set (biquad_new B (vreal B)) cb) x t) Y /\
    B2R (out (biquad_step (vreal B)) (biquad_set (biquad_new B (vreal B)) cb) x t) = out (biquad_step (vreal F)) (biquad_set (biquad_new F (vreal F)) c) (fun k => B2R (x k)) t.
Proof.
  intros (Ec & C0 & C1 & C2 & C3 & C4) Hx XY Y1 HT HY.
  assert (G : fm (b0a0 cb) (cmax c) /\ fm (b1a0 cb) (cmax c) /\ fm (b2a0 cb) (cmax c) /\ fm (a1a0 cb) (cmax c) /\ fm (a2a0 cb) (cmax c)).
  { unfold fm, cmax. rewrite <- Ec. cbn. pose proof (Rabs_pos (B2R (b0a0 cb))). pose proof (Rabs_pos (B2R (b1a0 cb))). pose proof (Rabs_pos (B2R (b2a0 cb))). pose proof (Rabs_pos (B2R (a1a0 cb))). pose proof (Rabs_pos (B2R (a2a0 cb))). repeat split; auto; lra. }
  assert (M1 : 1 <= cmax c). { unfold cmax. pose proof (Rabs_pos (b0a0 c)). pose proof (Rabs_pos (b1a0 c)). pose proof (Rabs_pos (b2a0 c)). pose proof (Rabs_pos (a1a0 c)). pose proof (Rabs_pos (a2a0 c)). lra. }
  destruct G as (G0 & G1 & G2 & G3 & G4).
  apply (run_fin (bqrel rF rF) (fun s => bq_c s = cb /\ fm (bq_x1 s) Y /\ fm (bq_x2 s) Y /\ fm (bq_y1 s) Y /\ fm (bq_y2 s) Y) (biquad_step (vreal B)) (biquad_step (vreal F)) _ _ x X Y); auto.
  - intros s sF i RS (I0 & I1 & I2 & I3 & I4) Fi.
    destruct (bq_step_rel (vreal B) (vreal F) rF rF) with (c := s) (d := sF) (i := i) (j := B2R i) as [L1 L2]; auto; try first [apply oneF|apply subF|apply addF|apply mulF|apply self].
    split; [exact L1|]. split; [exact L2|]. destruct s as [x1 x2 y1 y2 c']. cbn in I0, I1, I2, I3, I4. subst c'. apply (bq_step_fin cb i x1 x2 y1 y2 (cmax c) Y); auto. apply (fm_le _ X); auto.
  - intros s i (I0 & I1 & I2 & I3 & I4) Fi O. split; [exact I0|]. split; [apply (fm_le _ X); auto|]. split; [exact I1|]. split; [exact O|exact I3].
  - unfold bqrel. cbn [bq_x1 bq_x2 bq_y1 bq_y2 bq_c biquad_set biquad_new]. do 4 (split; [apply zF|]). rewrite <- Ec. unfold corel, coefs_R. cbn. do 4 (split; [apply self|]). apply self.
  - cbn [bq_x1 bq_x2 bq_y1 bq_y2 bq_c biquad_set biquad_new]. assert (fm (v0 (vreal B)) Y) by (split; [reflexivity|cbn; rewrite Rabs_R0; lra]). split; [reflexivity|]. repeat (split; [assumption|]). assumption.
Qed.
End Stay.

Definition crepl {prec emax} (cb : list (coefs (binary_float prec emax))) (cs : list (coefs R)) : Prop := Forall2 crep cb cs.
(** bounded by K (X + 1), and accurate *)
Lemma bq_stays c : stable c -> exists u0 K, 0 < u0 /\ 1 <= K /\ forall (prec emax : Z) (Hp : Prec_gt_0 prec) (Hpe : Prec_lt_emax prec emax), (24 <= prec)%Z -> (128 <= emax)%Z -> bpow radix2 (- prec) <= u0 ->
  forall cb, crep cb c -> forall (x : nat -> binary_float prec emax) X, (forall t, fm (x t) X) -> K * (X + 1) < bpow radix2 emax ->
  forall t, fm (out (biquad_step (vreal (Bn prec emax))) (biquad_set (biquad_new (Bn prec emax) (vreal (Bn prec emax))) cb) x t) (K * (X + 1)).
Proof.
  intros S. destruct (biquad_same c S) as (u0 & K & Hu & K0 & HK). destruct (bibo c S) as (By & B0 & HB). assert (M1 : 1 <= cmax c). { unfold cmax. pose proof (Rabs_pos (b0a0 c)). pose proof (Rabs_pos (b1a0 c)). pose proof (Rabs_pos (b2a0 c)). pose proof (Rabs_pos (a1a0 c)). pose proof (Rabs_pos (a2a0 c)). lra. }
  set (L := K + By + 1). exists u0, (6 * (cmax c * L)). split; [apply Hu|]. assert (L1 : 1 <= L) by (unfold L; lra). assert (ML : L <= cmax c * L) by nra. split; [lra|].
  intros prec emax Hp Hpe P24 E128 U cb Hc x X Hx HT t. assert (X0 : 0 <= X) by (destruct (Hx O) as [_ H]; pose proof (Rabs_pos (B2R (x O))); lra).
  pose proof (ee_range6 prec emax P24 E128) as He. pose proof (uu_range prec P24) as Hu1.
  destruct (bq_fin prec emax P24 E128 cb c x X (L * (X + 1)) Hc Hx) with (t := t) as [Q _].
  - nra.
  - nra.
  - replace (6 * (cmax c * (L * (X + 1)))) with (6 * (cmax c * L) * (X + 1)) by ring. exact HT.
  - intros k. set (y := fun k => B2R (x k)).
    assert (Hy : forall t, Rabs (y t) <= X) by (intros; apply Hx). pose proof (HK _ _ _ (rnd_ok prec emax P24 E128) ltac:(unfold uu in *; lra) ltac:(lra) y X Hy k) as A. pose proof (HB y X Hy k) as C.
    set (f := out _ _ y k) in *. set (g := out rstep _ y k) in *. replace f with ((f - g) + g) by ring. eapply Rle_trans; [apply Rabs_triang|].
    assert (K * (uu prec * X + ee prec emax) <= K * (X + 1)) by (apply Rmult_le_compat_l; nra). unfold L. nra.
  - eapply fm_le; [|exact Q]. apply Rmult_le_compat_r; lra.
Qed.
Lemma out_ext {St I O} (step : St -> I -> St * O) s x y t : (forall k, x k = y k) -> out step s x t = out step s y t.
Proof. intros H. assert (G : state_at step s x t = state_at step s y t) by (induction t; cbn [state_at]; [auto|rewrite IHt, H; auto]). unfold out. rewrite G, H. reflexivity. Qed.
Lemma bqc_stays cs : Forall stable cs -> exists u0 K, 0 < u0 /\ 1 <= K /\ forall (prec emax : Z) (Hp : Prec_gt_0 prec) (Hpe : Prec_lt_emax prec emax), (24 <= prec)%Z -> (128 <= emax)%Z -> bpow radix2 (- prec) <= u0 ->
  forall cb, crepl cb cs -> forall (x : nat -> binary_float prec emax) X, (forall t, fm (x t) X) -> K * (X + 1) < bpow radix2 emax ->
  forall t, fm (out (bqc_step (vreal (Bn prec emax))) (map (biquad_set (biquad_new (Bn prec emax) (vreal (Bn prec emax)))) cb) x t) (K * (X + 1)).
Proof.
  induction 1 as [|c cs S HS (u2 & K2 & Hu2 & HK2 & H2)].
  - exists 1, 1. split; [lra|]. split; [lra|]. intros prec emax Hp Hpe P24 E128 U cb Hc x X Hx HT t. inversion Hc; subst. rewrite bqc_outs. cbn. apply (fm_le _ _ _ X); auto. lra.
  - destruct (bq_stays c S) as (u1 & K1 & Hu1 & HK1 & H1). exists (Rmin u1 u2), (2 * (K1 * K2)). split; [apply Rmin_pos; auto|]. assert (K1 <= K1 * K2) by nra. assert (K2 <= K1 * K2) by nra. split; [lra|].
    intros prec emax Hp Hpe P24 E128 U cb Hc x X Hx HT t. assert (X0 : 0 <= X) by (destruct (Hx O) as [_ Q]; pose proof (Rabs_pos (B2R (x O))); lra).
    inversion Hc as [|c' ? cb' ? C1 C2]; subst. pose proof (Rmin_l u1 u2). pose proof (Rmin_r u1 u2).
    assert (HT1 : K1 * (X + 1) < bpow radix2 emax) by nra.
    pose proof (H1 prec emax Hp Hpe P24 E128 ltac:(lra) c' C1 x X Hx HT1) as Y.
    rewrite bqc_outs. cbn [map fold_left]. rewrite <- bqc_outs. assert (HT2 : K2 * (K1 * (X + 1) + 1) < bpow radix2 emax) by nra.
    pose proof (H2 prec emax Hp Hpe P24 E128 ltac:(lra) cb' C2 _ _ Y HT2 t) as Q. eapply fm_le; [|exact Q]. nra.
Qed.
