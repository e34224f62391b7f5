(* First order recursive filters: BlockDC, EMA, EMACascade *)
From Coq Require Import Reals Lra Lia ZArith List.
From Coquelicot Require Import Coquelicot.
From Verif Require Import Proofs.BaseLemmas Model.Ema Spec.Iir Spec.Dft Proofs.SignalLemmas Proofs.SecondOrder Proofs.BiquadProofs Proofs.Butterworth Proofs.FftKernels.
Import ListNotations.
Open Scope R_scope.

Lemma first_lim a e u : Rabs a < 1 -> (forall t : nat, e (S t) = u t + a * e t) -> is_lim_seq u 0 -> is_lim_seq e 0.
Proof.
  intros A H U. apply is_lim_seq_abs_0 in U. apply is_lim_seq_abs_0. pose proof (Rabs_pos a).
  apply (contract_lim _ (fun t => Rabs (u t)) (Rabs a)); auto; [intros; apply Rabs_pos|]. intros k. rewrite H.
  eapply Rle_trans; [apply Rabs_triang|]. rewrite Rabs_mult. lra.
Qed.

Lemma w_minus (a : R) (w : C) : Rabs a < 1 -> Cmod w = 1 -> (w - RtoC a <> 0)%C.
Proof. intros A W E. assert (w = RtoC a) by (replace w with (w - RtoC a + RtoC a)%C by ring; rewrite E; ring). subst w. rewrite Cmod_R in W. lra. Qed.

Lemma first_gain (b0 b1 a : R) (x y : nat -> C) (amp w : C) : Rabs a < 1 -> Cmod w = 1 ->
  (forall t, y (S t) = RtoC b0 * x (S t) + RtoC b1 * x t + RtoC a * y t)%C -> approaches x (fun t => amp * Cpown w t)%C ->
  approaches y (fun t => (RtoC b0 * w + RtoC b1) / (w - RtoC a) * amp * Cpown w t)%C.
Proof.
  intros A W H Hx. pose proof (w_minus a w A W) as Nz. set (g := ((RtoC b0 * w + RtoC b1) / (w - RtoC a))%C).
  set (z := fun t => (amp * Cpown w t)%C) in *. set (d := fun t => (x t - z t)%C). set (e := fun t => (y t - g * z t)%C).
  assert (E : forall t, e (S t) = (RtoC b0 * d (S t) + RtoC b1 * d t + RtoC a * e t)%C).
  { intros t. unfold e, d. rewrite H. unfold z, g. cbn [Cpown]. field. exact Nz. }
  apply approaches_fst in Hx. destruct Hx as [H1 H2].
  assert (F : forall u : nat -> R, is_lim_seq u 0 -> is_lim_seq (fun t => b0 * u (S t) + b1 * u t) 0).
  { intros u Hu. replace (Finite 0) with (Finite (b0 * 0 + b1 * 0)) by (f_equal; ring).
    assert (U1 : is_lim_seq (fun t => u (S t)) 0) by (apply -> (is_lim_seq_incr_1 u); auto).
    repeat first [apply is_lim_seq_const|assumption|apply is_lim_seq_plus'|apply is_lim_seq_mult']. }
  assert (Q : forall t, (g * amp * Cpown w t = g * z t)%C) by (intros; unfold z; ring).
  apply approaches_parts.
  - apply (is_lim_seq_ext (fun t => fst (e t))); [intros t; rewrite Q; reflexivity|].
    eapply (first_lim a (fun t => fst (e t))); auto; [|apply (F (fun t => fst (d t)) H1)]. intros t. rewrite E. cbn. ring.
  - apply (is_lim_seq_ext (fun t => snd (e t))); [intros t; rewrite Q; reflexivity|].
    eapply (first_lim a (fun t => snd (e t))); auto; [|apply (F (fun t => snd (d t)) H2)]. intros t. rewrite E. cbn. ring.
Qed.

(** BlockDC *)
Section Bdc.
Context {T V : Type} (M : vsp T V) (s : blockdc T V) (x : nat -> V).
Notation y := (out (blockdc_step M) s x).
Lemma bd_state t : state_at (blockdc_step M) s x t = mkBdc (dly (bd_x1 s) x t) (dly (bd_y1 s) y t) (bd_a s) (bd_b s).
Proof.
  induction t as [|t IH]; [destruct s; reflexivity|]. cbn [state_at].
  assert (E : fst (blockdc_step M (state_at (blockdc_step M) s x t) (x t)) =
    mkBdc (x t) (y t) (bd_a (state_at (blockdc_step M) s x t)) (bd_b (state_at (blockdc_step M) s x t))) by reflexivity.
  rewrite E, IH. reflexivity.
Qed.
Lemma bd_equation t : y t = vadd M (vscale M (bd_b s) (vsub M (x t) (dly (bd_x1 s) x t))) (vscale M (bd_a s) (dly (bd_y1 s) y t)).
Proof. unfold out at 1. rewrite bd_state. reflexivity. Qed.
End Bdc.

Lemma bd_a_range s : (1 <= s)%Z -> 0 <= IZR (s - 1) / IZR s < 1.
Proof.
  intros H. assert (P : 1 <= IZR s) by (apply IZR_le; lia). rewrite minus_IZR. split.
  - apply Rmult_le_pos; [lra|apply Rlt_le, Rinv_0_lt_compat; lra].
  - apply (Rmult_lt_reg_r (IZR s)); [lra|]. unfold Rdiv. rewrite Rmult_assoc, Rinv_l; lra.
Qed.

Lemma bd_gain (st : blockdc R C) (s : Z) (w : C) : (1 <= s)%Z -> Cmod w = 1 ->
  let a := IZR (s - 1) / IZR s in
  gain_at (out (blockdc_step (vcplx Rn)) (blockdc_samples Rn st s)) w (RtoC ((1 + a) / 2) * (w - 1) / (w - RtoC a))%C.
Proof.
  intros Hs W a amp. pose proof (bd_a_range s Hs) as A. fold a in A. set (y := out _ _ _).
  pose proof (first_gain ((1 + a) / 2) (- ((1 + a) / 2)) a (fun t => amp * Cpown w t)%C y amp w) as F. 
  assert (G : approaches y (fun t => (RtoC ((1 + a) / 2) * w + RtoC (- ((1 + a) / 2))) / (w - RtoC a) * amp * Cpown w t)%C).
  { apply F; auto; [apply Rabs_def1; lra| |apply approaches_refl]. intros t. unfold y. rewrite bd_equation. cbn [dly blockdc_samples bd_a bd_b bd_x1 bd_y1].
    cbn [Rn nofZ ndiv nadd n1]. fold a. fold y. apply injective_projections; cbn; ring. }
  unfold approaches in *. eapply is_lim_seq_ext; [|exact G]. intros t. cbv beta. f_equal. f_equal. rewrite RtoC_opp. field. apply w_minus; auto. apply Rabs_def1; lra.
Qed.

Lemma bd_bounded (s : Z) (x : nat -> R) X : (1 <= s)%Z -> (forall t, Rabs (x t) <= X) ->
  forall t, Rabs (out (blockdc_step (vreal Rn)) (blockdc_samples Rn (blockdc_new Rn (vreal Rn)) s) x t) <= 2 * X.
Proof.
  intros Hs HX. pose proof (bd_a_range s Hs) as A. set (a := IZR (s - 1) / IZR s) in *. set (st := blockdc_samples Rn (blockdc_new Rn (vreal Rn)) s).
  set (y := out (blockdc_step (vreal Rn)) st x). set (b := (1 + a) / 2).
  assert (E : forall t, y t = b * (x t - dly 0 x t) + a * dly 0 y t) by (intros t; apply (bd_equation (vreal Rn) st x t)).
  assert (X0 : 0 <= X) by (pose proof (Rabs_pos (x O)); specialize (HX O); lra). assert (B : 0 < b <= 1) by (unfold b; lra).
  assert (P : forall t, Rabs (b * x t - y t) <= b * X).
  { induction t as [|t IH].
    - rewrite E. cbn [dly]. replace (b * x O - (b * (x O - 0) + a * 0)) with 0 by ring. rewrite Rabs_R0. nra.
    - rewrite E. cbn [dly]. replace (b * x (S t) - (b * (x (S t) - x t) + a * y t)) with ((1 - a) * (b * x t) + a * (b * x t - y t)) by ring.
      eapply Rle_trans; [apply Rabs_triang|]. rewrite !Rabs_mult, (Rabs_pos_eq a), (Rabs_pos_eq (1 - a)), (Rabs_pos_eq b) by lra.
      specialize (HX t). assert (b * Rabs (x t) <= b * X) by nra. nra. }
  intros t. specialize (P t). specialize (HX t). replace (y t) with (b * x t - (b * x t - y t)) by ring.
  eapply Rle_trans; [apply Rabs_triang|]. rewrite Rabs_Ropp, Rabs_mult, (Rabs_pos_eq b) by lra. nra.
Qed.

Lemma bd_constant (s : Z) (c : R) t : (1 <= s)%Z ->
  let a := IZR (s - 1) / IZR s in
  out (blockdc_step (vreal Rn)) (blockdc_samples Rn (blockdc_new Rn (vreal Rn)) s) (fun _ => c) t = c * ((1 + a) / 2) * a ^ t.
Proof.
  intros Hs a. induction t as [|t IH]; rewrite bd_equation; cbn [dly blockdc_samples blockdc_new bd_a bd_b bd_x1 bd_y1]; cbn [vreal vadd vsub vscale v0 Rn nofZ ndiv nadd nsub nmul n1 n0 pow]; fold a.
  - ring.
  - rewrite IH. ring.
Qed.

(** EMA *)
Section Em.
Context {T V : Type} (N : num T) (M : vsp T V) (s : ema T V) (x : nat -> V).
Notation y := (out (ema_step N M) s x).
Lemma em_state t : state_at (ema_step N M) s x t = mkEma (dly (em_prev s) y t) (em_alpha s).
Proof.
  induction t as [|t IH]; [destruct s; reflexivity|]. cbn [state_at].
  assert (E : fst (ema_step N M (state_at (ema_step N M) s x t) (x t)) = mkEma (y t) (em_alpha (state_at (ema_step N M) s x t))) by reflexivity.
  rewrite E, IH. reflexivity.
Qed.
Lemma em_equation t : y t = vadd M (vscale M (nsub N (n1 N) (em_alpha s)) (dly (em_prev s) y t)) (vscale M (em_alpha s) (x t)).
Proof. unfold out at 1. rewrite em_state. reflexivity. Qed.
End Em.

(** cascade of EMAs *)
Lemma ec_loop_cons {T V} (N : num T) (M : vsp T V) a p ps i : emac_loop N M a (p :: ps) i =
  (lerp N M p i a :: fst (emac_loop N M a ps (lerp N M p i a)), snd (emac_loop N M a ps (lerp N M p i a))).
Proof. cbn [emac_loop]. destruct (emac_loop N M a ps (lerp N M p i a)). reflexivity. Qed.
Lemma ec_step {T V} (N : num T) (M : vsp T V) a ps i : emac_step N M (mkEmac ps a) i = (mkEmac (fst (emac_loop N M a ps i)) a, snd (emac_loop N M a ps i)).
Proof. unfold emac_step. cbn. destruct (emac_loop N M a ps i). reflexivity. Qed.
Lemma ec_outs {T V} (N : num T) (M : vsp T V) a ps : forall x t,
  out (emac_step N M) (mkEmac ps a) x t = fold_left (fun sig p => out (ema_step N M) (mkEma p a) sig) ps x t.
Proof.
  induction ps as [|p ps IH]; intros x t.
  - assert (E : state_at (emac_step N M) (mkEmac [] a) x t = mkEmac [] a) by (induction t as [|t It]; auto; cbn [state_at]; rewrite It; reflexivity).
    unfold out. rewrite E. reflexivity.
  - cbn [fold_left]. rewrite <- IH.
    assert (P : state_at (emac_step N M) (mkEmac (p :: ps) a) x t =
      mkEmac (em_prev (state_at (ema_step N M) (mkEma p a) x t) :: ec_prev (state_at (emac_step N M) (mkEmac ps a) (out (ema_step N M) (mkEma p a) x) t)) a
      /\ ec_alpha (state_at (emac_step N M) (mkEmac ps a) (out (ema_step N M) (mkEma p a) x) t) = a).
    { induction t as [|t [It At]]; [split; reflexivity|]. cbn [state_at]. rewrite It.
      destruct (state_at (emac_step N M) (mkEmac ps a) (out (ema_step N M) (mkEma p a) x) t) as [qs al] eqn:Eq. cbn in At. subst al.
      rewrite !ec_step, ec_loop_cons. cbn [fst snd ec_prev ec_alpha]. split; auto. unfold out. rewrite em_state. reflexivity. }
    destruct P as [P A]. unfold out at 1 2. rewrite P.
    destruct (state_at (emac_step N M) (mkEmac ps a) (out (ema_step N M) (mkEma p a) x) t) as [qs al]. cbn in A. subst al.
    rewrite !ec_step, ec_loop_cons. cbn [fst snd ec_prev]. unfold out. rewrite em_state. reflexivity.
Qed.

(** every convex set is kept *)
Lemma em_convex {V} (M : vsp R V) (P : V -> Prop) (s : ema R V) (x : nat -> V) :
  (forall a b k, 0 <= k <= 1 -> P a -> P b -> P (vadd M (vscale M (1 - k) a) (vscale M k b))) -> 0 <= em_alpha s <= 1 -> P (em_prev s) ->
  forall t, (forall j, (j <= t)%nat -> P (x j)) -> P (out (ema_step Rn M) s x t).
Proof.
  intros Cv A P0. induction t as [|t IH]; intros Hx; rewrite em_equation; apply Cv; auto.
Qed.
Lemma ec_convex {V} (M : vsp R V) (P : V -> Prop) a (Cv : forall a b k, 0 <= k <= 1 -> P a -> P b -> P (vadd M (vscale M (1 - k) a) (vscale M k b))) :
  0 <= a <= 1 -> forall ps, Forall P ps -> forall x t, (forall j, (j <= t)%nat -> P (x j)) -> P (out (emac_step Rn M) (mkEmac ps a) x t).
Proof.
  intros A ps. induction ps as [|p ps IH]; intros F x t Hx; rewrite ec_outs; [cbn; auto|]. cbn [fold_left]. rewrite <- ec_outs. inversion F; subst.
  apply IH; auto. intros j Hj. apply em_convex; auto. intros; apply Hx; lia.
Qed.

Fixpoint Rsum (n : nat) (f : nat -> R) : R := match n with O => 0 | S k => Rsum k f + f k end.
Lemma Rsum_scal k n f : Rsum n (fun j => k * f j) = k * Rsum n f.
Proof. induction n as [|n IH]; cbn; [ring|]. rewrite IH. ring. Qed.
Lemma Rsum_ext n f g : (forall j, (j < n)%nat -> f j = g j) -> Rsum n f = Rsum n g.
Proof. induction n as [|n IH]; cbn; intros H; auto. rewrite IH, H; auto. Qed.
Lemma em_closed (s : ema R R) (x : nat -> R) t : let k := 1 - em_alpha s in
  out (ema_step Rn (vreal Rn)) s x t = k ^ (S t) * em_prev s + em_alpha s * Rsum (S t) (fun j => k ^ (t - j) * x j).
Proof.
  intros k. induction t as [|t IH]; rewrite em_equation; cbn [dly vreal vadd vscale Rn nadd nmul nsub n1]; fold k.
  - cbn. ring.
  - rewrite IH. change (Rsum (S (S t)) (fun j => k ^ (S t - j) * x j)) with (Rsum (S t) (fun j => k ^ (S t - j) * x j) + k ^ (S t - S t) * x (S t)).
    rewrite (Rsum_ext (S t) (fun j => k ^ (S t - j) * x j) (fun j => k * (k ^ (t - j) * x j))).
    + rewrite Rsum_scal, Nat.sub_diag. cbn [pow]. ring.
    + intros j Hj. replace (S t - j)%nat with (S (t - j)) by lia. cbn [pow]. ring.
Qed.

Lemma em_gain (s : ema R C) (x : nat -> C) (amp w : C) : 0 < em_alpha s < 2 -> Cmod w = 1 -> approaches x (fun t => amp * Cpown w t)%C ->
  approaches (out (ema_step Rn (vcplx Rn)) s x) (fun t => RtoC (em_alpha s) * w / (w - RtoC (1 - em_alpha s)) * amp * Cpown w t)%C.
Proof.
  intros A W Hx. set (a := em_alpha s) in *. assert (B : Rabs (1 - a) < 1) by (apply Rabs_def1; lra).
  pose proof (first_gain a 0 (1 - a) x (out (ema_step Rn (vcplx Rn)) s x) amp w B W) as F.
  assert (G : approaches (out (ema_step Rn (vcplx Rn)) s x) (fun t => (RtoC a * w + RtoC 0) / (w - RtoC (1 - a)) * amp * Cpown w t)%C).
  { apply F; auto. intros t. rewrite em_equation. cbn [dly]. cbn [Rn nsub n1]. change (em_alpha s) with a.
    generalize (out (ema_step Rn (vcplx Rn)) s x t). clearbody a. intros [zr zi]. destruct (x (S t)) as [p q], (x t) as [p' q']. apply injective_projections; cbn; ring. }
  unfold approaches in *. eapply is_lim_seq_ext; [|exact G]. intros t. cbv beta. f_equal. f_equal. field. apply w_minus; auto.
Qed.
Lemma ec_gain a : 0 < a < 2 -> forall (ps : list C) (x : nat -> C) (amp w : C), Cmod w = 1 -> approaches x (fun t => amp * Cpown w t)%C ->
  approaches (out (emac_step Rn (vcplx Rn)) (mkEmac ps a) x) (fun t => Cpown (RtoC a * w / (w - RtoC (1 - a))) (length ps) * amp * Cpown w t)%C.
Proof.
  intros A. induction ps as [|p ps IH]; intros x amp w W Hx; unfold approaches.
  - eapply is_lim_seq_ext; [|exact Hx]. intros t. rewrite ec_outs. cbn [fold_left length Cpown]. f_equal. f_equal. ring.
  - assert (G := IH (out (ema_step Rn (vcplx Rn)) (mkEma p a) x) (RtoC a * w / (w - RtoC (1 - a)) * amp)%C w W (em_gain (mkEma p a) x amp w A W Hx)).
    unfold approaches in G. eapply is_lim_seq_ext; [|exact G]. intros t. cbv beta. rewrite !ec_outs. cbn [fold_left length Cpown]. f_equal. f_equal. ring.
Qed.

(** cutoff *)
Lemma alpha_range x : -1 <= x < 1 -> let a := x - 1 + sqrt (x * (x - 4) + 3) in 0 < a < 1 /\ a * a + 2 * (1 - x) * a = 2 * (1 - x).
Proof.
  intros H a. set (d := 1 - x) in |- *. assert (D : 0 < d <= 2) by (unfold d; lra). assert (E : x * (x - 4) + 3 = d * d + 2 * d) by (unfold d; ring).
  assert (Ad : sqrt (d * d + 2 * d) = a + d) by (rewrite <- E; unfold a, d; ring).
  assert (Q : (a + d) * (a + d) = d * d + 2 * d). { rewrite <- Ad. apply sqrt_sqrt. nra. }
  assert (P : 0 <= a + d). { rewrite <- Ad. apply sqrt_pos. }
  clearbody a d. split; [split; nra|]. lra.
Qed.
Lemma ema_power a t : 0 < a < 1 -> Cmod (RtoC a * cis t / (cis t - RtoC (1 - a)))%C ^ 2 = a * a / (a * a + 2 * (1 - a) * (1 - cos t)).
Proof.
  intros A. assert (Nz : (cis t - RtoC (1 - a) <> 0)%C) by (apply w_minus; [apply Rabs_def1; lra|apply Cmod_cis]).
  rewrite Cmod_div, Cmod_mult, Cmod_cis, Cmod_R by auto. rewrite Rmult_1_r, (Rabs_pos_eq a) by lra. unfold Rdiv. rewrite Rpow_mult_distr, pow_inv, Cmod2.
  f_equal; [ring|]. f_equal. unfold cis. cbn. pose proof (sin2_cos2 t) as E. unfold Rsqr in E.
  replace ((sin t + - 0) * (sin t + - 0)) with (1 - cos t * cos t) by (rewrite <- E; ring). ring.
Qed.
