(* Biquad: difference equation, linearity, stability, transfer function *)
From Coq Require Import Reals Lra Lia ZArith List.
From Coquelicot Require Import Coquelicot.
From Verif Require Import Proofs.BaseLemmas Model.Biquad Spec.Iir Spec.Dft Proofs.SignalLemmas Proofs.SecondOrder.
Open Scope R_scope.

Definition bq {T V} (M : vsp T V) c : biquad T V := mkBiquad (v0 M) (v0 M) (v0 M) (v0 M) c.

Section Any.
Context {T V : Type} (M : vsp T V) (s : biquad T V) (x : nat -> V).
Notation y := (out (biquad_step M) s x).
Lemma bq_state t : state_at (biquad_step M) s x t =
  mkBiquad (dly (bq_x1 s) x t) (dly (bq_x2 s) (dly (bq_x1 s) x) t) (dly (bq_y1 s) y t) (dly (bq_y2 s) (dly (bq_y1 s) y) t) (bq_c s).
Proof.
  induction t as [|t IH]; [destruct s; reflexivity|]. cbn [state_at].
  assert (E : fst (biquad_step M (state_at (biquad_step M) s x t) (x t)) =
    mkBiquad (x t) (bq_x1 (state_at (biquad_step M) s x t)) (y t) (bq_y1 (state_at (biquad_step M) s x t)) (bq_c (state_at (biquad_step M) s x t))) by reflexivity.
  rewrite E, IH. reflexivity.
Qed.
Lemma bq_equation t : let c := bq_c s in
  y t = vsub M (vsub M (vadd M (vadd M (vscale M (b0a0 c) (x t)) (vscale M (b1a0 c) (dly (bq_x1 s) x t))) (vscale M (b2a0 c) (dly (bq_x2 s) (dly (bq_x1 s) x) t)))
          (vscale M (a1a0 c) (dly (bq_y1 s) y t))) (vscale M (a2a0 c) (dly (bq_y2 s) (dly (bq_y1 s) y) t)).
Proof. unfold out at 1. rewrite bq_state. reflexivity. Qed.
End Any.

(** complex samples are filtered componentwise, in any arithmetic *)
Lemma bq_components {T} (N : num T) (s : biquad T (cplx T)) (sr si : biquad T T) (x : nat -> cplx T) t :
  bq_c sr = bq_c s -> bq_c si = bq_c s ->
  (bq_x1 s, bq_x2 s, bq_y1 s, bq_y2 s) = ((bq_x1 sr, bq_x1 si), (bq_x2 sr, bq_x2 si), (bq_y1 sr, bq_y1 si), (bq_y2 sr, bq_y2 si)) ->
  out (biquad_step (vcplx N)) s x t = (out (biquad_step (vreal N)) sr (fun k => fst (x k)) t, out (biquad_step (vreal N)) si (fun k => snd (x k)) t).
Proof.
  intros C1 C2 E.
  pose (Rs := fun (s : biquad T (cplx T)) (p : biquad T T * biquad T T) => let '(sr, si) := p in bq_c sr = bq_c s /\ bq_c si = bq_c s /\ 
    (bq_x1 s, bq_x2 s, bq_y1 s, bq_y2 s) = ((bq_x1 sr, bq_x1 si), (bq_x2 sr, bq_x2 si), (bq_y1 sr, bq_y1 si), (bq_y2 sr, bq_y2 si))).
  assert (P : Rs (state_at (biquad_step (vcplx N)) s x t) (state_at (biquad_step (vreal N)) sr (fun k => fst (x k)) t, state_at (biquad_step (vreal N)) si (fun k => snd (x k)) t)
     /\ out (biquad_step (vcplx N)) s x t = (out (biquad_step (vreal N)) sr (fun k => fst (x k)) t, out (biquad_step (vreal N)) si (fun k => snd (x k)) t)).
  { induction t as [|t [IH _]].
    - split; [cbn; auto|]. unfold out. cbn [state_at]. destruct s, sr, si. cbn in *. subst. injection E as -> -> -> ->. reflexivity.
    - assert (G : Rs (state_at (biquad_step (vcplx N)) s x (S t)) (state_at (biquad_step (vreal N)) sr (fun k => fst (x k)) (S t), state_at (biquad_step (vreal N)) si (fun k => snd (x k)) (S t))).
      { cbn [state_at]. destruct (state_at (biquad_step (vcplx N)) s x t), (state_at (biquad_step (vreal N)) sr _ t), (state_at (biquad_step (vreal N)) si _ t).
        cbn in IH. destruct IH as (A & B & D). subst. injection D as -> -> -> ->. cbn. destruct (x t); cbn. auto. }
      split; auto. unfold out. destruct (state_at (biquad_step (vcplx N)) s x (S t)), (state_at (biquad_step (vreal N)) sr _ (S t)), (state_at (biquad_step (vreal N)) si _ (S t)).
      cbn in G. destruct G as (A & B & D). subst. injection D as -> -> -> ->. cbn. destruct (x (S t)); reflexivity. }
  apply P.
Qed.

(** cascade *)
Lemma bqc_step_cons {T V} (M : vsp T V) b ss i : bqc_step M (b :: ss) i =
  (fst (biquad_step M b i) :: fst (bqc_step M ss (snd (biquad_step M b i))), snd (bqc_step M ss (snd (biquad_step M b i)))).
Proof. cbn [bqc_step]. destruct (biquad_step M b i) as [b' y]. cbn [fst snd]. destruct (bqc_step M ss y). reflexivity. Qed.
Lemma bqc_outs {T V} (M : vsp T V) (ss : list (biquad T V)) : forall x t,
  out (bqc_step M) ss x t = fold_left (fun sig s => out (biquad_step M) s sig) ss x t.
Proof.
  induction ss as [|b ss IH]; intros x t; [unfold out; destruct (state_at (bqc_step M) [] x t) eqn:E; [reflexivity|]|].
  { exfalso. revert b l E. induction t; cbn; intros; [discriminate|]. destruct (state_at (bqc_step M) [] x t) eqn:E'; [cbn in E; discriminate|]. eapply IHt; eauto. }
  cbn [fold_left]. rewrite <- IH.
  assert (P : state_at (bqc_step M) (b :: ss) x t = state_at (biquad_step M) b x t :: state_at (bqc_step M) ss (out (biquad_step M) b x) t).
  { induction t as [|t It]; auto. cbn [state_at]. rewrite It, bqc_step_cons. reflexivity. }
  unfold out at 1 2. rewrite P, bqc_step_cons. reflexivity.
Qed.

(** exact arithmetic *)
Notation rstep := (biquad_step (vreal Rn)).
Notation cstep := (biquad_step (vcplx Rn)).

Lemma bq_linear c (x x' : nat -> R) a b t :
  out rstep (bq (vreal Rn) c) (fun k => a * x k + b * x' k) t = a * out rstep (bq (vreal Rn) c) x t + b * out rstep (bq (vreal Rn) c) x' t.
Proof.
  set (s := bq (vreal Rn) c). set (X := fun k => a * x k + b * x' k).
  assert (P : state_at rstep s X t = mkBiquad (a * bq_x1 (state_at rstep s x t) + b * bq_x1 (state_at rstep s x' t)) (a * bq_x2 (state_at rstep s x t) + b * bq_x2 (state_at rstep s x' t))
     (a * bq_y1 (state_at rstep s x t) + b * bq_y1 (state_at rstep s x' t)) (a * bq_y2 (state_at rstep s x t) + b * bq_y2 (state_at rstep s x' t)) c /\ bq_c (state_at rstep s x t) = c /\ bq_c (state_at rstep s x' t) = c).
  { induction t as [|t IH].
    - cbn. split; auto. unfold s, bq. cbn. f_equal; ring.
    - cbn [state_at]. destruct IH as (IH & C1 & C2). rewrite IH. clear IH.
      destruct (state_at rstep s x t), (state_at rstep s x' t). cbn in C1, C2. subst. split; [|auto]. cbn. f_equal; unfold X; ring. }
  destruct P as (P & C1 & C2). unfold out. rewrite P. clear P.
  destruct (state_at rstep s x t), (state_at rstep s x' t). cbn in C1, C2. subst. cbn. unfold X. ring.
Qed.

Lemma bq_shift c (x : nat -> R) k t :
  out rstep (bq (vreal Rn) c) (fun j => if (j <? k)%nat then 0 else x (j - k)%nat) t = if (t <? k)%nat then 0 else out rstep (bq (vreal Rn) c) x (t - k)%nat.
Proof.
  revert t. induction k as [|k IH]; intros t.
  - rewrite Nat.sub_0_r. apply out_ext. intros j _. rewrite Nat.sub_0_r. reflexivity.
  - assert (Z : fst (rstep (bq (vreal Rn) c) 0) = bq (vreal Rn) c /\ snd (rstep (bq (vreal Rn) c) 0) = 0).
    { unfold bq, biquad_step. cbn. split; [f_equal; ring|ring]. }
    destruct t as [|t].
    + unfold out. cbn [state_at]. change ((0 <? S k)%nat) with true. cbn iota. apply Z.
    + rewrite out_S. change ((0 <? S k)%nat) with true. cbn iota. destruct Z as [-> _].
      change ((S t <? S k)%nat) with ((t <? k)%nat). rewrite <- IH. apply out_ext. intros j _. reflexivity.
Qed.

Definition stable (c : coefs R) : Prop := jury (a1a0 c) (a2a0 c).
Definition tfc (c : coefs R) (z : C) : C := tf (b0a0 c) (b1a0 c) (b2a0 c) (a1a0 c) (a2a0 c) z.

Lemma Cmod_le_sum (z : C) : Cmod z <= Rabs (fst z) + Rabs (snd z).
Proof.
  unfold Cmod. pose proof (Rabs_pos (fst z)). pose proof (Rabs_pos (snd z)).
  rewrite <- (sqrt_square (Rabs (fst z) + Rabs (snd z))) by lra. apply sqrt_le_1_alt.
  rewrite <- (Rabs_mult_self (fst z)), <- (Rabs_mult_self (snd z)) || idtac.
  assert (forall r, r ^ 2 = Rabs r * Rabs r) as Q. { intros r. rewrite <- Rabs_mult. rewrite Rabs_pos_eq; [ring|apply Rle_0_sqr]. }
  rewrite !Q. nra.
Qed.
Lemma approaches_parts (y z : nat -> C) : is_lim_seq (fun t => fst (y t) - fst (z t)) 0 -> is_lim_seq (fun t => snd (y t) - snd (z t)) 0 -> approaches y z.
Proof.
  intros H1 H2. apply is_lim_seq_abs_0 in H1, H2. unfold approaches.
  apply (is_lim_seq_le_le (fun _ => 0) _ (fun t => Rabs (fst (y t) - fst (z t)) + Rabs (snd (y t) - snd (z t)))).
  - intros t. split; [apply Cmod_ge_0|]. eapply Rle_trans; [apply Cmod_le_sum|]. cbn. unfold Rminus. lra.
  - apply is_lim_seq_const.
  - replace (Finite 0) with (Finite (0 + 0)) by (f_equal; ring). apply (is_lim_seq_plus' _ _ 0 0); auto.
Qed.

Lemma den_nonzero c (w : C) : stable c -> Cmod w = 1 -> (w * w + RtoC (a1a0 c) * w + RtoC (a2a0 c) <> 0)%C.
Proof. intros S H E. apply (poles_inside _ _ S) in E. lra. Qed.

Lemma approaches_fst (y z : nat -> C) : approaches y z -> is_lim_seq (fun t => fst (y t) - fst (z t)) 0 /\ is_lim_seq (fun t => snd (y t) - snd (z t)) 0.
Proof.
  intros H. assert (B : forall c : C, Rabs (fst c) <= Cmod c /\ Rabs (snd c) <= Cmod c).
  { intros c. pose proof (Rmax_Cmod c). pose proof (Rmax_l (Rabs (fst c)) (Rabs (snd c))). pose proof (Rmax_r (Rabs (fst c)) (Rabs (snd c))). lra. }
  split; apply is_lim_seq_abs_0; apply (is_lim_seq_le_le (fun _ => 0) _ (fun t => Cmod (y t - z t)%C)); try apply is_lim_seq_const; auto;
  intros t; (split; [apply Rabs_pos|]); apply (B (y t - z t)%C).
Qed.
Lemma lim_dly u i : is_lim_seq u 0 -> is_lim_seq (dly i u) 0.
Proof. intros H. apply (is_lim_seq_incr_1 (dly i u)). exact H. Qed.

(** the input need only approach the exponential *)
Lemma steady_state c s (amp w : C) x : stable c -> Cmod w = 1 -> bq_c s = c -> approaches x (fun t => amp * Cpown w t)%C ->
  approaches (out cstep s x) (fun t => tfc c w * amp * Cpown w t)%C.
Proof.
  intros S Hw Hc Hx. set (z := fun t => (amp * Cpown w t)%C) in *. set (y := out cstep s x). set (e := fun t => (y t - tfc c w * z t)%C).
  set (d := fun t => (x t - z t)%C).
  assert (Ny := den_nonzero c w S Hw).
  assert (E : forall t, e (Datatypes.S (Datatypes.S t)) = (RtoC (b0a0 c) * d (Datatypes.S (Datatypes.S t)) + RtoC (b1a0 c) * d (Datatypes.S t) + RtoC (b2a0 c) * d t
      - RtoC (a1a0 c) * e (Datatypes.S t) - RtoC (a2a0 c) * e t)%C).
  { intros t. unfold e. unfold y at 1. rewrite bq_equation. rewrite Hc. cbn [dly]. fold y.
    change (vsub (vcplx Rn)) with Cminus. change (vadd (vcplx Rn)) with Cplus.
    assert (Sc : forall a (z : C), vscale (vcplx Rn) a z = (RtoC a * z)%C) by (intros a [p q]; apply injective_projections; cbn; ring).
    rewrite !Sc. unfold d, tfc, tf, z. cbn [Cpown]. field. exact Ny. }
  apply approaches_fst in Hx. destruct Hx as [H1 H2]. fold d in H1, H2.
  assert (F : forall u : nat -> R, is_lim_seq u 0 -> is_lim_seq (fun t => b0a0 c * u (Datatypes.S (Datatypes.S t)) + b1a0 c * u (Datatypes.S t) + b2a0 c * u t) 0).
  { intros u Hu. replace (Finite 0) with (Finite (b0a0 c * 0 + b1a0 c * 0 + b2a0 c * 0)) by (f_equal; ring).
    assert (U1 : is_lim_seq (fun t => u (Datatypes.S t)) 0) by (apply -> (is_lim_seq_incr_1 u); auto).
    assert (U2 : is_lim_seq (fun t => u (Datatypes.S (Datatypes.S t))) 0) by (apply -> (is_lim_seq_incr_1 (fun t => u (Datatypes.S t))); auto).
    repeat first [apply is_lim_seq_const|assumption|apply is_lim_seq_plus'|apply is_lim_seq_mult']. }
  assert (Q : forall t, (tfc c w * amp * Cpown w t = tfc c w * z t)%C) by (intros; unfold z; ring).
  apply approaches_parts.
  - apply (is_lim_seq_ext (fun t => fst (e t))); [intros t; rewrite Q; reflexivity|].
    eapply (forced_lim (a1a0 c) (a2a0 c) S (fun t => fst (e t))); [|apply (F (fun t => fst (d t)) H1)]. intros t. rewrite E. cbn. ring.
  - apply (is_lim_seq_ext (fun t => snd (e t))); [intros t; rewrite Q; reflexivity|].
    eapply (forced_lim (a1a0 c) (a2a0 c) S (fun t => snd (e t))); [|apply (F (fun t => snd (d t)) H2)]. intros t. rewrite E. cbn. ring.
Qed.

Lemma cascade_steady (ss : list (biquad R C)) : forall (amp w : C) x, Cmod w = 1 -> Forall (fun s => stable (bq_c s)) ss -> approaches x (fun t => amp * Cpown w t)%C ->
  approaches (out (bqc_step (vcplx Rn)) ss x) (fun t => fold_left (fun g s => tfc (bq_c s) w * g)%C ss amp * Cpown w t)%C.
Proof.
  induction ss as [|b ss IH]; intros amp w x Hw Hs Hx.
  - unfold approaches in *. apply (is_lim_seq_ext (fun t => Cmod (x t - amp * Cpown w t)%C)); auto. intros t. rewrite (bqc_outs (vcplx Rn) []). reflexivity.
  - inversion Hs; subst. unfold approaches in *. 
    apply (is_lim_seq_ext (fun t => Cmod (out (bqc_step (vcplx Rn)) ss (out cstep b x) t - fold_left (fun g s => tfc (bq_c s) w * g)%C ss (tfc (bq_c b) w * amp)%C * Cpown w t)%C)).
    + intros t. rewrite !bqc_outs. reflexivity.
    + apply IH; auto. apply steady_state; auto.
Qed.

Lemma bibo c : stable c -> exists B, 0 <= B /\ forall (x : nat -> R) X, (forall t, Rabs (x t) <= X) -> forall t, Rabs (out rstep (bq (vreal Rn) c) x t) <= B * X.
Proof.
  intros S. set (G := Rabs (b0a0 c) + Rabs (b1a0 c) + Rabs (b2a0 c)).
  pose proof (lam_pos _ _ S) as L. exists (sqrt (gainB (a1a0 c) (a2a0 c) / lam (a1a0 c) (a2a0 c)) * G).
  assert (G0 : 0 <= G) by (unfold G; pose proof (Rabs_pos (b0a0 c)); pose proof (Rabs_pos (b1a0 c)); pose proof (Rabs_pos (b2a0 c)); lra).
  split; [apply Rmult_le_pos; auto; apply sqrt_pos|]. intros x X HX t. assert (X0 : 0 <= X) by (pose proof (Rabs_pos (x O)); specialize (HX O); lra).
  set (y := out rstep (bq (vreal Rn) c) x).
  set (u := fun t => b0a0 c * x t + b1a0 c * dly 0 x t + b2a0 c * dly 0 (dly 0 x) t).
  assert (U : forall t, Rabs (u t) <= G * X).
  { intros k. unfold u, G. assert (D1 : Rabs (dly 0 x k) <= X) by (destruct k; cbn; [rewrite Rabs_R0; auto|auto]).
    assert (D2 : Rabs (dly 0 (dly 0 x) k) <= X) by (destruct k as [|[|k]]; cbn; try rewrite Rabs_R0; auto).
    eapply Rle_trans; [apply Rabs_triang|]. eapply Rle_trans; [apply Rplus_le_compat_r, Rabs_triang|]. rewrite !Rabs_mult.
    assert (forall b v, Rabs v <= X -> Rabs b * Rabs v <= Rabs b * X) by (intros; apply Rmult_le_compat_l; auto; apply Rabs_pos).
    pose proof (H (b0a0 c) (x k) (HX k)). pose proof (H (b1a0 c) _ D1). pose proof (H (b2a0 c) _ D2). lra. }
  pose proof (forced_bound _ _ S (dly 0 (dly 0 y)) u (G * X)) as F.
  assert (B : lam (a1a0 c) (a2a0 c) * (y t * y t) <= gainB (a1a0 c) (a2a0 c) * (G * X * (G * X))).
  { apply (F ltac:(apply Rmult_le_pos; auto) eq_refl eq_refl) with (t := Datatypes.S (Datatypes.S t)); auto.
    intros k. cbn [dly]. unfold y at 1. rewrite bq_equation. unfold u. cbn [vsub vadd vscale vreal Rn nsub nadd nmul bq bq_c bq_x1 bq_x2 bq_y1 bq_y2 v0 n0]. fold y. ring. }
  set (q := gainB (a1a0 c) (a2a0 c) / lam (a1a0 c) (a2a0 c)).
  assert (Q : y t * y t <= q * (G * X * (G * X))).
  { apply (Rmult_le_reg_l (lam (a1a0 c) (a2a0 c))); auto. unfold q. replace (lam (a1a0 c) (a2a0 c) * (gainB (a1a0 c) (a2a0 c) / lam (a1a0 c) (a2a0 c) * (G * X * (G * X)))) with (gainB (a1a0 c) (a2a0 c) * (G * X * (G * X))) by (field; lra). auto. }
  assert (Q0 : 0 <= G * X) by (apply Rmult_le_pos; auto).
  fold y. rewrite Rmult_assoc. rewrite <- sqrt_Rsqr_abs. unfold Rsqr. eapply Rle_trans; [apply sqrt_le_1_alt; exact Q|].
  destruct (Rle_dec 0 q) as [q0|q0].
  - rewrite sqrt_mult by (auto; apply Rle_0_sqr). rewrite sqrt_square by auto. lra.
  - rewrite (sqrt_neg_0 (q * _)); [apply Rmult_le_pos; [apply sqrt_pos|auto]|]. assert (0 <= G * X * (G * X)) by (apply Rle_0_sqr). nra.
Qed.

(** the designs: alpha > 0 and a cosine inside (-1, 1) *)
Section Design.
Context (tr : trig R) (n K : Z) (Q : R) (HQ : 0 < Q) (Hs : 0 < tsin tr n K) (Hc : -1 < tcos tr n K < 1).
Let s := tsin tr n K.
Let k := tcos tr n K.
Let al := s / (2 * Q).
Lemma alpha_pos : 0 < al. Proof. unfold al. apply Rdiv_lt_0_compat; unfold s; lra. Qed.

Lemma design_stable b0 b1 b2 : stable (bq_div Rn b0 b1 b2 (1 + al) (-2 * k) (1 - al)).
Proof.
  pose proof alpha_pos. unfold stable, jury, bq_div. cbn [a1a0 a2a0 ndiv Rn].
  assert (A2 : -1 < (1 - al) / (1 + al) < 1).
  { split; apply (Rmult_lt_reg_r (1 + al)); try lra; unfold Rdiv; rewrite Rmult_assoc, Rinv_l; lra. }
  split; [apply Rabs_def1; lra|].
  replace (1 + (1 - al) / (1 + al)) with (2 / (1 + al)) by (field; lra).
  assert (I : 0 < / (1 + al)) by (apply Rinv_0_lt_compat; lra). unfold Rdiv. rewrite Rabs_mult, (Rabs_pos_eq (/ (1 + al))) by lra.
  apply Rmult_lt_compat_r; auto. unfold k. apply Rabs_def1; lra.
Qed.
Lemma stable_lowpass : stable (bq_lowpass Rn tr n K Q).
Proof. apply (design_stable ((1 - k) / 2) (1 - k) ((1 - k) / 2)). Qed.
Lemma stable_highpass : stable (bq_highpass Rn tr n K Q).
Proof. apply (design_stable ((1 + k) / 2) (- (1 + k)) ((1 + k) / 2)). Qed.
Lemma stable_notch : stable (bq_notch_Q Rn tr n K Q).
Proof. apply (design_stable 1 (-2 * k) 1). Qed.
Lemma stable_bandpass : stable (bq_bandpass_Q Rn tr n K Q).
Proof. apply (design_stable al 0 (- al)). Qed.
Lemma stable_allpass : stable (bq_allpass_Q Rn tr n K Q).
Proof. apply (design_stable (1 - al) (-2 * k) (1 + al)). Qed.

(** common denominator *)
Lemma tf_div b0 b1 b2 (z : C) : Cmod z = 1 ->
  let den := (RtoC (1 + al) * (z * z) + RtoC (-2 * k) * z + RtoC (1 - al))%C in
  den <> 0%C /\ tfc (bq_div Rn b0 b1 b2 (1 + al) (-2 * k) (1 - al)) z = ((RtoC b0 * (z * z) + RtoC b1 * z + RtoC b2) / den)%C.
Proof.
  intros Hz den. pose proof alpha_pos as A. pose proof (den_nonzero _ z (design_stable b0 b1 b2) Hz) as Nz. unfold bq_div in Nz. cbn [a1a0 a2a0 ndiv Rn] in Nz.
  assert (A0 : RtoC (1 + al) <> 0%C) by (intros E; injection E; lra).
  assert (Dv : forall r, RtoC (r / (1 + al)) = (RtoC r / RtoC (1 + al))%C) by (intros r; apply RtoC_div; lra).
  assert (E : den = (RtoC (1 + al) * (z * z + RtoC (-2 * k / (1 + al)) * z + RtoC ((1 - al) / (1 + al))))%C).
  { unfold den. rewrite !Dv. field. auto. }
  assert (Dn : den <> 0%C). { rewrite E. apply Cmult_neq_0; auto. }
  split; auto. unfold tfc, tf, bq_div. cbn [b0a0 b1a0 b2a0 a1a0 a2a0 ndiv Rn]. rewrite E. rewrite (Dv b0), (Dv b1), (Dv b2).
  set (D := (z * z + RtoC (-2 * k / (1 + al)) * z + RtoC ((1 - al) / (1 + al)))%C) in *. clearbody D. field. auto.
Qed.
End Design.

(** unit points *)
Definition cosang (n N : Z) : R := cos (2 * PI * IZR n / IZR N).
Definition sinang (n N : Z) : R := sin (2 * PI * IZR n / IZR N).

Section Gains.
Context (tr : trig R) (n K : Z) (Q : R) (HQ : 0 < Q) (Hs : 0 < tsin tr n K) (Hc : -1 < tcos tr n K < 1)
  (Hu : tcos tr n K * tcos tr n K + tsin tr n K * tsin tr n K = 1).
Let s := tsin tr n K.
Let k := tcos tr n K.
Let al := s / (2 * Q).
Let w : C := (k, s).

Lemma Cmod_pm1 : Cmod (RtoC 1) = 1 /\ Cmod (RtoC (-1)) = 1.
Proof. rewrite !Cmod_R, Rabs_R1, Rabs_m1. auto. Qed.
Lemma Cmod_w : Cmod w = 1.
Proof. unfold Cmod, w. cbn [fst snd]. replace (k ^ 2 + s ^ 2) with 1 by (unfold k, s; rewrite <- Hu; ring). apply sqrt_1. Qed.
Lemma wsq : (w * w)%C = (RtoC (2 * k) * w - RtoC 1)%C.
Proof. unfold w. apply injective_projections; cbn; unfold k, s in *; [nra|ring]. Qed.

Lemma cdiv_eq (p q r : C) : q <> 0%C -> p = (r * q)%C -> (p / q)%C = r.
Proof. intros H ->. field. auto. Qed.
Lemma S2 : s * s = 1 - k * k. Proof. unfold s, k. lra. Qed.
Lemma al_Q : al * (2 * Q) = s. Proof. unfold al. field. lra. Qed.

Ltac gain b0 b1 b2 z Hz := match goal with |- tfc ?c _ = _ => change c with (bq_div Rn b0 b1 b2 (1 + al) (-2 * k) (1 - al)) end;
  let P := fresh "P" in let Dn := fresh "Dn" in pose proof (tf_div tr n K Q HQ Hs Hc b0 b1 b2 z Hz) as P; cbv zeta in P;
  fold s in P; fold k in P; fold al in P; destruct P as [Dn ->]; apply cdiv_eq; [exact Dn|].
Ltac parts := apply injective_projections; cbn.

Lemma lowpass_dc : tfc (bq_lowpass Rn tr n K Q) (RtoC 1) = RtoC 1.
Proof. gain ((1 - k) / 2) (1 - k) ((1 - k) / 2) (RtoC 1) (proj1 Cmod_pm1). parts; field. Qed.
Lemma lowpass_ny : tfc (bq_lowpass Rn tr n K Q) (RtoC (-1)) = RtoC 0.
Proof. gain ((1 - k) / 2) (1 - k) ((1 - k) / 2) (RtoC (-1)) (proj2 Cmod_pm1). parts; field. Qed.
Lemma lowpass_cut : tfc (bq_lowpass Rn tr n K Q) w = (0, - Q).
Proof.
  gain ((1 - k) / 2) (1 - k) ((1 - k) / 2) w Cmod_w. pose proof al_Q as A. pose proof S2 as U. unfold w. parts; clearbody al k s.
  - transitivity (k * (s * s)); [rewrite U; field|]. rewrite <- A at 1. ring.
  - transitivity (s * (s * s)); [rewrite U; field|]. rewrite <- A at 1. rewrite U. ring.
Qed.
Lemma highpass_dc : tfc (bq_highpass Rn tr n K Q) (RtoC 1) = RtoC 0.
Proof. gain ((1 + k) / 2) (- (1 + k)) ((1 + k) / 2) (RtoC 1) (proj1 Cmod_pm1). parts; field. Qed.
Lemma highpass_ny : tfc (bq_highpass Rn tr n K Q) (RtoC (-1)) = RtoC 1.
Proof. gain ((1 + k) / 2) (- (1 + k)) ((1 + k) / 2) (RtoC (-1)) (proj2 Cmod_pm1). parts; field. Qed.
Lemma highpass_cut : tfc (bq_highpass Rn tr n K Q) w = (0, Q).
Proof.
  gain ((1 + k) / 2) (- (1 + k)) ((1 + k) / 2) w Cmod_w. pose proof al_Q as A. pose proof S2 as U. unfold w. parts; clearbody al k s.
  - transitivity (- k * (s * s)); [rewrite U; field|]. rewrite <- A at 1. ring.
  - transitivity (- (1) * (s * (s * s))); [rewrite U; field|]. rewrite <- A at 1. rewrite U. ring.
Qed.
Lemma notch_dc : tfc (bq_notch_Q Rn tr n K Q) (RtoC 1) = RtoC 1.
Proof. gain 1 (-2 * k) 1 (RtoC 1) (proj1 Cmod_pm1). parts; ring. Qed.
Lemma notch_ny : tfc (bq_notch_Q Rn tr n K Q) (RtoC (-1)) = RtoC 1.
Proof. gain 1 (-2 * k) 1 (RtoC (-1)) (proj2 Cmod_pm1). parts; ring. Qed.
Lemma notch_cut : tfc (bq_notch_Q Rn tr n K Q) w = RtoC 0.
Proof. gain 1 (-2 * k) 1 w Cmod_w. rewrite wsq. unfold w. parts; ring. Qed.
Lemma bandpass_dc : tfc (bq_bandpass_Q Rn tr n K Q) (RtoC 1) = RtoC 0.
Proof. gain al 0 (- al) (RtoC 1) (proj1 Cmod_pm1). parts; ring. Qed.
Lemma bandpass_ny : tfc (bq_bandpass_Q Rn tr n K Q) (RtoC (-1)) = RtoC 0.
Proof. gain al 0 (- al) (RtoC (-1)) (proj2 Cmod_pm1). parts; ring. Qed.
Lemma bandpass_cut : tfc (bq_bandpass_Q Rn tr n K Q) w = RtoC 1.
Proof. gain al 0 (- al) w Cmod_w. rewrite wsq. unfold w. parts; unfold k, s in *; try nra; ring. Qed.
Lemma allpass_mod z : Cmod z = 1 -> Cmod (tfc (bq_allpass_Q Rn tr n K Q) z) = 1.
Proof.
  intros Hz. change (bq_allpass_Q Rn tr n K Q) with (bq_div Rn (1 - al) (-2 * k) (1 + al) (1 + al) (-2 * k) (1 - al)).
  pose proof (tf_div tr n K Q HQ Hs Hc (1 - al) (-2 * k) (1 + al) z Hz) as P. cbv zeta in P. fold s in P. fold k in P. fold al in P. destruct P as [Dn ->]. rewrite Cmod_div by exact Dn.
  match goal with |- Cmod ?a / Cmod ?b = 1 => assert (H : Cmod a = Cmod b) end.
  { unfold Cmod in *. f_equal. apply (f_equal (fun r => r * r)) in Hz. rewrite sqrt_sqrt in Hz by nra. destruct z as [p q]. cbn in *.
    assert (P : p * p = 1 - q * q) by lra.
    clear - P. ring_simplify. assert (P2 : p ^ 2 = 1 - q ^ 2) by lra. 
    assert (P4 : p ^ 4 = (1 - q ^ 2) * (1 - q ^ 2)) by (rewrite <- P2; ring). assert (P3 : p ^ 3 = p * (1 - q ^ 2)) by (rewrite <- P2; ring).
    rewrite P4, P3, P2. ring. }
  rewrite H. apply Rinv_r. apply Rgt_not_eq, Cmod_gt_0. exact Dn.
Qed.
End Gains.

Lemma approaches_refl x : approaches x x.
Proof.
  unfold approaches. apply (is_lim_seq_ext (fun _ => 0)); [|apply is_lim_seq_const]. intros t.
  replace (x t - x t)%C with (RtoC 0) by ring. rewrite Cmod_R, Rabs_R0. reflexivity.
Qed.
Lemma gain_tf c s w : stable c -> Cmod w = 1 -> bq_c s = c -> gain_at (out cstep s) w (tfc c w).
Proof.
  intros S Hw Hc amp. pose proof (steady_state c s amp w _ S Hw Hc (approaches_refl _)) as H. unfold approaches in *.
  eapply is_lim_seq_ext; [|exact H]. intros t. cbv beta. f_equal. f_equal. ring.
Qed.

Lemma bibo_cascade (cs : list (coefs R)) : Forall stable cs -> exists B, 0 <= B /\ forall (x : nat -> R) X, (forall t, Rabs (x t) <= X) ->
  forall t, Rabs (out (bqc_step (vreal Rn)) (map (bq (vreal Rn)) cs) x t) <= B * X.
Proof.
  induction cs as [|c cs IH]; intros S.
  - exists 1. split; [lra|]. intros x X H t. rewrite bqc_outs. cbn. rewrite Rmult_1_l. auto.
  - inversion S; subst. destruct IH as (B & B0 & HB); auto. destruct (bibo c) as (B1 & B10 & HB1); auto. exists (B * B1). split; [nra|].
    intros x X H t. rewrite bqc_outs. cbn [map fold_left]. rewrite <- bqc_outs. rewrite Rmult_assoc. apply HB. apply HB1. auto.
Qed.
