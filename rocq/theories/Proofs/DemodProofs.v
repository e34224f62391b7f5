(* Proofs about triggers, demodulators and normalisers *)
From Coq Require Import Reals ZArith Lia Lra List Bool.
From Coquelicot Require Import Coquelicot.
From Flocq Require Import Core.
From Verif Require Import Model.Signal Model.Trigger Model.Demod Model.Normalize Spec.ExactConst Spec.Angle Spec.Dft Proofs.SignalLemmas Proofs.ConstProofs Proofs.Atan2Proofs Proofs.EmaProofs.
Open Scope R_scope.

(** *** Schmitt trigger *)
Section Schmitt.
Context {T : Type} (ltb : T -> T -> bool).
Lemma schmitt_state (s : schmitt T) (x : nat -> T) t : (forall v, ltb v (st_low s) = true -> ltb (st_high s) v = true -> False) ->
  let s' := state_at (schmitt_step ltb) s x t in
  st_low s' = st_low s /\ st_high s' = st_high s /\
  ((exists j, (j < t)%nat /\ (ltb (x j) (st_low s) = true \/ ltb (st_high s) (x j) = true) /\
     (forall k, (j < k < t)%nat -> ltb (x k) (st_low s) = false /\ ltb (st_high s) (x k) = false) /\ st_previous s' = ltb (st_high s) (x j)) \/
   ((forall k, (k < t)%nat -> ltb (x k) (st_low s) = false /\ ltb (st_high s) (x k) = false) /\ st_previous s' = st_previous s)).
Proof.
  intros H. induction t as [|t IH]; cbv zeta; [split; [reflexivity|]; split; [reflexivity|]; right; split; [lia|reflexivity]|].
  cbv zeta in IH. cbn [state_at]. set (s1 := state_at (schmitt_step ltb) s x t) in *. destruct IH as (L & G & IH). cbn [schmitt_step fst st_low st_high st_previous].
  rewrite L, G. split; [reflexivity|]. split; [reflexivity|].
  destruct (ltb (x t) (st_low s)) eqn:E1; [|destruct (ltb (st_high s) (x t)) eqn:E2].
  - left. exists t. split; [lia|]. split; [auto|]. split; [lia|]. assert (E2 : ltb (st_high s) (x t) = false) by (destruct (ltb (st_high s) (x t)) eqn:E; auto; exfalso; eauto).
    rewrite E2. destruct (st_previous s1); reflexivity.
  - left. exists t. split; [lia|]. split; [auto|]. split; [lia|]. rewrite E2. destruct (st_previous s1); reflexivity.
  - assert (P : (if st_previous s1 then st_previous s1 else st_previous s1) = st_previous s1) by (destruct (st_previous s1); reflexivity). rewrite P.
    destruct IH as [(j & J1 & J2 & J3 & J4)|[A B]].
    + left. exists j. split; [lia|]. split; [auto|]. split; [|auto]. intros k Hk. destruct (Nat.eq_dec k t) as [->|]; [auto|apply J3; lia].
    + right. split; [|auto]. intros k Hk. destruct (Nat.eq_dec k t) as [->|]; [auto|apply A; lia].
Qed.
End Schmitt.

(** *** edges *)
Lemma edge_outs (p : bool) (x : nat -> bool) t : let prev := match t with O => p | S t' => x t' end in
  out rising_step p x t = negb prev && x t /\ out falling_step p x t = prev && negb (x t).
Proof. destruct t; unfold out; cbn; auto. Qed.

(** *** AM *)
Definition amp_of (z : C) : R := Cmod z.
Lemma cabs_mod (z : C) : cabs Rn z = Cmod z.
Proof. unfold cabs, cnorm, creal, cimag, Cmod. cbn. f_equal. destruct z; cbn. ring. Qed.
Definition clampf (v lo hi : R) : R := Rmin (Rmax v lo) hi.
Lemma nminmax v lo hi : nmin Rn (nmax Rn v lo) hi = clampf v lo hi.
Proof.
  unfold nmin, nmax, clampf, Rmin, Rmax. cbn [nltb Rn]. destruct (Rlt_bool_spec v lo), (Rle_dec v lo); try lra;
  match goal with |- (if Rlt_bool hi ?a then _ else _) = _ => destruct (Rlt_bool_spec hi a), (Rle_dec a hi) end; try lra.
  all: destruct (Rle_dec lo hi); lra.
Qed.
Definition amd_next (a : amd R) (amp : R) : R := 
  let k := if Rlt_dec amp (am_avg a) then am_dec a else am_att a in clampf ((1 - k) * am_avg a + k * amp) (am_lo a) (am_hi a).
Lemma amd_step_eq (a : amd R) (z : C) : amd_step Rn a z =
  (mkAmd (amd_next a (Cmod z)) (am_att a) (am_dec a) (am_lo a) (am_hi a) (am_idx a),
   (Cmod z / amd_next a (Cmod z) * (1 + am_idx a) - 1) / am_idx a).
Proof.
  unfold amd_step. rewrite cabs_mod, nminmax. unfold amd_next, lerp. cbn [nltb vadd vscale vreal nadd nsub nmul ndiv n1 Rn].
  destruct (Rlt_bool_spec (Cmod z) (am_avg a)), (Rlt_dec (Cmod z) (am_avg a)); try lra; reflexivity.
Qed.
Lemma amd_params (s : amd R) (x : nat -> C) t : let s' := state_at (amd_step Rn) s x t in
  am_att s' = am_att s /\ am_dec s' = am_dec s /\ am_lo s' = am_lo s /\ am_hi s' = am_hi s /\ am_idx s' = am_idx s.
Proof.
  induction t as [|t IH]; [cbn; auto|]. cbn [state_at]. rewrite amd_step_eq. cbn [fst am_att am_dec am_lo am_hi am_idx]. exact IH.
Qed.
Lemma clampf_range v lo hi : lo <= hi -> lo <= clampf v lo hi <= hi.
Proof. intros. unfold clampf, Rmin, Rmax. destruct (Rle_dec v lo); match goal with |- context [Rle_dec ?a hi] => destruct (Rle_dec a hi) end; lra. Qed.
Lemma clampf_id v lo hi : lo <= v <= hi -> clampf v lo hi = v.
Proof. intros. unfold clampf, Rmin, Rmax. destruct (Rle_dec v lo); match goal with |- context [Rle_dec ?a hi] => destruct (Rle_dec a hi) end; lra. Qed.
Lemma clampf_near v lo hi A : lo <= A <= hi -> Rabs (clampf v lo hi - A) <= Rabs (v - A).
Proof. intros. unfold clampf, Rmin, Rmax. destruct (Rle_dec v lo); match goal with |- context [Rle_dec ?a hi] => destruct (Rle_dec a hi) end; unfold Rabs; repeat destruct Rcase_abs; lra. Qed.

Lemma amd_env (s : amd R) (x : nat -> C) t : am_lo s <= am_hi s -> am_lo s <= am_avg (state_at (amd_step Rn) s x (S t)) <= am_hi s.
Proof.
  intros H. cbn [state_at]. rewrite amd_step_eq. cbn [fst am_avg]. unfold amd_next. destruct (amd_params s x t) as (_ & _ & -> & -> & _). apply clampf_range; auto.
Qed.
Lemma amd_out (s : amd R) (x : nat -> C) t : out (amd_step Rn) s x t = (Cmod (x t) / am_avg (state_at (amd_step Rn) s x (S t)) * (1 + am_idx s) - 1) / am_idx s.
Proof. unfold out. cbn [state_at]. rewrite amd_step_eq. cbn [fst snd am_avg]. destruct (amd_params s x t) as (_ & _ & _ & _ & ->). reflexivity. Qed.

Lemma amd_settle (s : amd R) (x : nat -> C) A : 0 < am_att s <= 1 -> 0 < am_dec s <= 1 -> am_lo s <= A <= am_hi s -> (forall t, Cmod (x t) = A) ->
  forall t, Rabs (am_avg (state_at (amd_step Rn) s x t) - A) <= (1 - Rmin (am_att s) (am_dec s)) ^ t * Rabs (am_avg s - A).
Proof.
  intros Ha Hd HA Hx. induction t as [|t IH]; [cbn; lra|]. cbn [state_at]. rewrite amd_step_eq. cbn [fst am_avg]. unfold amd_next. rewrite Hx.
  destruct (amd_params s x t) as (-> & -> & -> & -> & _). set (v := am_avg (state_at (amd_step Rn) s x t)) in *.
  set (k := if Rlt_dec A v then am_dec s else am_att s). assert (K : Rmin (am_att s) (am_dec s) <= k <= 1).
  { unfold k. destruct (Rlt_dec A v); split; try lra; [apply Rmin_r|apply Rmin_l]. }
  eapply Rle_trans; [apply clampf_near; auto|]. replace ((1 - k) * v + k * A - A) with ((1 - k) * (v - A)) by ring. rewrite Rabs_mult, (Rabs_pos_eq (1 - k)) by lra.
  cbn [pow]. rewrite Rmult_assoc. apply Rmult_le_compat; try apply Rabs_pos; auto; lra.
Qed.

(** *** FM *)
Definition is_arg (argf : C -> R) : Prop := forall z : C, z <> 0%C -> angle_of (fst z) (snd z) (argf z).
Lemma polar_mod r p : 0 <= r -> sqrt (r * cos p * (r * cos p) + r * sin p * (r * sin p)) = r.
Proof.
  intros H. replace (r * cos p * (r * cos p) + r * sin p * (r * sin p)) with (r * r * (Rsqr (sin p) + Rsqr (cos p))) by (unfold Rsqr; ring).
  rewrite sin2_cos2, Rmult_1_r. apply sqrt_square; auto.
Qed.
Lemma angle_polar r p : 0 < r -> - PI < p <= PI -> angle_of (r * cos p) (r * sin p) p.
Proof. intros R P. split; [auto|]. rewrite polar_mod by lra. auto. Qed.
Lemma polar_eq (r p : R) : (RtoC r * cis p)%C = (r * cos p, r * sin p).
Proof. unfold cis. apply injective_projections; cbn; ring. Qed.
Lemma polar_nz r p : 0 < r -> (RtoC r * cis p)%C <> 0%C.
Proof.
  intros H E. rewrite polar_eq in E. assert (E1 := f_equal fst E). assert (E2 := f_equal snd E). cbn in E1, E2. pose proof (polar_mod r p ltac:(lra)) as P.
  rewrite E1, E2 in P. replace (0 * 0 + 0 * 0) with 0 in P by ring. rewrite sqrt_0 in P. lra.
Qed.
Lemma pol_not0 r p : 0 < r -> ~ (r * cos p = 0 /\ r * sin p = 0).
Proof. intros H [E1 E2]. apply (polar_nz r p H). rewrite polar_eq, E1, E2. reflexivity. Qed.
Lemma arg_polar argf r p : is_arg argf -> 0 < r -> - PI < p <= PI -> argf (RtoC r * cis p)%C = p.
Proof.
  intros A H P. pose proof (A _ (polar_nz r p H)) as B. rewrite polar_eq in *. cbn [fst snd] in B.
  apply (angle_unique (r * cos p) (r * sin p)); auto using angle_polar, pol_not0.
Qed.
Lemma arg_cis argf r p : is_arg argf -> 0 < r -> let t := argf (RtoC r * cis p)%C in - PI < t <= PI /\ cos t = cos p /\ sin t = sin p.
Proof.
  intros A H t. unfold t. clear t. pose proof (A _ (polar_nz r p H)) as (B1 & B2 & B3). rewrite polar_eq in *. cbn [fst snd] in *. set (t := argf _) in *. rewrite polar_mod in B2, B3 by lra.
  split; [auto|]. split; [apply (Rmult_eq_reg_l r); lra|apply (Rmult_eq_reg_l r); lra].
Qed.
Lemma cis_unique a p : - PI <= a <= PI -> - PI < p < PI -> cos a = cos p -> sin a = sin p -> a = p.
Proof.
  intros Ha Hp Ec Es. destruct (Rle_lt_or_eq_dec (- PI) a (proj1 Ha)) as [L|E].
  - apply (angle_unique (1 * cos p) (1 * sin p)); [apply pol_not0; lra| |apply angle_polar; lra]. rewrite <- Ec, <- Es. apply angle_polar; lra.
  - exfalso. assert (p = PI); [|lra]. apply (angle_unique (1 * cos p) (1 * sin p)); [apply pol_not0; lra|apply angle_polar; lra|].
    rewrite <- Ec, <- Es, <- E, cos_neg, sin_neg, sin_PI, Ropp_0. rewrite <- sin_PI at 1. pose proof PI_RGT_0. apply angle_polar; lra.
Qed.
Lemma wrap_range a : - (2 * PI) < a < 2 * PI -> let d := wrap_around Rc a in - PI <= d <= PI /\ cos d = cos a /\ sin d = sin a.
Proof.
  intros H d. unfold d, wrap_around. rewrite pi_rc, twopi_rc. cbn [nltb nopp nadd nsub Rc]. destruct (Rlt_bool_spec a (- PI)); [|destruct (Rlt_bool_spec PI a)].
  - split; [lra|]. replace (a + 2 * PI) with (a + 2 * IZR 1 * PI) by ring. rewrite cos_turn, sin_turn. auto.
  - split; [lra|]. replace (a - 2 * PI) with (a + 2 * IZR (-1) * PI) by ring. rewrite cos_turn, sin_turn. auto.
  - split; [lra|auto].
Qed.
Lemma fmd_scale1 {P} (f : fmd R P) bw : fm_scale (fmd_bandwidth Rc f bw) = 1 / (bw * PI). Proof. unfold fmd_bandwidth. cbn [fm_scale]. rewrite pi_rc. reflexivity. Qed.
Lemma fmd_scale5 {P} (f : fmd R P) bw : fm_scale (fmd5_bandwidth Rc f bw) = 1 / (bw * (2 * PI)). Proof. unfold fmd5_bandwidth. cbn [fm_scale]. rewrite twopi_rc. reflexivity. Qed.

Section Fmd.
Variables (argf : C -> R) (x : nat -> C).
Lemma fmd1_state f t : state_at (fmd1_step Rc argf) f x (S t) = mkFmd (argf (x t)) (fm_scale f).
Proof. induction t as [|t IH]; [reflexivity|]. cbn [state_at] in *. rewrite IH. reflexivity. Qed.
Lemma fmd2_state f t : state_at (fmd2_step Rc argf) f x (S t) = mkFmd (x t) (fm_scale f).
Proof. induction t as [|t IH]; [reflexivity|]. cbn [state_at] in *. rewrite IH. reflexivity. Qed.
Lemma fmd3_state f t : state_at (fmd3_step Rc argf) f x (S t) = mkFmd (x t) (fm_scale f).
Proof. induction t as [|t IH]; [reflexivity|]. cbn [state_at] in *. rewrite IH. reflexivity. Qed.
Lemma fmd4_state f t : state_at (fmd4_step Rc) f x (S t) = mkFmd (x t) (fm_scale f).
Proof. induction t as [|t IH]; [reflexivity|]. cbn [state_at] in *. rewrite IH. reflexivity. Qed.
Lemma fmd5_state f t : state_at (fmd5_step Rc) f x (S (S t)) = mkFmd (x (S t), x t) (fm_scale f).
Proof.
  assert (P : forall s y, fmd5_step Rc s y = (mkFmd (y, fst (fm_prev s)) (fm_scale s), snd (fmd5_step Rc s y))) by (intros [[p1 p2] sc] y; reflexivity).
  assert (Q : forall t, exists p, state_at (fmd5_step Rc) f x (S t) = mkFmd (x t, p) (fm_scale f)).
  { intros k. induction k as [|k [p IH]]; [cbn [state_at]; rewrite P; cbn [fst]; eexists; reflexivity|]. cbn [state_at] in *. rewrite IH, P. cbn [fst fm_scale]. eexists; reflexivity. }
  destruct (Q t) as [p E]. cbn [state_at] in *. rewrite E, P. reflexivity.
Qed.
End Fmd.
