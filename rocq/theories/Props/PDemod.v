(* Theorems about triggers (trigger.hh), AM and FM demodulation (amd.hh, fmd.hh) and normalisers (normalize.hh) *)
From Coq Require Import Reals ZArith Lia Lra List Bool.
From Coquelicot Require Import Coquelicot.
From Flocq Require Import Core.
From Verif Require Import Model.Signal Model.Trigger Model.Demod Model.Normalize Spec.ExactConst Spec.Angle Spec.Dft Spec.Iir Proofs.SignalLemmas Proofs.ConstProofs Proofs.Atan2Proofs Proofs.EmaProofs Proofs.DemodProofs.
Open Scope R_scope.

(** C69  The output is the answer to "was the most recent input outside [low, high] above high?", or the initial state
    if there was none.  Any comparison will do (also that of floats, with NaN counting as inside), as long as no value
    is both below low and above high. *)
Theorem C69_schmitt {T : Type} (ltb : T -> T -> bool) (low high : T) (previous : bool) (x : nat -> T) (t : nat) :
  (forall v, ltb v low = true -> ltb high v = true -> False) ->
  let y := out (schmitt_step ltb) (schmitt_new low high previous) x t in
  let inside v := ltb v low = false /\ ltb high v = false in
  (exists j, (j <= t)%nat /\ ~ inside (x j) /\ (forall k, (j < k <= t)%nat -> inside (x k)) /\ y = ltb high (x j)) \/
  ((forall k, (k <= t)%nat -> inside (x k)) /\ y = previous).
Proof.
  intros H y inside. destruct (schmitt_state ltb (schmitt_new low high previous) x (S t) H) as (_ & _ & Q).
  assert (Y : y = st_previous (state_at (schmitt_step ltb) (schmitt_new low high previous) x (S t))) by reflexivity. rewrite <- Y in Q. cbn [st_low st_high st_previous schmitt_new] in Q.
  destruct Q as [(j & J1 & J2 & J3 & J4)|[A B]].
  - left. exists j. split; [lia|]. split; [intros [I1 I2]; destruct J2; congruence|]. split; [|exact J4]. intros k Hk. apply J3. lia.
  - right. split; [|exact B]. intros k Hk. apply A. lia.
Qed.
Print Assumptions C69_schmitt.
(** C69  An input inside never changes the output. *)
Theorem C69_inside {T : Type} (ltb : T -> T -> bool) (s : schmitt T) (v : T) : ltb v (st_low s) = false -> ltb (st_high s) v = false ->
  schmitt_step ltb s v = (s, st_previous s).
Proof. intros A B. unfold schmitt_step. rewrite A, B. destruct s as [l h []]; reflexivity. Qed.
Print Assumptions C69_inside.
Example C69_reals (low high : R) : low <= high -> forall v, Rlt_bool v low = true -> Rlt_bool high v = true -> False.
Proof. intros H v A B. destruct (Rlt_bool_spec v low), (Rlt_bool_spec high v); try discriminate. lra. Qed.
Example C69_example : out (schmitt_step Z.ltb) (schmitt_threshold Z.opp 3%Z false) (fun t => nth t [0; 4; 2; -2; -4; 1; 5]%Z 0%Z) 3 = true /\
  out (schmitt_step Z.ltb) (schmitt_threshold Z.opp 3%Z false) (fun t => nth t [0; 4; 2; -2; -4; 1; 5]%Z 0%Z) 5 = false.
Proof. split; reflexivity. Qed.

(** C70  The edge triggers answer true exactly at edges; [p] is the constructor argument. *)
Theorem C70_edges (p : bool) (x : nat -> bool) (t : nat) : let before := match t with O => p | S t' => x t' end in
  (out rising_step p x t = true <-> before = false /\ x t = true) /\ (out falling_step p x t = true <-> before = true /\ x t = false).
Proof. intros b. destruct (edge_outs p x t) as [-> ->]. fold b. destruct b, (x t); cbn; intuition discriminate. Qed.
Print Assumptions C70_edges.
Lemma C70_low p x j : forall k, x j = false -> (forall i, (j < i <= j + k)%nat -> out rising_step p x i = false) -> x (j + k)%nat = false.
Proof.
  induction k as [|k IH]; intros H F; [rewrite Nat.add_0_r; auto|]. assert (E : x (j + k)%nat = false) by (apply IH; auto; intros; apply F; lia).
  rewrite Nat.add_succ_r. specialize (F (S (j + k)) ltac:(lia)). destruct (edge_outs p x (S (j + k))) as [Q _]. cbv beta iota zeta in Q. rewrite Q, E in F. destruct (x (S (j + k))); auto; discriminate.
Qed.
Lemma C70_high p x j : forall k, x j = true -> x (j + k)%nat = false -> exists i, (j < i <= j + k)%nat /\ out falling_step p x i = true.
Proof.
  induction k as [|k IH]; intros H F; [rewrite Nat.add_0_r in F; congruence|]. destruct (x (j + k)%nat) eqn:E.
  - exists (j + S k)%nat. split; [lia|]. rewrite Nat.add_succ_r in *. destruct (edge_outs p x (S (j + k))) as [_ Q]. cbv beta iota zeta in Q. rewrite Q, E, F. reflexivity.
  - destruct (IH H eq_refl) as (i & I1 & I2). exists i. split; [lia|auto].
Qed.
(** C70  Between two successive rising edges there is exactly one falling edge. *)
Theorem C70_alternate (p : bool) (x : nat -> bool) (t1 t2 : nat) : (t1 < t2)%nat -> out rising_step p x t1 = true -> out rising_step p x t2 = true ->
  (forall i, (t1 < i < t2)%nat -> out rising_step p x i = false) ->
  exists! i, (t1 < i < t2)%nat /\ out falling_step p x i = true.
Proof.
  intros L R1 R2 M. destruct (C70_edges p x t1) as [[E1 _] _]; auto. destruct (E1 R1) as [_ X1]. destruct (C70_edges p x t2) as [[E2 _] _]. destruct (E2 R2) as [X2 X2'].
  destruct t2 as [|t2]; [lia|]. cbv beta iota in X2.
  assert (T : (t1 < t2)%nat) by (destruct (Nat.eq_dec t1 t2) as [->|]; [congruence|lia]).
  destruct (C70_high p x t1 (t2 - t1) X1) as (i & I1 & I2); [replace (t1 + (t2 - t1))%nat with t2 by lia; auto|].
  exists i. split; [split; auto; lia|]. intros i' [J1 J2].
  assert (U : forall a b, (t1 < a)%nat -> (a < b)%nat -> (b < S t2)%nat -> out falling_step p x a = true -> out falling_step p x b = true -> False).
  { intros a b A1 A2 A3 F1 F2. destruct (proj1 (proj2 (C70_edges p x a)) F1) as [_ Xa]. destruct (proj1 (proj2 (C70_edges p x b)) F2) as [Xb _].
    destruct b as [|b]; [lia|]. cbv beta iota in Xb. pose proof (C70_low p x a (b - a) Xa) as Q. replace (a + (b - a))%nat with b in Q by lia. rewrite Q in Xb; [discriminate|]. intros k Hk. apply M. lia. }
  destruct (Nat.lt_total i i') as [?|[?|?]]; auto; exfalso; [apply (U i i')|apply (U i' i)]; auto; lia.
Qed.
Print Assumptions C70_alternate.
Example C70_example : map (out rising_step false (fun t => nth t [true; true; false; false; true] false)) [0; 1; 2; 3; 4]%nat = [true; false; false; false; true].
Proof. reflexivity. Qed.

(** C53  The envelope estimate stays in [lo, hi] after every call, whatever the inputs, attack and decay. *)
Theorem C53_envelope (s : amd R) (x : nat -> C) (t : nat) : am_lo s <= am_hi s ->
  am_lo s <= am_avg (state_at (amd_step Rn) s x (S t)) <= am_hi s.
Proof. apply amd_env. Qed.
Print Assumptions C53_envelope.
(** C53  The output is the amplitude over the envelope estimate, mapped by the modulation index; for lo > 0 the
    divisor is at least lo. *)
Theorem C53_output (s : amd R) (x : nat -> C) (t : nat) : 0 < am_lo s <= am_hi s -> am_idx s <> 0 ->
  exists env, am_lo s <= env <= am_hi s /\ out (amd_step Rn) s x t = (Cmod (x t) / env * (1 + am_idx s) - 1) / am_idx s.
Proof. intros H I. exists (am_avg (state_at (amd_step Rn) s x (S t))). split; [apply amd_env; lra|]. apply amd_out. Qed.
Print Assumptions C53_output.
(** C53  A constant amplitude A in [lo, hi] gives an output tending to 1, from every state. *)
Theorem C53_constant (s : amd R) (x : nat -> C) (A : R) : 0 < am_att s <= 1 -> 0 < am_dec s <= 1 -> 0 < am_lo s -> am_lo s <= A <= am_hi s -> am_idx s <> 0 ->
  (forall t, Cmod (x t) = A) -> is_lim_seq (out (amd_step Rn) s x) 1.
Proof.
  intros Ha Hd L HA I Hx. pose proof (amd_settle s x A Ha Hd HA Hx) as S. set (k := 1 - Rmin (am_att s) (am_dec s)) in *.
  assert (K : 0 <= k < 1) by (unfold k; pose proof (Rmin_l (am_att s) (am_dec s)); unfold Rmin in *; destruct (Rle_dec (am_att s) (am_dec s)); lra).
  assert (Lim : is_lim_seq (fun t => am_avg (state_at (amd_step Rn) s x (Datatypes.S t))) A).
  { apply (is_lim_seq_incr_1 (fun t => am_avg (state_at (amd_step Rn) s x t))). 
    assert (Z : is_lim_seq (fun t => am_avg (state_at (amd_step Rn) s x t) - A) 0).
    { apply is_lim_seq_abs_0. apply (is_lim_seq_le_le (fun _ => 0) _ (fun t => k ^ t * Rabs (am_avg s - A))); [intros n; split; [apply Rabs_pos|apply S]|apply is_lim_seq_const|].
      replace (Finite 0) with (Rbar_mult 0 (Rabs (am_avg s - A))) by (cbn; f_equal; ring). apply is_lim_seq_mult'; [apply is_lim_seq_geom; rewrite Rabs_pos_eq; lra|apply is_lim_seq_const]. }
    apply (is_lim_seq_ext (fun t => (am_avg (state_at (amd_step Rn) s x t) - A) + A)); [intros; ring|]. replace (Finite A) with (Rbar_plus 0 A) by (cbn; f_equal; ring).
    apply is_lim_seq_plus'; [exact Z|apply is_lim_seq_const]. }
  apply (is_lim_seq_ext (fun t => (A * / am_avg (state_at (amd_step Rn) s x (Datatypes.S t)) * (1 + am_idx s) - 1) * / am_idx s)); [intros t; rewrite amd_out, Hx; reflexivity|].
  replace (Finite 1) with (Finite ((A * / A * (1 + am_idx s) - 1) * / am_idx s)) by (f_equal; field; split; auto; lra).
  apply is_lim_seq_mult'; [|apply is_lim_seq_const]. apply is_lim_seq_minus'; [|apply is_lim_seq_const]. apply is_lim_seq_mult'; [|apply is_lim_seq_const].
  apply is_lim_seq_mult'; [apply is_lim_seq_const|]. apply (is_lim_seq_inv _ A Lim). intros E. injection E as E. lra.
Qed.
Print Assumptions C53_constant.
(** C53  index() undoes the modulation: with the envelope resting at the peak P (decay 0) the carrier
    P (1 + m s_t) / (1 + m) demodulates exactly to s_t. *)
Theorem C53_index (a : amd R) (x : nat -> C) (P : R) (sig : nat -> R) : 0 < P -> am_lo a <= P <= am_hi a -> am_avg a = P -> am_dec a = 0 -> 0 < am_idx a ->
  (forall t, -1 / am_idx a <= sig t <= 1) -> (forall t, Cmod (x t) = P * (1 + am_idx a * sig t) / (1 + am_idx a)) ->
  forall t, out (amd_step Rn) a x t = sig t.
Proof.
  intros HP HR HA HD HI Hs Hx t. assert (M : forall t, Cmod (x t) <= P).
  { intros k. rewrite Hx. apply (Rmult_le_reg_r (1 + am_idx a)); [lra|]. unfold Rdiv. rewrite Rmult_assoc, Rinv_l by lra. rewrite Rmult_1_r. apply Rmult_le_compat_l; [lra|]. specialize (Hs k). nra. }
  assert (E : forall t, am_avg (state_at (amd_step Rn) a x t) = P).
  { induction t0 as [|k IH]; [auto|]. cbn [state_at]. rewrite amd_step_eq. cbn [fst am_avg]. unfold amd_next. destruct (amd_params a x k) as (-> & -> & -> & -> & _). rewrite IH, HD.
    destruct (Rlt_dec (Cmod (x k)) P) as [L|L]; [|replace (Cmod (x k)) with P by (specialize (M k); lra)].
    - replace ((1 - 0) * P + 0 * Cmod (x k)) with P by ring. apply clampf_id; auto.
    - replace ((1 - am_att a) * P + am_att a * P) with P by ring. apply clampf_id; auto. }
  rewrite amd_out, E, Hx. field. lra.
Qed.
Print Assumptions C53_index.
(** C53  With attack 1 the output never exceeds 1 (amplitudes up to hi). *)
Theorem C53_peak (a : amd R) (x : nat -> C) (t : nat) : 0 < am_lo a <= am_hi a -> am_att a = 1 -> 0 <= am_dec a <= 1 -> 0 < am_idx a -> (forall k, Cmod (x k) <= am_hi a) ->
  -1 / am_idx a <= out (amd_step Rn) a x t <= 1.
Proof.
  intros HL HA HD HI Hx. rewrite amd_out. pose proof (amd_env a x t ltac:(lra)) as V. assert (G : Cmod (x t) <= am_avg (state_at (amd_step Rn) a x (S t))).
  { cbn [state_at]. rewrite amd_step_eq. cbn [fst am_avg]. unfold amd_next. destruct (amd_params a x t) as (-> & -> & -> & -> & _). rewrite HA. set (v := am_avg _). specialize (Hx t).
    destruct (Rlt_dec (Cmod (x t)) v) as [L|L].
    - assert (Cmod (x t) <= (1 - am_dec a) * v + am_dec a * Cmod (x t)) by nra. unfold clampf, Rmin, Rmax. repeat destruct Rle_dec; lra.
    - replace ((1 - 1) * v + 1 * Cmod (x t)) with (Cmod (x t)) by ring. unfold clampf, Rmin, Rmax. repeat destruct Rle_dec; lra. }
  set (e := am_avg _) in *. pose proof (Cmod_ge_0 (x t)). assert (Q : 0 <= Cmod (x t) / e <= 1).
  { split; [apply Rmult_le_pos; [lra|apply Rlt_le, Rinv_0_lt_compat; lra]|]. apply (Rmult_le_reg_r e); [lra|]. unfold Rdiv. rewrite Rmult_assoc, Rinv_l by lra. lra. }
  set (q := Cmod (x t) / e) in *. split.
  - apply Rmult_le_compat_r; [apply Rlt_le, Rinv_0_lt_compat; lra|]. nra.
  - apply (Rmult_le_reg_r (am_idx a)); [lra|]. unfold Rdiv. rewrite Rmult_assoc, Rinv_l by lra. nra.
Qed.
Print Assumptions C53_peak.
Example C53_applies : let a := amd_agc (amd_new Rn) (1/10) (1/100) (1/1000) 1 in 0 < am_att a <= 1 /\ 0 < am_dec a <= 1 /\ 0 < am_lo a /\ am_lo a <= 1/2 <= am_hi a /\ am_idx a <> 0.
Proof. cbn. lra. Qed.

(** C54  NormalizeSine after samples(s), s >= 2: the divisor is positive and the output at most sqrt(s/2), for every
    history. *)
Definition ns_ok (s : Z) (n : norm_sine R) : Prop := 0 < em_prev (ns_lpf n) /\ em_alpha (ns_lpf n) = 1 / IZR s.
Lemma ns_step_ok (s : Z) (n : norm_sine R) (v : R) : (2 <= s)%Z -> ns_ok s n ->
  ns_ok s (fst (norm_step Rn n v)) /\ 0 < norm_amp Rn n v /\ Rabs (snd (norm_step Rn n v)) <= sqrt (IZR s / 2) /\
  snd (norm_step Rn n v) = snd (blockdc_step (vreal Rn) (ns_hpf n) v) / norm_amp Rn n v.
Proof.
  intros Hs [P A]. unfold norm_step, norm_amp, ns_ok. set (b := blockdc_step (vreal Rn) (ns_hpf n) v). destruct b as [h tmp] eqn:Eb. unfold ema_step. rewrite A.
  set (q := lerp Rn (vreal Rn) (em_prev (ns_lpf n)) (nmul Rn tmp tmp) (1 / IZR s)). cbn [fst snd ns_lpf em_prev em_alpha].
  assert (S2 : 2 <= IZR s) by (apply IZR_le; auto). assert (I : 0 < / IZR s <= / 2) by (split; [apply Rinv_0_lt_compat; lra|apply Rinv_le_contravar; lra]).
  assert (T0 : 0 <= tmp * tmp) by apply Rle_0_sqr.
  assert (Q : 0 < q /\ tmp * tmp * / IZR s <= q).
  { unfold q, lerp. cbn [vadd vscale vreal nadd nsub nmul ndiv n1 Rn]. unfold Rdiv. rewrite Rmult_1_l. set (i := / IZR s) in *. assert (0 < (1 - i) * em_prev (ns_lpf n)) by (apply Rmult_lt_0_compat; lra). assert (0 <= i * (tmp * tmp)) by (apply Rmult_le_pos; lra). split; lra. }
  destruct Q as [Q1 Q2]. assert (D : 0 < sqrt (2 * q)) by (apply sqrt_lt_R0; lra). cbn [nsqrt nmul nofZ ndiv Rn].
  split; [split; auto|]. split; [exact D|]. split; [|reflexivity].
  unfold Rdiv. rewrite Rabs_mult, Rabs_inv, (Rabs_pos_eq (sqrt _)) by lra. apply (Rmult_le_reg_r (sqrt (2 * q))); [auto|]. rewrite Rmult_assoc, Rinv_l by lra. rewrite Rmult_1_r.
  rewrite <- sqrt_mult by (try apply Rmult_le_pos; lra). rewrite <- sqrt_Rsqr_abs. apply sqrt_le_1_alt. unfold Rsqr.
  replace (IZR s * / 2 * (2 * q)) with (IZR s * q) by field. apply (Rmult_le_compat_l (IZR s)) in Q2; [|lra]. replace (IZR s * (tmp * tmp * / IZR s)) with (tmp * tmp) in Q2 by (field; lra). lra.
Qed.
Theorem C54_bounded (s : Z) (x : nat -> R) (t : nat) : (2 <= s)%Z -> let n0 := norm_samples Rn (norm_new Rn) s in
  0 < norm_amp Rn (state_at (norm_step Rn) n0 x t) (x t) /\ Rabs (out (norm_step Rn) n0 x t) <= sqrt (IZR s / 2).
Proof.
  intros Hs n. assert (I : forall k, ns_ok s (state_at (norm_step Rn) n x k)).
  { induction k as [|k IH]; [split; cbn; lra|]. cbn [state_at]. apply ns_step_ok; auto. }
  destruct (ns_step_ok s _ (x t) Hs (I t)) as (_ & A & B & _). auto.
Qed.
Print Assumptions C54_bounded.
Theorem C54_iq (s : Z) (x : nat -> C) (t : nat) : (2 <= s)%Z -> let n0 := normiq_samples Rn (norm_new Rn, norm_new Rn) s in
  let y := out (normiq_step Rn) n0 x t in Rabs (fst y) <= sqrt (IZR s / 2) /\ Rabs (snd y) <= sqrt (IZR s / 2) /\
  y = (out (norm_step Rn) (norm_samples Rn (norm_new Rn) s) (fun k => fst (x k)) t, out (norm_step Rn) (norm_samples Rn (norm_new Rn) s) (fun k => snd (x k)) t).
Proof.
  intros Hs n y. assert (E : y = (out (norm_step Rn) (norm_samples Rn (norm_new Rn) s) (fun k => fst (x k)) t, out (norm_step Rn) (norm_samples Rn (norm_new Rn) s) (fun k => snd (x k)) t)).
  { assert (S : forall k, state_at (normiq_step Rn) n x k = (state_at (norm_step Rn) (norm_samples Rn (norm_new Rn) s) (fun k => fst (x k)) k, state_at (norm_step Rn) (norm_samples Rn (norm_new Rn) s) (fun k => snd (x k)) k)).
    { induction k as [|k IH]; [reflexivity|]. cbn [state_at]. rewrite IH. unfold normiq_step. cbn [fst snd]. unfold creal, cimag.
      destruct (norm_step Rn _ (fst (x k))), (norm_step Rn _ (snd (x k))). reflexivity. }
    unfold y, out. rewrite S. unfold normiq_step. cbn [fst snd]. unfold creal, cimag. destruct (norm_step Rn _ (fst (x t))), (norm_step Rn _ (snd (x t))). reflexivity. }
  rewrite E. cbn [fst snd]. split; [apply C54_bounded; auto|]. split; [apply C54_bounded; auto|reflexivity].
Qed.
Print Assumptions C54_iq.
(** NormalizeIQ is two independent NormalizeSine in any arithmetic: whatever samples(s) calls are mixed with the inputs, after
    any such history [l] each half is in the state it would be in had it seen its part of the history alone. *)
Theorem C54_iq_independent {T : Type} (N : num T) (l : list (Z + cplx T)) (n : norm_sine T * norm_sine T) (iq : cplx T) :
  let both n c := match c with inl s => normiq_samples N n s | inr iq => fst (normiq_step N n iq) end in
  let one (part : cplx T -> T) n c := match c with inl s => norm_samples N n s | inr iq => fst (norm_step N n (part iq)) end in
  let ni := fold_left (one fst) l (fst n) in let nq := fold_left (one snd) l (snd n) in
  fold_left both l n = (ni, nq) /\ snd (normiq_step N (fold_left both l n) iq) = (snd (norm_step N ni (fst iq)), snd (norm_step N nq (snd iq))).
Proof.
  intros both one ni nq. assert (E : fold_left both l n = (ni, nq)).
  { unfold ni, nq. clear ni nq iq. revert n. induction l as [|c l IH]; intros n; [destruct n; reflexivity|]. cbn [fold_left]. rewrite IH. f_equal; f_equal; destruct c as [s|q]; cbn [both one]; unfold normiq_step, creal, cimag;
      try reflexivity; destruct (norm_step N (fst n) (fst q)), (norm_step N (snd n) (snd q)); reflexivity. }
  split; [exact E|]. rewrite E. unfold normiq_step, creal, cimag. cbn [fst snd]. destruct (norm_step N ni (fst iq)), (norm_step N nq (snd iq)). reflexivity.
Qed.
Print Assumptions C54_iq_independent.
(** without samples(s), or with s = 1, the divisor can be zero *)
Example C54_zero : norm_amp Rn (norm_samples Rn (norm_new Rn) 1) 0 = 0.
Proof. cbn. replace (2 * ((1 - 1 / 1) * 0.5 + 1 / 1 * (((1 + 0 / 1) / 2 * (0 - 0) + 0 / 1 * 0) * ((1 + 0 / 1) / 2 * (0 - 0) + 0 / 1 * 0)))) with 0 by field. apply sqrt_0. Qed.

(** C52  FM demodulation.  [argf] is an exact argument function; the input is r_t exp(i theta_t) with any positive
    amplitudes r_t and phase steps below half a turn. *)
Theorem C52_frequency (argf : C -> R) (x : nat -> C) (r theta : nat -> R) (bw : R) (p1 : R) (p2 : C) (t : nat) :
  is_arg argf -> bw <> 0 -> (forall k, 0 < r k) -> (forall k, x k = RtoC (r k) * cis (theta k))%C ->
  let phi := theta (S t) - theta t in Rabs phi < PI ->
  out (fmd1_step Rc argf) (fmd_bandwidth Rc (mkFmd p1 0) bw) x (S t) = phi / (PI * bw) /\
  out (fmd2_step Rc argf) (fmd_bandwidth Rc (mkFmd p2 0) bw) x (S t) = phi / (PI * bw) /\
  out (fmd3_step Rc argf) (fmd_bandwidth Rc (mkFmd p2 0) bw) x (S t) = phi / (PI * bw).
Proof.
  intros A B Hr Hx phi P. apply Rabs_def2 in P. pose proof PI_RGT_0 as PP. unfold out. rewrite fmd1_state, fmd2_state, fmd3_state, fmd_scale1, fmd_scale1.
  assert (Rp := Hr t). assert (Rq := Hr (S t)). split; [|split].
  - unfold fmd1_step. cbn [fst snd fm_prev fm_scale nmul nsub Rc]. rewrite !Hx.
    destruct (arg_cis argf (r t) (theta t) A Rp) as (A1 & A2 & A3). destruct (arg_cis argf (r (S t)) (theta (S t)) A Rq) as (B1 & B2 & B3).
    set (a := argf (RtoC (r (S t)) * cis (theta (S t)))%C) in *. set (b := argf (RtoC (r t) * cis (theta t))%C) in *. destruct (wrap_range (a - b) ltac:(lra)) as (W1 & W2 & W3).
    rewrite cos_minus, A2, A3, B2, B3, <- cos_minus in W2. rewrite sin_minus, A2, A3, B2, B3, <- sin_minus in W3. fold phi in W2, W3.
    rewrite (cis_unique _ phi W1 ltac:(lra) W2 W3). field. split; auto. lra.
  - unfold fmd2_step. cbn [fst snd fm_prev fm_scale nmul Rc]. assert (E : cdiv Rc (x (S t)) (x t) = (RtoC (r (S t) / r t) * cis phi)%C).
    { rewrite !Hx, !polar_eq. unfold phi. rewrite cos_minus, sin_minus. unfold cdiv, creal, cimag. cbn [fst snd nadd nsub nmul ndiv Rc].
      replace (r t * cos (theta t) * (r t * cos (theta t)) + r t * sin (theta t) * (r t * sin (theta t))) with (r t * r t * (Rsqr (sin (theta t)) + Rsqr (cos (theta t)))) by (unfold Rsqr; ring).
      rewrite sin2_cos2. f_equal; field; lra. }
    rewrite E, (arg_polar argf _ phi A) by (try lra; apply Rdiv_lt_0_compat; auto). field. split; auto; lra.
  - unfold fmd3_step. cbn [fst snd fm_prev fm_scale nmul Rc]. assert (E : cmul Rc (x (S t)) (cconj Rc (x t)) = (RtoC (r (S t) * r t) * cis phi)%C).
    { rewrite !Hx, !polar_eq. unfold phi. rewrite cos_minus, sin_minus. unfold cmul, cconj, creal, cimag. cbn [fst snd nadd nsub nmul nopp Rc]. f_equal; ring. }
    rewrite E, (arg_polar argf _ phi A) by (try lra; apply Rmult_lt_0_compat; auto). field. split; auto; lra.
Qed.
Print Assumptions C52_frequency.
(** C52  Without a call to atan2: FMD4 and FMD5 return sines of the phase step, for constant amplitude.  FMD4 has no
    memory beyond one sample, FMD5 averages two steps. *)
Theorem C52_sine (x : nat -> C) (r : R) (theta : nat -> R) (bw : R) (p : C) (q : C * C) (t : nat) :
  bw <> 0 -> 0 < r -> (forall k, x k = RtoC r * cis (theta k))%C ->
  out (fmd4_step Rc) (fmd_bandwidth Rc (mkFmd p 0) bw) x (S t) = sin (theta (S t) - theta t) / (PI * bw) /\
  out (fmd5_step Rc) (fmd5_bandwidth Rc (mkFmd q 0) bw) x (S (S t)) = (sin (theta (S (S t)) - theta (S t)) + sin (theta (S t) - theta t)) / 2 / (PI * bw).
Proof.
  intros B Hr Hx. pose proof PI_RGT_0 as PP. unfold out. rewrite fmd4_state, fmd5_state, fmd_scale1, fmd_scale5.
  assert (N : forall k, cnorm Rc (x k) = r * r).
  { intros k. rewrite Hx, polar_eq. unfold cnorm, creal, cimag. cbn [fst snd nadd nmul Rc]. replace (r * cos (theta k) * (r * cos (theta k)) + r * sin (theta k) * (r * sin (theta k))) with (r * r * (Rsqr (sin (theta k)) + Rsqr (cos (theta k)))) by (unfold Rsqr; ring). rewrite sin2_cos2. ring. }
  split.
  - unfold fmd4_step. cbn [fst snd fm_prev fm_scale nmul ndiv Rc]. rewrite N. unfold cross. rewrite !Hx, !polar_eq, sin_minus. unfold creal, cimag. cbn [fst snd nsub nmul Rc]. field. repeat split; auto; lra.
  - unfold fmd5_step. cbn [fst snd fm_prev fm_scale nmul ndiv Rc]. rewrite N. unfold cross, csub. rewrite !Hx, !polar_eq, !sin_minus. unfold creal, cimag. cbn [fst snd nsub nmul Rc]. field. repeat split; auto; lra.
Qed.
Print Assumptions C52_sine.
(** C52  For a constant phase step FMD1 to FMD3 return phi/(pi bw), FMD4 and FMD5 sin(phi)/(pi bw). *)
Theorem C52_tone (argf : C -> R) (r a phi bw : R) (t : nat) : is_arg argf -> bw <> 0 -> 0 < r -> Rabs phi < PI ->
  let x k := (RtoC r * cis (a + INR k * phi))%C in
  out (fmd1_step Rc argf) (fmd_bandwidth Rc (fmd1_new Rc) bw) x (S t) = phi / (PI * bw) /\
  out (fmd2_step Rc argf) (fmd_bandwidth Rc (fmd_new Rc) bw) x (S t) = phi / (PI * bw) /\
  out (fmd3_step Rc argf) (fmd_bandwidth Rc (fmd_new Rc) bw) x (S t) = phi / (PI * bw) /\
  out (fmd4_step Rc) (fmd_bandwidth Rc (fmd_new Rc) bw) x (S t) = sin phi / (PI * bw) /\
  out (fmd5_step Rc) (fmd5_bandwidth Rc (fmd5_new Rc) bw) x (S (S t)) = sin phi / (PI * bw).
Proof.
  intros A B Hr P x. assert (E : forall k, (a + INR (S k) * phi) - (a + INR k * phi) = phi) by (intros k; rewrite S_INR; ring).
  destruct (C52_frequency argf x (fun _ => r) (fun k => a + INR k * phi) bw 0 (RtoC 1) t A B) as (F1 & F2 & F3); auto; [cbv beta; rewrite E; auto|].
  destruct (C52_sine x r (fun k => a + INR k * phi) bw (RtoC 1) (RtoC 1, RtoC 1) t B Hr) as (G1 & G2); auto. cbv beta in *. rewrite !E in *.
  split; [exact F1|]. split; [exact F2|]. split; [exact F3|]. split; [exact G1|]. etransitivity; [exact G2|]. f_equal. field.
Qed.
Print Assumptions C52_tone.
(** C52  FMD1's output lies in [-1/bw, 1/bw] for every input without zeros. *)
Theorem C52_bounded (argf : C -> R) (x : nat -> C) (bw : R) (t : nat) : is_arg argf -> 0 < bw -> (forall k, x k <> 0%C) ->
  Rabs (out (fmd1_step Rc argf) (fmd_bandwidth Rc (fmd1_new Rc) bw) x t) <= 1 / bw.
Proof.
  intros A B Hx. pose proof PI_RGT_0 as PP. assert (S : exists p, - PI < p <= PI /\ state_at (fmd1_step Rc argf) (fmd_bandwidth Rc (fmd1_new Rc) bw) x t = mkFmd p (1 / (bw * PI))).
  { destruct t as [|t]; [exists 0; split; [lra|]; unfold fmd_bandwidth; rewrite pi_rc; reflexivity|]. exists (argf (x t)). rewrite fmd1_state, fmd_scale1. split; [apply (A _ (Hx t))|reflexivity]. }
  destruct S as (p & Hp & S). unfold out. rewrite S. unfold fmd1_step. cbn [fst snd fm_prev fm_scale nmul nsub Rc]. destruct (A _ (Hx t)) as (Ha & _).
  destruct (wrap_range (argf (x t) - p) ltac:(lra)) as (W & _). set (w := wrap_around Rc _) in *. rewrite Rabs_mult, (Rabs_pos_eq (1 / _)) by (apply Rlt_le, Rdiv_lt_0_compat; nra).
  assert (Rabs w <= PI) by (apply Rabs_le; lra). apply Rle_trans with (1 / (bw * PI) * PI); [apply Rmult_le_compat_l; [apply Rlt_le, Rdiv_lt_0_compat; nra|auto]|]. right. field. lra.
Qed.
Print Assumptions C52_bounded.
(** an exact argument function exists *)
Example C52_arg_exists : exists argf, is_arg argf.
Proof.
  assert (E : forall z : C, {t | z <> 0%C -> angle_of (fst z) (snd z) t}); [|exists (fun z => proj1_sig (E z)); intros z Hz; apply (proj2_sig (E z) Hz)].
  intros [u v]. cbn [fst snd]. pose proof PI_RGT_0. destruct (total_order_T u 0) as [[L| ->]|L].
  - pose proof (atan_polar (- u) (- v) ltac:(lra)) as Q. destruct (Rle_dec 0 v) as [V|V].
    + exists (Ratan.atan (- v / - u) + PI). intros _. pose proof (angle_turn _ _ _ Q) as T. rewrite !Ropp_involutive in T. apply T; auto.
      pose proof (atan_bound (- v / - u)). assert (Ratan.atan (- v / - u) <= 0).
      { rewrite <- atan_0. destruct (Req_dec (- v / - u) 0) as [->|Z]; [lra|]. apply Rlt_le, atan_increasing. assert (- v / - u <= 0); [|lra]. unfold Rdiv. pose proof (Rinv_0_lt_compat (- u) ltac:(lra)). nra. }
      lra.
    + exists (Ratan.atan (- v / - u) - PI). intros _. pose proof (angle_turn _ _ _ Q) as T. rewrite !Ropp_involutive in T. apply T; auto.
      pose proof (atan_bound (- v / - u)). assert (0 < Ratan.atan (- v / - u)).
      { rewrite <- atan_0. apply atan_increasing. apply Rdiv_lt_0_compat; lra. }
      lra.
  - destruct (total_order_T v 0) as [[V| ->]|V].
    + exists (- (PI / 2)). intros _. pose proof (angle_polar (- v) (- (PI / 2)) ltac:(lra) ltac:(lra)) as Q. rewrite cos_neg, cos_PI2, sin_neg, sin_PI2 in Q.
      replace (- v * 0) with 0 in Q by ring. replace (- v * - (1)) with v in Q by ring. exact Q.
    + exists 0. intros H0. exfalso. apply H0. reflexivity.
    + exists (PI / 2). intros _. pose proof (angle_polar v (PI / 2) ltac:(lra) ltac:(lra)) as Q. rewrite cos_PI2, sin_PI2 in Q.
      replace (v * 0) with 0 in Q by ring. replace (v * 1) with v in Q by ring. exact Q.
  - exists (Ratan.atan (v / u)). intros _. apply atan_polar. lra.
Qed.
