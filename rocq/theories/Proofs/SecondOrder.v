(* Second order linear recurrences: decay and boundedness from the coefficient conditions *)
From Coq Require Import Reals Lra Lia.
From Coquelicot Require Import Coquelicot.
Open Scope R_scope.

(** the stability triangle *)
Definition jury (a1 a2 : R) : Prop := Rabs a2 < 1 /\ Rabs a1 < 1 + a2.

Lemma sq0 x : 0 <= x * x. Proof. apply Rle_0_sqr. Qed.
Lemma sq2 x y : 0 <= x * x + y * y. Proof. pose proof (sq0 x). pose proof (sq0 y). lra. Qed.
Ltac pos := repeat first [apply sq2|apply sq0|apply Rmult_le_pos]; try lra.
Section SO.
Context (a1 a2 : R) (J : jury a1 a2).

Lemma jury_ineq : -1 < a2 < 1 /\ - (1 + a2) < a1 < 1 + a2.
Proof. destruct J as [A B]. apply Rabs_def2 in A, B. lra. Qed.

(** Lyapunov function of (y1, y2) -> (-a1 y1 - a2 y2, y1) *)
Definition V (p q : R) : R := (1 + a2) * (p * p + q * q) + 2 * a1 * p * q.
Definition lam : R := 1 + a2 - Rabs a1.
Lemma lam_pos : 0 < lam. Proof. destruct J. unfold lam. lra. Qed.
Lemma V_lower p q : lam * (p * p + q * q) <= V p q.
Proof.
  unfold lam, V. pose proof jury_ineq. 
  assert (H1 : - (Rabs a1 * (p * p + q * q)) <= 2 * a1 * p * q).
  { pose proof (Rle_abs a1). pose proof (Rle_abs (- a1)) as H'. rewrite Rabs_Ropp in H'. pose proof (Rabs_pos a1).
    assert (0 <= (Rabs a1 - a1) * ((p - q) * (p - q))) by pos.
    assert (0 <= (Rabs a1 + a1) * ((p + q) * (p + q))) by pos. nra. }
  lra.
Qed.
Lemma V_pos p q : 0 <= V p q.
Proof. pose proof (V_lower p q). pose proof lam_pos. assert (0 <= lam * (p * p + q * q)) by pos. lra. Qed.
Lemma V_upper p q : V p q <= 4 * (p * p + q * q).
Proof.
  unfold V. pose proof jury_ineq as [A B].
  assert (2 * a1 * p * q <= 2 * (p * p + q * q)).
  { assert (0 <= (2 - a1) * (p * p + q * q)) by pos. assert (0 <= (2 + a1) * (p * p + q * q)) by pos. 
    destruct (Rle_dec 0 a1); [assert (0 <= a1 * ((p - q) * (p - q))) by pos|assert (0 <= - a1 * ((p + q) * (p + q))) by pos]; nra. }
  assert (0 <= (1 - a2) * (p * p + q * q)) by pos. lra.
Qed.

Definition D : R := (1 + a2) * (1 + a2) - a1 * a1.
Lemma D_pos : 0 < D <= 4.
Proof. unfold D. pose proof jury_ineq. split; nra. Qed.
Definition kap : R := 1 - (1 - a2) * (D * D) / 112.
Lemma kap_range : 0 <= kap < 1.
Proof.
  unfold kap. pose proof D_pos. pose proof jury_ineq as [A B].
  assert (0 < (1 - a2) * (D * D)) by (apply Rmult_lt_0_compat; nra).
  assert ((1 - a2) * (D * D) <= 2 * 16) by (apply Rmult_le_compat; nra). lra.
Qed.

Lemma V_two_steps p q : let r := - a1 * p - a2 * q in V (- a1 * r - a2 * p) r <= kap * V p q.
Proof.
  intros r. set (w := (1 + a2) * q + a1 * p). set (w' := (1 + a2) * p + a1 * r).
  assert (E : V (- a1 * r - a2 * p) r = V p q - (1 - a2) * (w * w + w' * w')) by (unfold V, w, w', r; ring).
  assert (E1 : D * p = a1 * a2 * w + (1 + a2) * w') by (unfold D, w, w', r; ring).
  assert (E2 : D * q = (1 + a2 - a1 * a1) * w - a1 * w') by (unfold D, w, w', r; ring).
  pose proof jury_ineq as [A B].
  assert (CS : forall a b x y, (a * x + b * y) * (a * x + b * y) <= (a * a + b * b) * (x * x + y * y)).
  { intros a b x y. pose proof (sq0 (a * y - b * x)). lra. }
  assert (S0 : 0 <= w * w + w' * w') by pos.
  assert (P1 : D * p * (D * p) <= 8 * (w * w + w' * w')).
  { rewrite E1. eapply Rle_trans; [apply CS|]. apply Rmult_le_compat_r; auto.
    assert (a1 * a2 * (a1 * a2) <= 4). { replace (a1 * a2 * (a1 * a2)) with ((a1 * a1) * (a2 * a2)) by ring. assert (a1 * a1 <= 4) by nra. assert (a2 * a2 <= 1) by nra. nra. }
    nra. }
  assert (P2 : D * q * (D * q) <= 20 * (w * w + w' * w')).
  { rewrite E2. replace ((1 + a2 - a1 * a1) * w - a1 * w') with ((1 + a2 - a1 * a1) * w + (- a1) * w') by ring.
    eapply Rle_trans; [apply CS|]. apply Rmult_le_compat_r; auto.
    assert (-2 <= 1 + a2 - a1 * a1 <= 2).
    { assert (a1 * a1 <= (1 + a2) * (1 + a2)) by nra. split; nra. }
    nra. }
  assert (U := V_upper p q).
  assert (G : D * D * V p q <= 112 * (w * w + w' * w')).
  { apply Rle_trans with (D * D * (4 * (p * p + q * q))); [apply Rmult_le_compat_l; nra|]. lra. }
  rewrite E. unfold kap.
  assert ((1 - a2) * (D * D) / 112 * V p q <= (1 - a2) * (w * w + w' * w')); [|lra].
  replace ((1 - a2) * (D * D) / 112 * V p q) with ((1 - a2) * (D * D * V p q / 112)) by field. apply Rmult_le_compat_l; lra.
Qed.
Lemma V_one_step p q : V (- a1 * p - a2 * q) p <= V p q.
Proof.
  assert (E : V (- a1 * p - a2 * q) p = V p q - (1 - a2) * (((1 + a2) * q + a1 * p) * ((1 + a2) * q + a1 * p))) by (unfold V; ring).
  rewrite E. pose proof jury_ineq. assert (0 <= (1 - a2) * (((1 + a2) * q + a1 * p) * ((1 + a2) * q + a1 * p))) by pos. lra.
Qed.

(** solutions of the homogeneous equation vanish *)
Lemma homog_V e : (forall t, e (S (S t)) = - a1 * e (S t) - a2 * e t) -> forall k, V (e (S (2 * k))) (e (2 * k)%nat) <= kap ^ k * V (e 1%nat) (e O).
Proof.
  intros H k. induction k as [|k IH].
  - cbn. lra.
  - replace (2 * S k)%nat with (S (S (2 * k))) by lia. rewrite (H (S (2 * k))), (H (2 * k)%nat).
    eapply Rle_trans; [apply (V_two_steps (e (S (2 * k))) (e (2 * k)%nat))|].
    cbn [pow]. rewrite Rmult_assoc. apply Rmult_le_compat_l; [apply kap_range|]. auto.
Qed.
Lemma homog_bound e : (forall t, e (S (S t)) = - a1 * e (S t) - a2 * e t) -> forall t,
  lam * (e t * e t) <= kap ^ (t / 2) * V (e 1%nat) (e O).
Proof.
  intros H t. pose proof (homog_V e H (t / 2)) as B. pose proof (V_lower (e (S (2 * (t / 2)))) (e (2 * (t / 2))%nat)) as L. pose proof lam_pos.
  destruct (PeanoNat.Nat.Even_or_Odd t) as [[k ->]|[k ->]].
  - replace (2 * k / 2)%nat with k in * by (rewrite Nat.mul_comm, Nat.div_mul; lia).
    assert (0 <= lam * (e (S (2 * k)) * e (S (2 * k)))) by pos. lra.
  - replace ((2 * k + 1) / 2)%nat with k in * by (rewrite Nat.mul_comm, Nat.div_add_l by lia; cbn; lia).
    replace (2 * k + 1)%nat with (S (2 * k)) in * by lia. assert (0 <= lam * (e (2 * k)%nat * e (2 * k)%nat)) by pos. lra.
Qed.
Lemma is_lim_seq_half (u : nat -> R) l : is_lim_seq u l -> is_lim_seq (fun t => u (t / 2)%nat) l.
Proof.
  intros H. apply is_lim_seq_spec in H. apply is_lim_seq_spec. destruct l as [l| |]; intros M; destruct (H M) as [K HK]; exists (2 * K)%nat; intros n Hn; apply HK;
  apply Nat.div_le_lower_bound; lia.
Qed.
Lemma is_lim_sq_0 u : is_lim_seq (fun t => u t * u t) 0 -> is_lim_seq u 0.
Proof.
  intros H. apply is_lim_seq_spec in H. apply is_lim_seq_spec. intros eps. destruct (H (mkposreal (eps * eps) (Rmult_lt_0_compat _ _ (cond_pos eps) (cond_pos eps)))) as [K HK].
  exists K. intros n Hn. specialize (HK n Hn). cbn in HK. rewrite Rminus_0_r in *. apply Rsqr_lt_abs_0 in HK || idtac.
  destruct (Rlt_dec (Rabs (u n)) eps) as [|N]; auto. exfalso. rewrite Rabs_mult in HK. pose proof (cond_pos eps). nra.
Qed.
Lemma homog_lim e : (forall t, e (S (S t)) = - a1 * e (S t) - a2 * e t) -> is_lim_seq e 0.
Proof.
  intros H. apply is_lim_sq_0. pose proof kap_range as K. pose proof lam_pos as L.
  apply (is_lim_seq_le_le (fun _ => 0) _ (fun t => kap ^ (t / 2) * (V (e 1%nat) (e O) / lam))).
  - intros n. split; [nra|]. pose proof (homog_bound e H n) as B.
    apply (Rmult_le_reg_l lam); auto. replace (lam * (kap ^ (n / 2) * (V (e 1%nat) (e O) / lam))) with (kap ^ (n / 2) * V (e 1%nat) (e O)) by (field; lra). auto.
  - apply is_lim_seq_const.
  - replace (Finite 0) with (Rbar_mult 0 (V (e 1%nat) (e O) / lam)) by (cbn; f_equal; ring).
    apply is_lim_seq_scal_r. apply (is_lim_seq_half (fun t => kap ^ t)). apply is_lim_seq_geom. rewrite Rabs_pos_eq; lra.
Qed.

(** bounded forcing gives a bounded solution *)
Lemma V_sum eps p q p' q' : 0 < eps -> V (p + p') (q + q') <= (1 + eps) * V p q + (1 + / eps) * V p' q'.
Proof.
  intros He. assert (E : V (p + p') (q + q') = (1 + eps) * V p q + (1 + / eps) * V p' q' - / eps * V (eps * p - p') (eps * q - q')) by (unfold V; field; lra).
  rewrite E. assert (0 <= / eps * V (eps * p - p') (eps * q - q')); [|lra]. apply Rmult_le_pos; [apply Rlt_le, Rinv_0_lt_compat; auto|apply V_pos].
Qed.

Definition eps0 : R := (1 - kap) / (2 * (1 + kap)).
Definition theta : R := (1 + kap) / 2.
Definition gainB : R := (1 + / eps0) * 40 / (1 - theta) + 100.

Lemma forced_bound e u U : 0 <= U -> e O = 0 -> e 1%nat = 0 -> (forall t, e (S (S t)) = u t - a1 * e (S t) - a2 * e t) ->
  (forall t, Rabs (u t) <= U) -> forall t, lam * (e t * e t) <= gainB * (U * U).
Proof.
  intros U0 H0 H1 H HU. pose proof kap_range as K. pose proof jury_ineq as [A B].
  assert (Ee : 0 < eps0) by (unfold eps0; apply Rdiv_lt_0_compat; lra).
  assert (Th : 0 <= theta < 1) by (unfold theta; lra).
  assert (Et : (1 + eps0) * kap <= theta).
  { unfold eps0, theta. apply Rle_trans with (kap + (1 - kap) / 2); [|lra]. 
    replace ((1 + (1 - kap) / (2 * (1 + kap))) * kap) with (kap + (1 - kap) / 2 * (kap / (1 + kap))) by (field; lra).
    assert (kap / (1 + kap) <= 1) by (apply (Rmult_le_reg_r (1 + kap)); [lra|]; unfold Rdiv; rewrite Rmult_assoc, Rinv_l; lra). nra. }
  set (C := (1 + / eps0) * 40). assert (I0 : 0 < / eps0) by (apply Rinv_0_lt_compat; auto). assert (C0 : 0 <= C) by (unfold C; lra).
  assert (G : gainB = C / (1 - theta) + 100) by reflexivity.
  assert (G0 : 0 <= C / (1 - theta)) by (apply Rmult_le_pos; auto; apply Rlt_le, Rinv_0_lt_compat; lra).
  assert (Gt : theta * gainB + C <= gainB). { rewrite G. replace C with ((1 - theta) * (C / (1 - theta))) at 2 by (field; lra). nra. }
  assert (UU : 0 <= U * U) by nra.
  assert (Ub : forall t, - U <= u t <= U) by (intros t; specialize (HU t); apply Rabs_le_between; auto).
  assert (P : forall t, V (e (S t)) (e t) <= gainB * (U * U) /\ V (e (S (S t))) (e (S t)) <= gainB * (U * U)).
  { induction t as [|t [I1 I2]].
    - split.
      + rewrite H0, H1. unfold V. replace ((1 + a2) * (0 * 0 + 0 * 0) + 2 * a1 * 0 * 0) with 0 by ring. apply Rmult_le_pos; lra.
      + rewrite (H O), H0, H1. eapply Rle_trans; [apply V_upper|]. apply Rle_trans with (100 * (U * U)); [|apply Rmult_le_compat_r; lra].
        pose proof (Ub O). replace (u O - a1 * 0 - a2 * 0) with (u O) by ring. nra.
    - split; auto. set (p := e (S t)) in *. set (q := e t) in *. set (r := - a1 * p - a2 * q).
      assert (E2 : e (S (S t)) = r + u t) by (rewrite H; fold p q; unfold r; ring).
      assert (E3 : e (S (S (S t))) = (- a1 * r - a2 * p) + (u (S t) - a1 * u t)) by (rewrite (H (S t)), E2; fold p; unfold r; ring).
      rewrite E3, E2. eapply Rle_trans; [apply (V_sum eps0); auto|].
      assert (T : (1 + eps0) * V (- a1 * r - a2 * p) r <= theta * (gainB * (U * U))).
      { apply Rle_trans with ((1 + eps0) * (kap * V p q)); [apply Rmult_le_compat_l; [lra|apply V_two_steps]|].
        rewrite <- Rmult_assoc. apply Rmult_le_compat; auto; [|apply V_pos]. apply Rmult_le_pos; lra. }
      assert (F : (1 + / eps0) * V (u (S t) - a1 * u t) (u t) <= C * (U * U)).
      { unfold C. rewrite Rmult_assoc. apply Rmult_le_compat_l; [lra|]. eapply Rle_trans; [apply V_upper|].
        pose proof (Ub t). pose proof (Ub (S t)).
        assert (- (3 * U) <= u (S t) - a1 * u t <= 3 * U).
        { assert (- (2 * U) <= a1 * u t <= 2 * U) by (split; nra). lra. }
        assert ((u (S t) - a1 * u t) * (u (S t) - a1 * u t) <= 9 * (U * U)) by nra. assert (u t * u t <= U * U) by nra. lra. }
      apply Rle_trans with ((theta * gainB + C) * (U * U)); [lra|]. apply Rmult_le_compat_r; auto. }
  intros t. pose proof (V_lower (e (S t)) (e t)) as L. pose proof lam_pos. destruct (P t) as [Q _].
  assert (0 <= lam * (e (S t) * e (S t))) by pos. lra.
Qed.

(** vanishing forcing gives a vanishing solution *)
Lemma contract_lim (a b : nat -> R) th : 0 <= th < 1 -> (forall k, 0 <= a k) -> (forall k, a (S k) <= th * a k + b k) -> is_lim_seq b 0 -> is_lim_seq a 0.
Proof.
  intros Ht Ha H Hb. apply is_lim_seq_spec. intros eps. apply is_lim_seq_spec in Hb. pose proof (cond_pos eps) as E.
  assert (E2 : 0 < (1 - th) * (eps / 2)) by nra. destruct (Hb (mkposreal _ E2)) as [K HK]. cbn in HK.
  assert (P : forall j, a (K + j)%nat <= th ^ j * a K + eps / 2).
  { induction j as [|j IH]; [rewrite Nat.add_0_r; cbn; specialize (Ha K); lra|]. replace (K + S j)%nat with (S (K + j)) by lia.
    specialize (H (K + j)%nat). specialize (HK (K + j)%nat ltac:(lia)). rewrite Rminus_0_r in HK. apply Rabs_def2 in HK. cbn [pow].
    assert (th * a (K + j)%nat <= th * (th ^ j * a K + eps / 2)) by (apply Rmult_le_compat_l; lra). nra. }
  assert (G : is_lim_seq (fun j => th ^ j * a K) 0).
  { replace (Finite 0) with (Rbar_mult 0 (a K)) by (cbn; f_equal; ring). apply is_lim_seq_scal_r. apply is_lim_seq_geom. rewrite Rabs_pos_eq; lra. }
  apply is_lim_seq_spec in G. assert (E3 : 0 < eps / 2) by lra. destruct (G (mkposreal _ E3)) as [L HL]. cbn in HL.
  exists (K + L)%nat. intros n Hn. replace n with (K + (n - K))%nat by lia. specialize (P (n - K)%nat). specialize (HL (n - K)%nat ltac:(lia)).
  rewrite Rminus_0_r in *. apply Rabs_def2 in HL. rewrite Rabs_pos_eq by apply Ha. lra.
Qed.

Lemma forced_lim e u : (forall t, e (S (S t)) = u t - a1 * e (S t) - a2 * e t) -> is_lim_seq u 0 -> is_lim_seq e 0.
Proof.
  intros H Hu. pose proof kap_range as K. pose proof jury_ineq as [A B]. pose proof lam_pos as L.
  assert (Ee : 0 < eps0) by (unfold eps0; apply Rdiv_lt_0_compat; lra).
  assert (Th : 0 <= theta < 1) by (unfold theta; lra).
  assert (Et : (1 + eps0) * kap <= theta).
  { unfold eps0, theta. apply Rle_trans with (kap + (1 - kap) / 2); [|lra]. 
    replace ((1 + (1 - kap) / (2 * (1 + kap))) * kap) with (kap + (1 - kap) / 2 * (kap / (1 + kap))) by (field; lra).
    assert (kap / (1 + kap) <= 1) by (apply (Rmult_le_reg_r (1 + kap)); [lra|]; unfold Rdiv; rewrite Rmult_assoc, Rinv_l; lra). nra. }
  assert (I0 : 0 < / eps0) by (apply Rinv_0_lt_compat; auto).
  set (f := fun k => (1 + / eps0) * V (u (S (2 * k)) - a1 * u (2 * k)%nat) (u (2 * k)%nat)).
  assert (S1 : is_lim_seq (fun k => u (2 * k)%nat) 0) by (apply (is_lim_seq_subseq u _ (fun k => (2 * k)%nat)); auto; apply eventually_subseq; intros; lia).
  assert (S2 : is_lim_seq (fun k => u (S (2 * k))) 0) by (apply (is_lim_seq_subseq u _ (fun k => (S (2 * k))%nat)); auto; apply eventually_subseq; intros; lia).
  assert (F : is_lim_seq f 0).
  { assert (S3 : is_lim_seq (fun k => u (S (2 * k)) - a1 * u (2 * k)%nat) 0).
    { replace (Finite 0) with (Finite (0 - a1 * 0)) by (f_equal; ring). apply is_lim_seq_minus'; auto. apply is_lim_seq_mult'; auto. apply is_lim_seq_const. }
    unfold f, V. replace (Finite 0) with (Finite ((1 + / eps0) * ((1 + a2) * (0 * 0 + 0 * 0) + 2 * a1 * 0 * 0))) by (f_equal; ring).
    repeat first [apply is_lim_seq_const|assumption|apply is_lim_seq_plus'|apply is_lim_seq_mult']. }
  assert (VV : is_lim_seq (fun k => V (e (S (2 * k))) (e (2 * k)%nat)) 0).
  { apply (contract_lim _ f theta); auto; [intros; apply V_pos|]. intros k. replace (2 * S k)%nat with (S (S (2 * k))) by lia.
    set (p := e (S (2 * k))). set (q := e (2 * k)%nat). set (r := - a1 * p - a2 * q).
    assert (E2 : e (S (S (2 * k))) = r + u (2 * k)%nat) by (rewrite H; fold p q; unfold r; ring).
    assert (E3 : e (S (S (S (2 * k)))) = (- a1 * r - a2 * p) + (u (S (2 * k)) - a1 * u (2 * k)%nat)) by (rewrite (H (S (2 * k))), E2; fold p; unfold r; ring).
    rewrite E3, E2. eapply Rle_trans; [apply (V_sum eps0); auto|]. unfold f. apply Rplus_le_compat_r.
    apply Rle_trans with ((1 + eps0) * (kap * V p q)); [apply Rmult_le_compat_l; [lra|apply V_two_steps]|].
    rewrite <- Rmult_assoc. apply Rmult_le_compat_r; auto. apply V_pos. }
  apply is_lim_sq_0. apply (is_lim_seq_le_le (fun _ => 0) _ (fun t => / lam * V (e (S (2 * (t / 2)))) (e (2 * (t / 2))%nat))).
  - intros t. split; [apply sq0|]. pose proof (V_lower (e (S (2 * (t / 2)))) (e (2 * (t / 2))%nat)) as W.
    apply (Rmult_le_reg_l lam); auto. rewrite <- (Rmult_assoc lam (/ lam)), Rinv_r, Rmult_1_l by lra. eapply Rle_trans; [|apply W]. apply Rmult_le_compat_l; [lra|].
    destruct (PeanoNat.Nat.Even_or_Odd t) as [[k ->]|[k ->]].
    + replace (2 * k / 2)%nat with k by (rewrite Nat.mul_comm, Nat.div_mul; lia). pose proof (sq0 (e (S (2 * k)))). lra.
    + replace ((2 * k + 1) / 2)%nat with k by (rewrite Nat.mul_comm, Nat.div_add_l by lia; cbn; lia).
      replace (2 * k + 1)%nat with (S (2 * k)) by lia. pose proof (sq0 (e (2 * k)%nat)). lra.
  - apply is_lim_seq_const.
  - replace (Finite 0) with (Rbar_mult (/ lam) 0) by (cbn; f_equal; ring). apply is_lim_seq_scal_l.
    apply (is_lim_seq_half (fun k => V (e (S (2 * k))) (e (2 * k)%nat))). auto.
Qed.

(** roots of z^2 + a1 z + a2 *)
Lemma poles_inside (z : C) : (z * z + RtoC a1 * z + RtoC a2 = 0)%C -> Cmod z < 1.
Proof.
  destruct z as [p q]. intros H. injection H as H1 H2. cbn in H1, H2. pose proof jury_ineq as [A B].
  rewrite <- sqrt_1. unfold Cmod. cbn [fst snd]. apply sqrt_lt_1; try nra.
  destruct (Req_dec q 0) as [->|Q].
  - destruct (Rle_dec 1 (Rabs p)) as [P|P].
    + exfalso. destruct (Rle_dec 0 p) as [P0|P0].
      * rewrite Rabs_pos_eq in P by auto. nra.
      * rewrite Rabs_left in P by lra. nra.
    + assert (Rabs p < 1) by lra. apply Rabs_def2 in H. nra.
  - assert (2 * p + a1 = 0) by (apply (Rmult_eq_reg_r q); auto; lra). assert (a1 = - (2 * p)) by lra. subst a1. nra.
Qed.
End SO.
