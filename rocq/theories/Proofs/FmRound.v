(* Rounding errors of the FM demodulators *)
From Coq Require Import Reals ZArith Lia Lra List Psatz.
From Coquelicot Require Import Coquelicot.
From Flocq Require Import Core.
From Interval Require Import Tactic.
From Verif Require Proofs.AtRound.
From Verif Require Import Model.Demod Spec.Rounding Spec.Angle Spec.Dft Spec.ExactConst Proofs.BaseLemmas Proofs.SignalLemmas Proofs.ConstProofs Proofs.DemodProofs Proofs.CplxRound.
Open Scope R_scope.

(** the angle of a perturbed number *)
Lemma angle_near (z z' : C) (rho phi a eps : R) : 0 < rho -> z = (RtoC rho * cis phi)%C -> 0 < eps <= 1 / 100 -> Cmod (z' - z)%C <= eps * rho -> Rabs phi <= PI - 1.02 * eps ->
  angle_of (fst z') (snd z') a -> Rabs (a - phi) <= 1.02 * eps.
Proof.
  intros Hr Hz He Hd Hp Ha. pose proof PI_RGT_0 as PP. pose proof (Cmod_ge_0 (z' - z)%C).
  set (w := ((z' - z) * cis (- phi))%C). assert (Nc : forall t, Cmod (cis t) = 1). { intros t. unfold cis, Cmod. cbn [fst snd]. replace (cos t ^ 2 + sin t ^ 2) with (Rsqr (sin t) + Rsqr (cos t)) by (unfold Rsqr; ring). rewrite sin2_cos2. apply sqrt_1. }
  assert (W : Cmod w <= eps * rho) by (unfold w; rewrite Cmod_mult, Nc; lra).
  assert (W1 : Rabs (fst w) <= eps * rho /\ Rabs (snd w) <= eps * rho). { split; (eapply Rle_trans; [|exact W]); (eapply Rle_trans; [|apply Rmax_Cmod]); [apply Rmax_l|apply Rmax_r]. }
  destruct W1 as [W1 W2]. apply Rabs_le_inv in W1, W2.
  assert (er : 0 <= eps * rho <= 1 / 100 * rho) by (split; [apply Rmult_le_pos; lra|apply Rmult_le_compat_r; lra]).
  set (p := rho + fst w). set (q := snd w). assert (P0 : 0.99 * rho <= p) by (unfold p; lra).
  set (b := Ratan.atan (q / p)).
  assert (E1 : fst z' = p * cos phi - q * sin phi). { unfold p, q, w. rewrite Hz, polar_eq. unfold cis. destruct z' as [z1 z2]. cbn [fst snd Cmult Cminus Cplus Copp]. rewrite cos_neg, sin_neg. pose proof (sin2_cos2 phi) as S2. unfold Rsqr in S2.
    transitivity (z1 * (sin phi * sin phi + cos phi * cos phi) + rho * cos phi * (1 - (sin phi * sin phi + cos phi * cos phi))); [rewrite S2; ring|ring]. }
  assert (E2 : snd z' = p * sin phi + q * cos phi). { unfold p, q, w. rewrite Hz, polar_eq. unfold cis. destruct z' as [z1 z2]. cbn [fst snd Cmult Cminus Cplus Copp]. rewrite cos_neg, sin_neg. pose proof (sin2_cos2 phi) as S2. unfold Rsqr in S2.
    transitivity (z2 * (sin phi * sin phi + cos phi * cos phi) + rho * sin phi * (1 - (sin phi * sin phi + cos phi * cos phi))); [rewrite S2; ring|ring]. }
  assert (B : Rabs b <= 1.011 * eps).
  { apply Rle_trans with (Rabs (q / p)).
    - pose proof (AtRound.atan_lip (q / p) 0) as L. rewrite atan_0, !Rminus_0_r in L. exact L.
    - rewrite Rabs_div, (Rabs_pos_eq p) by lra. apply (Rmult_le_reg_r p); [lra|]. replace (Rabs q / p * p) with (Rabs q) by (field; lra).
      apply Rle_trans with (eps * rho); [apply Rabs_le; unfold q; lra|]. apply Rle_trans with (1.011 * eps * (0.99 * rho)); [|apply Rmult_le_compat_l; lra]. replace (1.011 * eps * (0.99 * rho)) with (1.00089 * (eps * rho)) by lra. lra. }
  set (m := p / cos b). assert (Cb : 0 < cos b) by (unfold b; pose proof (atan_bound (q / p)); apply cos_gt_0; lra).
  assert (M0 : 0 < m) by (apply Rdiv_lt_0_compat; lra).
  assert (Mc : m * cos b = p) by (unfold m; field; lra). assert (Ms : m * sin b = q). { assert (T : tan b = q / p) by (unfold b; apply tan_atan). unfold tan in T. unfold m. replace (p / cos b * sin b) with (p * (sin b / cos b)) by (field; lra). rewrite T. field. lra. }
  assert (F1 : fst z' = m * cos (phi + b)) by (rewrite E1, cos_plus, <- Mc, <- Ms; ring). assert (F2 : snd z' = m * sin (phi + b)) by (rewrite E2, sin_plus, <- Mc, <- Ms; ring).
  destruct Ha as (A1 & A2 & A3). rewrite F1, F2 in A2, A3. rewrite polar_mod in A2, A3 by lra.
  apply Rmult_eq_reg_l in A2; [|lra]. apply Rmult_eq_reg_l in A3; [|lra].
  assert (Rg : - PI < phi + b < PI) by (apply Rabs_le_inv in B, Hp; lra).
  rewrite (cis_unique a (phi + b)); [|lra|lra|lra|lra]. replace (phi + b - phi) with b by ring. lra.
Qed.

Section Fm.
Context (u : R) (rnd : R -> R) (HR : rounding u 0 rnd) (Hu : 1e-20 <= u <= 1e-6).
Lemma rel x : exists h, Rabs h <= u /\ rnd x = x * (1 + h).
Proof.
  destruct (Req_dec x 0) as [->|Z].
  - exists 0. rewrite Rabs_R0. split; [lra|]. pose proof (HR 0) as E. rewrite Rabs_R0, Rmult_0_r, Rplus_0_r, Rminus_0_r in E. pose proof (Rabs_pos (rnd 0)). rewrite Rmult_0_l. destruct (Req_dec (rnd 0) 0); auto. apply Rabs_no_R0 in H0. lra.
  - exists ((rnd x - x) / x). split; [|field; auto]. unfold Rdiv. rewrite Rabs_mult, Rabs_inv. pose proof (HR x) as E. pose proof (Rabs_pos_lt x Z). apply (Rmult_le_reg_r (Rabs x)); auto. rewrite Rmult_assoc, Rinv_l, Rmult_1_r by lra. lra.
Qed.
Lemma mul2 a b A B : Rabs a <= A * u -> Rabs b <= B * u -> 0 <= A -> 0 <= B <= 100 -> exists c, (1 + a) * (1 + b) = 1 + c /\ Rabs c <= (A + B + 1e-4 * A) * u.
Proof.
  intros Ha Hb HA HB. exists (a + b + a * b). split; [ring|]. eapply Rle_trans; [apply Rabs_triang|]. eapply Rle_trans; [apply Rplus_le_compat_r, Rabs_triang|]. rewrite Rabs_mult.
  assert (Rabs a * Rabs b <= A * u * (100 * 1e-6)). { apply Rmult_le_compat; try apply Rabs_pos; auto. eapply Rle_trans; [exact Hb|]. apply Rmult_le_compat; lra. } lra.
Qed.
(** the reciprocal of the bandwidth *)
Lemma scale_round bw P c : bw <> 0 -> 0 < c -> Rabs (P - c) <= 1.01 * u * c -> exists g, rnd (1 / rnd (bw * P)) = 1 / (bw * c) * (1 + g) /\ Rabs g <= 3.1 * u.
Proof.
  intros B0 C0 HP. destruct (rel (bw * P)) as (h1 & H1 & ->). destruct (rel (1 / (bw * P * (1 + h1)))) as (h2 & H2 & ->).
  set (h := (P - c) / c). assert (Hh : Rabs h <= 1.01 * u). { unfold h. rewrite Rabs_div, (Rabs_pos_eq c) by lra. apply (Rmult_le_reg_r c); auto. replace (Rabs (P - c) / c * c) with (Rabs (P - c)) by (field; lra). lra. }
  replace P with (c * (1 + h)) by (unfold h; field; lra). destruct (mul2 h h1 1.01 1 Hh ltac:(lra) ltac:(lra) ltac:(lra)) as (D & ED & HD).
  assert (D1 : Rabs D <= 2.02 * u) by lra. assert (Dp : 0.99 <= 1 + D) by (apply Rabs_le_inv in D1; lra).
  exists ((1 + h2) / (1 + D) - 1). split.
  - replace (bw * (c * (1 + h)) * (1 + h1)) with (bw * c * (1 + D)) by (rewrite <- ED; ring). field. repeat split; lra.
  - replace ((1 + h2) / (1 + D) - 1) with ((h2 - D) / (1 + D)) by (field; lra). rewrite Rabs_div, (Rabs_pos_eq (1 + D)) by lra. apply (Rmult_le_reg_r (1 + D)); [lra|]. replace (Rabs (h2 - D) / (1 + D) * (1 + D)) with (Rabs (h2 - D)) by (field; lra).
    replace (h2 - D) with (h2 + - D) by ring. eapply Rle_trans; [apply Rabs_triang|]. rewrite Rabs_Ropp. apply Rle_trans with (3.02 * u); [lra|]. apply Rle_trans with (3.1 * u * 0.99); [lra|]. apply Rmult_le_compat_l; lra.
Qed.
Lemma final_round bw P c ph phi E : bw <> 0 -> 0 < c -> Rabs (P - c) <= 1.01 * u * c -> Rabs (ph - phi) <= E ->
  Rabs (rnd (rnd (1 / rnd (bw * P)) * ph) - phi / (bw * c)) <= (1.001 * E + 4.2 * u * Rabs phi) / (Rabs bw * c).
Proof.
  intros B0 C0 HP HE. destruct (scale_round bw P c B0 C0 HP) as (g & -> & Hg). destruct (rel (1 / (bw * c) * (1 + g) * ph)) as (h & Hh & ->).
  destruct (mul2 g h 3.1 1 ltac:(lra) ltac:(lra) ltac:(lra) ltac:(lra)) as (k & Ek & Hk). assert (Hk' : Rabs k <= 4.11 * u) by lra.
  replace (1 / (bw * c) * (1 + g) * ph * (1 + h) - phi / (bw * c)) with ((ph - phi + k * ph) / (bw * c)) by (replace (1 / (bw * c) * (1 + g) * ph * (1 + h)) with (1 / (bw * c) * ph * ((1 + g) * (1 + h))) by ring; rewrite Ek; field; split; lra).
  assert (Bc : bw * c <> 0) by (apply Rmult_integral_contrapositive_currified; lra). rewrite Rabs_div, Rabs_mult, (Rabs_pos_eq c) by lra. apply Rmult_le_compat_r; [apply Rlt_le, Rinv_0_lt_compat, Rmult_lt_0_compat; auto; apply Rabs_pos_lt; auto|].
  eapply Rle_trans; [apply Rabs_triang|]. rewrite Rabs_mult. assert (Rabs ph <= Rabs phi + E) by (replace ph with (phi + (ph - phi)) by ring; eapply Rle_trans; [apply Rabs_triang|]; lra).
  pose proof (Rabs_pos phi). pose proof (Rabs_pos (ph - phi)). assert (Rabs k * Rabs ph <= 4.11 * u * (Rabs phi + E)) by (apply Rmult_le_compat; try apply Rabs_pos; auto).
  assert (u * E <= 1e-6 * E) by (apply Rmult_le_compat_r; lra). assert (0 <= u * Rabs phi) by (apply Rmult_le_pos; lra). lra.
Qed.
Lemma pi_near : Rabs (Pi (Fn rnd) - PI) <= 1.01 * u * PI /\ Rabs (TwoPi (Fn rnd) - 2 * PI) <= 1.01 * u * (2 * PI).
Proof.
  unfold Pi, TwoPi. cbn [nlit Fn]. assert (P : Rabs (Pi_lit - PI) <= 1e-25) by (unfold Pi_lit; interval with (i_prec 140)). assert (Q : Rabs (TwoPi_lit - 2 * PI) <= 1e-25) by (unfold TwoPi_lit; interval with (i_prec 140)).
  assert (P3 : 3.1415 <= PI <= 3.1416) by (split; interval). apply Rabs_le_inv in P, Q.
  pose proof (HR Pi_lit) as E1. pose proof (HR TwoPi_lit) as E2. rewrite (Rabs_pos_eq Pi_lit) in E1 by lra. rewrite (Rabs_pos_eq TwoPi_lit) in E2 by lra. apply Rabs_le_inv in E1, E2.
  assert (u * Pi_lit <= u * (PI + 1e-25)) by (apply Rmult_le_compat_l; lra). assert (u * TwoPi_lit <= u * (2 * PI + 1e-25)) by (apply Rmult_le_compat_l; lra). assert (u * 3.1415 <= u * PI) by (apply Rmult_le_compat_l; lra).
  split; apply Rabs_le; lra.
Qed.

Definition approx_arg (argf : C -> R) (d : R) : Prop := forall z : C, z <> 0%C -> exists a, angle_of (fst z) (snd z) a /\ Rabs (argf z - a) <= d.

Section Sig.
Context (argf : C -> R) (d : R) (Hd : approx_arg argf d) (Hd0 : 0 <= d <= 0.1).
Lemma phase_near (z z' : C) rho phi eps : 0 < rho -> z = (RtoC rho * cis phi)%C -> 0 < eps <= 1 / 100 -> Cmod (z' - z)%C <= eps * rho -> Rabs phi <= PI - 1.02 * eps -> Rabs (argf z' - phi) <= d + 1.02 * eps.
Proof.
  intros H1 H2 H3 H4 H5. assert (Z : z' <> 0%C).
  { intros ->. assert (Cmod (0 - z)%C = rho). { replace (0 - z)%C with (- z)%C by ring. rewrite Cmod_opp, H2, polar_eq. unfold Cmod. cbn [fst snd]. rewrite <- (polar_mod rho phi) at 3 by lra. f_equal. ring. } nra. }
  destruct (Hd z' Z) as (a & A & B). pose proof (angle_near z z' rho phi a eps H1 H2 H3 H4 H5 A) as G. replace (argf z' - phi) with ((argf z' - a) + (a - phi)) by ring. eapply Rle_trans; [apply Rabs_triang|]. lra.
Qed.
Context (x : nat -> C) (r theta : nat -> R) (Hr : forall k, 0 < r k) (Hx : forall k, (x k = RtoC (r k) * cis (theta k))%C) (bw : R) (B0 : bw <> 0) (t : nat).
Let phi := theta (S t) - theta t.
Lemma st1 f : state_at (fmd1_step (Fn rnd) argf) f x (S t) = mkFmd (argf (x t)) (fm_scale f).
Proof. induction t as [|k IH]; [reflexivity|]. cbn [state_at] in *. rewrite IH. reflexivity. Qed.
Lemma st2 f : state_at (fmd2_step (Fn rnd) argf) f x (S t) = mkFmd (x t) (fm_scale f).
Proof. induction t as [|k IH]; [reflexivity|]. cbn [state_at] in *. rewrite IH. reflexivity. Qed.
Lemma st3 f : state_at (fmd3_step (Fn rnd) argf) f x (S t) = mkFmd (x t) (fm_scale f).
Proof. induction t as [|k IH]; [reflexivity|]. cbn [state_at] in *. rewrite IH. reflexivity. Qed.
Lemma st4 f : state_at (fmd4_step (Fn rnd)) f x (S t) = mkFmd (x t) (fm_scale f).
Proof. induction t as [|k IH]; [reflexivity|]. cbn [state_at] in *. rewrite IH. reflexivity. Qed.

Lemma cis_mul a b : (cis a * cis b)%C = cis (a + b). Proof. unfold cis, Cmult. cbn [fst snd]. rewrite cos_plus, sin_plus. f_equal; ring. Qed.
Lemma Cmod_polar a b : 0 < a -> Cmod (RtoC a * cis b)%C = a.
Proof. intros H. rewrite polar_eq. unfold Cmod. cbn [fst snd]. rewrite <- (polar_mod a b) at 3 by lra. f_equal. ring. Qed.
Lemma Cmod_cj z : Cmod (Cconj z) = Cmod z. Proof. unfold Cmod, Cconj. cbn [fst snd]. f_equal. ring. Qed.
Lemma fmd3_round (f : fmd R C) : Rabs phi <= PI - 3.1 * u ->
  Rabs (out (fmd3_step (Fn rnd) argf) (fmd_bandwidth (Fn rnd) f bw) x (S t) - phi / (bw * PI)) <= (1.001 * (d + 3.1 * u) + 4.2 * u * Rabs phi) / (Rabs bw * PI).
Proof.
  intros HP. unfold out. rewrite st3. unfold fmd3_step. cbn [fst snd fm_prev fm_scale fmd_bandwidth nmul ndiv n1 Fn]. apply final_round; auto; [apply PI_RGT_0|apply pi_near|].
  pose proof (Hr t). pose proof (Hr (S t)). set (z := (x (S t) * Cconj (x t))%C). assert (Z : z = (RtoC (r (S t) * r t) * cis phi)%C).
  { unfold z. rewrite !Hx. unfold phi. replace (theta (S t) - theta t) with (theta (S t) + - theta t) by ring. rewrite <- cis_mul. unfold cis, Cconj, Cmult, RtoC. cbn [fst snd]. rewrite cos_neg, sin_neg. f_equal; ring. }
  assert (M : Cmod (cmul (Fn rnd) (x (S t)) (cconj (Fn rnd) (x t)) - z)%C <= 3 * u * (r (S t) * r t)).
  { pose proof (mul_round u 0 rnd HR ltac:(lra) ltac:(lra) (x (S t)) (Cconj (x t))) as Q. rewrite Cmod_cj in Q. rewrite (Hx t), (Hx (S t)), !Cmod_polar in Q by auto. rewrite <- (Hx t), <- (Hx (S t)) in Q. unfold z. change (cconj (Fn rnd) (x t)) with (Cconj (x t)). lra. }
  eapply Rle_trans; [apply (phase_near z _ (r (S t) * r t) phi (3 * u)); auto; try lra; apply Rmult_lt_0_compat; auto|]. lra.
Qed.
Lemma fmd2_round (f : fmd R C) : Rabs phi <= PI - 8.2 * u ->
  Rabs (out (fmd2_step (Fn rnd) argf) (fmd_bandwidth (Fn rnd) f bw) x (S t) - phi / (bw * PI)) <= (1.001 * (d + 8.2 * u) + 4.2 * u * Rabs phi) / (Rabs bw * PI).
Proof.
  intros HP. unfold out. rewrite st2. unfold fmd2_step. cbn [fst snd fm_prev fm_scale fmd_bandwidth nmul ndiv n1 Fn]. apply final_round; auto; [apply PI_RGT_0|apply pi_near|].
  pose proof (Hr t) as R0. pose proof (Hr (S t)) as R1. set (z := (x (S t) / x t)%C). assert (Nz : x t <> 0%C) by (rewrite Hx; apply polar_nz; auto). assert (Z : z = (RtoC (r (S t) / r t) * cis phi)%C).
  { unfold z. assert (K : (x (S t) = RtoC (r (S t) / r t) * cis phi * x t)%C). { rewrite !Hx. unfold phi. replace (cis (theta (S t))) with (cis (theta (S t) - theta t + theta t)) by (f_equal; ring). rewrite <- cis_mul. replace (RtoC (r (S t))) with (RtoC (r (S t) / r t) * RtoC (r t))%C by (rewrite <- RtoC_mult; f_equal; field; lra). ring. } rewrite K at 1. field. auto. }
  assert (M : Cmod (cdiv (Fn rnd) (x (S t)) (x t) - z)%C <= 8 * u * (r (S t) / r t)).
  { pose proof (div_round u rnd HR ltac:(lra) (x (S t)) (x t) Nz) as Q. rewrite Cmod_div in Q by auto. rewrite (Hx t), (Hx (S t)), !Cmod_polar in Q by auto. rewrite <- (Hx t), <- (Hx (S t)) in Q. exact Q. }
  eapply Rle_trans; [apply (phase_near z _ (r (S t) / r t) phi (8 * u)); auto; try lra; apply Rdiv_lt_0_compat; auto|]. lra.
Qed.
Lemma fmd4_round (f : fmd R C) :
  Rabs (out (fmd4_step (Fn rnd)) (fmd_bandwidth (Fn rnd) f bw) x (S t) - r t / r (S t) * sin phi / (bw * PI)) <= 9.5 * u * (r t / r (S t)) / (Rabs bw * PI).
Proof.
  pose proof (Hr t) as R0. pose proof (Hr (S t)) as R1. pose proof PI_RGT_0 as PP. unfold out. rewrite st4. unfold fmd4_step. cbn [fst snd fm_prev fm_scale fmd_bandwidth nmul ndiv n1 Fn].
  set (rho := r t / r (S t)). assert (Rp : 0 < rho) by (apply Rdiv_lt_0_compat; auto). assert (MM : Rabs (sin phi) <= 1) by (apply Rabs_le; apply SIN_bound).
  assert (Q : Rabs (rnd (cross (Fn rnd) (x t) (x (S t)) / cnorm (Fn rnd) (x (S t))) - rho * sin phi) <= 5.2 * u * rho).
  { set (S0 := Cmod (x t) * Cmod (x (S t))). assert (M0 : Cmod (x t) = r t) by (rewrite Hx; apply Cmod_polar; auto). assert (M1 : Cmod (x (S t)) = r (S t)) by (rewrite Hx; apply Cmod_polar; auto).
    set (n := fst (x t) * snd (x (S t)) - snd (x t) * fst (x (S t))). assert (En : n = r t * r (S t) * sin phi) by (unfold n; rewrite !Hx, !polar_eq; cbn [fst snd]; unfold phi; rewrite sin_minus; ring).
    pose proof (norm_round u rnd HR ltac:(lra) (x (S t))) as Nr. rewrite M1 in Nr.
    assert (C1 : Rabs (cross (Fn rnd) (x t) (x (S t)) - n) <= 2.01 * u * S0).
    { pose proof (two u 0 rnd HR ltac:(lra) ltac:(lra) (-1) (fst (x t) * snd (x (S t))) (snd (x t) * fst (x (S t))) S0 ltac:(auto)) as W. unfold S0 in *. destruct (x t) as [a b], (x (S t)) as [c e]. cbn [fst snd] in *. specialize (W (cs' a b c e)).
      unfold cross, creal, cimag. cbn [fst snd nsub nmul Fn]. unfold n. replace (rnd (a * e) - rnd (b * c)) with (rnd (a * e) + -1 * rnd (b * c)) by ring. replace (a * e - b * c) with (a * e + -1 * (b * c)) by ring. lra. }
    assert (A : Rabs n <= S0) by (rewrite En; unfold S0; rewrite M0, M1, Rabs_mult, (Rabs_pos_eq (r t * r (S t))) by (apply Rmult_le_pos; lra); rewrite <- (Rmult_1_r (r t * r (S t))) at 2; apply Rmult_le_compat_l; auto; apply Rmult_le_pos; lra).
    pose proof (quot u rnd HR ltac:(lra) n (r (S t) ^ 2) _ _ S0 ltac:(apply pow_lt; auto) A C1 Nr) as G. replace (n / r (S t) ^ 2) with (rho * sin phi) in G by (rewrite En; unfold rho; field; lra). replace (S0 / r (S t) ^ 2) with rho in G by (unfold S0, rho; rewrite M0, M1; field; lra). exact G. }
  eapply Rle_trans; [apply final_round; auto; [apply pi_near|exact Q]|]. apply Rmult_le_compat_r; [apply Rlt_le, Rinv_0_lt_compat, Rmult_lt_0_compat; auto; apply Rabs_pos_lt; auto|].
  rewrite Rabs_mult, (Rabs_pos_eq rho) by lra. assert (U : 0 <= u * rho) by (apply Rmult_le_pos; lra). assert (u * (rho * Rabs (sin phi)) <= u * rho) by (rewrite <- Rmult_assoc; rewrite <- (Rmult_1_r (u * rho)) at 2; apply Rmult_le_compat_l; auto). lra.
Qed.
Lemma fmd1_round (f : fmd R R) : Rabs phi <= PI - (2 * d + 10 * u) ->
  Rabs (out (fmd1_step (Fn rnd) argf) (fmd_bandwidth (Fn rnd) f bw) x (S t) - phi / (bw * PI)) <= (1.001 * (2 * d + 16.5 * u) + 4.2 * u * Rabs phi) / (Rabs bw * PI).
Proof.
  intros HP. pose proof PI_RGT_0 as PP. unfold out. rewrite st1. unfold fmd1_step. cbn [fst snd fm_prev fm_scale fmd_bandwidth nmul ndiv nsub n1 Fn]. apply final_round; auto; [apply pi_near|].
  pose proof (Hr t) as R0. pose proof (Hr (S t)) as R1.
  assert (G : forall k, exists a, - PI < a <= PI /\ cos a = cos (theta k) /\ sin a = sin (theta k) /\ Rabs (argf (x k) - a) <= d).
  { intros k. destruct (Hd (x k)) as (a & (A1 & A2 & A3) & B); [rewrite Hx; apply polar_nz; auto|]. exists a. rewrite Hx, polar_eq in A2, A3. cbn [fst snd] in A2, A3. pose proof (Hr k). rewrite polar_mod in A2, A3 by lra.
    split; [auto|]. split; [apply (Rmult_eq_reg_l (r k)); lra|]. split; [apply (Rmult_eq_reg_l (r k)); lra|auto]. }
  destruct (G t) as (a0 & I0 & c0 & s0 & D0). destruct (G (S t)) as (a1 & I1 & c1 & s1 & D1). set (p0 := argf (x t)) in *. set (p1 := argf (x (S t))) in *.
  assert (W : wrap_around Rc (a1 - a0) = phi).
  { destruct (wrap_range (a1 - a0) ltac:(lra)) as (W1 & W2 & W3). rewrite cos_minus, c0, c1, s0, s1, <- cos_minus in W2. rewrite sin_minus, c0, c1, s0, s1, <- sin_minus in W3. fold phi in W2, W3. apply (cis_unique _ phi W1); auto. apply Rabs_le_inv in HP. lra. }
  destruct pi_near as [P1 P2]. unfold wrap_around in *. rewrite pi_rc, twopi_rc in W. cbn [nltb nopp nadd nsub Rc Fn] in *. set (Pf := Pi (Fn rnd)) in *. set (Tf := TwoPi (Fn rnd)) in *.
  assert (P3 : 3.1415 <= PI <= 3.1416) by (split; interval).
  apply Rabs_le_inv in P1, P2, D0, D1, HP.
  assert (PU : 0 <= u * PI <= 3.1416 * u) by (split; [apply Rmult_le_pos; lra|rewrite (Rmult_comm 3.1416); apply Rmult_le_compat_l; lra]).
  assert (E : Rabs (rnd (p1 - p0) - (a1 - a0)) <= 2 * d + 6.5 * u).
  { pose proof (HR (p1 - p0)) as H. assert (Rabs (p1 - p0) <= 6.5) by (apply Rabs_le; lra). assert (u * Rabs (p1 - p0) <= u * 6.5) by (apply Rmult_le_compat_l; lra).
    replace (rnd (p1 - p0) - (a1 - a0)) with ((rnd (p1 - p0) - (p1 - p0)) + ((p1 - p0) - (a1 - a0))) by ring. eapply Rle_trans; [apply Rabs_triang|]. assert (Rabs ((p1 - p0) - (a1 - a0)) <= 2 * d) by (apply Rabs_le; lra). lra. }
  set (dl := rnd (p1 - p0)) in *. apply Rabs_le_inv in E.
  assert (F : forall y, Rabs (y - phi) <= 2 * d + 12.9 * u -> Rabs (rnd y - phi) <= 2 * d + 16.5 * u).
  { intros y Hy. pose proof (HR y) as H. assert (Rabs y <= 3.5) by (apply Rabs_le_inv in Hy; apply Rabs_le; lra). assert (u * Rabs y <= u * 3.5) by (apply Rmult_le_compat_l; lra). replace (rnd y - phi) with ((rnd y - y) + (y - phi)) by ring. eapply Rle_trans; [apply Rabs_triang|]. lra. }
  destruct (Rlt_bool_spec (a1 - a0) (- PI)) as [L|L]; [|destruct (Rlt_bool_spec PI (a1 - a0)) as [K|K]].
  - rewrite Rlt_bool_true by lra. apply F. apply Rabs_le. lra.
  - rewrite Rlt_bool_false by lra. rewrite Rlt_bool_true by lra. apply F. apply Rabs_le. lra.
  - rewrite Rlt_bool_false by lra. rewrite Rlt_bool_false by lra. apply Rabs_le. lra.
Qed.
Lemma st5 f : state_at (fmd5_step (Fn rnd)) f x (S (S t)) = mkFmd (x (S t), x t) (fm_scale f).
Proof.
  assert (P : forall s y, fmd5_step (Fn rnd) s y = (mkFmd (y, fst (fm_prev s)) (fm_scale s), snd (fmd5_step (Fn rnd) s y))) by (intros [[p1 p2] sc] y; reflexivity).
  assert (Q : forall t, exists p, state_at (fmd5_step (Fn rnd)) f x (S t) = mkFmd (x t, p) (fm_scale f)).
  { intros k. induction k as [|k [p IH]]; [cbn [state_at]; rewrite P; cbn [fst]; eexists; reflexivity|]. cbn [state_at] in *. rewrite IH, P. cbn [fst fm_scale]. eexists; reflexivity. }
  destruct (Q t) as [p E]. cbn [state_at] in *. rewrite E, P. reflexivity.
Qed.
Lemma cross_round (p v w : C) : Rabs (fst w - fst v) <= u * Rabs (fst v) -> Rabs (snd w - snd v) <= u * Rabs (snd v) ->
  Rabs (cross (Fn rnd) p w - (fst p * snd v - snd p * fst v)) <= 3.02 * u * (Cmod p * Cmod v).
Proof.
  intros W1 W2. destruct p as [a b], v as [v1 v2], w as [w1 w2]. cbn [fst snd] in *. pose proof (cs' a b v1 v2) as CS. set (S0 := Cmod (a, b) * Cmod (v1, v2)) in *.
  assert (N1 : Rabs w1 <= (1 + u) * Rabs v1) by (replace w1 with (v1 + (w1 - v1)) by ring; eapply Rle_trans; [apply Rabs_triang|]; lra). assert (N2 : Rabs w2 <= (1 + u) * Rabs v2) by (replace w2 with (v2 + (w2 - v2)) by ring; eapply Rle_trans; [apply Rabs_triang|]; lra).
  rewrite !Rabs_mult in CS. pose proof (Rabs_pos a). pose proof (Rabs_pos b). pose proof (Rabs_pos v1). pose proof (Rabs_pos v2).
  assert (A1 : Rabs a * Rabs w2 <= Rabs a * ((1 + u) * Rabs v2)) by (apply Rmult_le_compat_l; lra). assert (A2 : Rabs b * Rabs w1 <= Rabs b * ((1 + u) * Rabs v1)) by (apply Rmult_le_compat_l; lra).
  assert (S1 : Rabs (a * w2) + Rabs (b * w1) <= (1 + u) * S0). { rewrite !Rabs_mult. apply Rle_trans with ((1 + u) * (Rabs a * Rabs v2 + Rabs b * Rabs v1)); [lra|apply Rmult_le_compat_l; lra]. }
  pose proof (two u 0 rnd HR ltac:(lra) ltac:(lra) (-1) (a * w2) (b * w1) ((1 + u) * S0) ltac:(auto) S1) as W. unfold cross, creal, cimag. cbn [fst snd nsub nmul Fn].
  replace (rnd (a * w2) - rnd (b * w1)) with (rnd (a * w2) + -1 * rnd (b * w1)) by ring.
  replace (rnd (rnd (a * w2) + -1 * rnd (b * w1)) - (a * v2 - b * v1)) with ((rnd (rnd (a * w2) + -1 * rnd (b * w1)) - (a * w2 + -1 * (b * w1))) + (a * (w2 - v2) + - (b * (w1 - v1)))) by ring.
  eapply Rle_trans; [apply Rabs_triang|]. assert (X : Rabs (a * (w2 - v2) + - (b * (w1 - v1))) <= u * S0).
  { eapply Rle_trans; [apply Rabs_triang|]. rewrite Rabs_Ropp, !Rabs_mult. assert (Rabs a * Rabs (w2 - v2) <= Rabs a * (u * Rabs v2)) by (apply Rmult_le_compat_l; lra). assert (Rabs b * Rabs (w1 - v1) <= Rabs b * (u * Rabs v1)) by (apply Rmult_le_compat_l; lra).
    apply Rle_trans with (u * (Rabs a * Rabs v2 + Rabs b * Rabs v1)); [lra|apply Rmult_le_compat_l; lra]. }
  assert (S00 : 0 <= S0). { assert (0 <= Rabs a * Rabs v2) by (apply Rmult_le_pos; lra). assert (0 <= Rabs b * Rabs v1) by (apply Rmult_le_pos; lra). lra. }
  assert (Us : 0 <= u * S0) by (apply Rmult_le_pos; lra). assert (u * (u * S0) <= 1e-6 * (u * S0)) by (apply Rmult_le_compat_r; lra). lra.
Qed.
Lemma fmd5_round (f : fmd R (C * C)) : r t = r (S t) -> r (S (S t)) = r (S t) ->
  let s := sin (theta (S (S t)) - theta (S t)) + sin (theta (S t) - theta t) in
  Rabs (out (fmd5_step (Fn rnd)) (fmd5_bandwidth (Fn rnd) f bw) x (S (S t)) - s / (bw * (2 * PI))) <= 24.5 * u / (Rabs bw * (2 * PI)).
Proof.
  intros Q0 Q2 s. pose proof (Hr (S t)) as R1. pose proof PI_RGT_0 as PP. unfold out. rewrite st5. unfold fmd5_step. cbn [fst snd fm_prev fm_scale fmd5_bandwidth nmul ndiv n1 Fn].
  assert (MM : Rabs s <= 2). { unfold s. pose proof (SIN_bound (theta (S (S t)) - theta (S t))). pose proof (SIN_bound (theta (S t) - theta t)). apply Rabs_le. lra. }
  assert (Q : Rabs (rnd (cross (Fn rnd) (x (S t)) (csub (Fn rnd) (x (S (S t))) (x t)) / cnorm (Fn rnd) (x (S t))) - s) <= 15.8 * u).
  { set (v := (x (S (S t)) - x t)%C). assert (M1 : Cmod (x (S t)) = r (S t)) by (rewrite Hx; apply Cmod_polar; auto).
    assert (Mv : Cmod v <= 2 * r (S t)). { unfold v. replace (x (S (S t)) - x t)%C with (x (S (S t)) + - x t)%C by ring. eapply Rle_trans; [apply Cmod_triangle|]. rewrite Cmod_opp, !Hx, !Cmod_polar by auto. lra. }
    set (n := fst (x (S t)) * snd v - snd (x (S t)) * fst v).
    assert (En : n = r (S t) ^ 2 * s). { unfold n, v, s. rewrite !Hx, !polar_eq. unfold Cminus, Cplus, Copp. cbn [fst snd]. rewrite Q0, Q2, !sin_minus. ring. }
    pose proof (norm_round u rnd HR ltac:(lra) (x (S t))) as Nr. rewrite M1 in Nr.
    assert (C1 : Rabs (cross (Fn rnd) (x (S t)) (csub (Fn rnd) (x (S (S t))) (x t)) - n) <= 3.02 * u * (Cmod (x (S t)) * Cmod v)).
    { apply cross_round; unfold v; destruct (x (S (S t))) as [y1 y2], (x t) as [z1 z2]; unfold csub, creal, cimag, Cminus, Cplus, Copp; cbn [fst snd nsub Fn]; [pose proof (HR (y1 - z1)) as G|pose proof (HR (y2 - z2)) as G]; unfold Rminus in *; lra. }
    set (P := 1.51 * (2 * r (S t) ^ 2)). assert (Sq : 0 < r (S t) ^ 2) by (apply pow_lt; auto).
    assert (PB : Cmod (x (S t)) * Cmod v <= 2 * r (S t) ^ 2). { rewrite M1. apply Rle_trans with (r (S t) * (2 * r (S t))); [apply Rmult_le_compat_l; lra|right; ring]. }
    assert (C2 : Rabs (cross (Fn rnd) (x (S t)) (csub (Fn rnd) (x (S (S t))) (x t)) - n) <= 2.01 * u * P). { eapply Rle_trans; [exact C1|]. apply Rle_trans with (3.02 * u * (2 * r (S t) ^ 2)); [apply Rmult_le_compat_l; lra|]. unfold P. assert (0 <= u * r (S t) ^ 2) by (apply Rmult_le_pos; lra). lra. }
    assert (A : Rabs n <= P). { rewrite En, Rabs_mult, (Rabs_pos_eq (r (S t) ^ 2)) by lra. unfold P. apply Rle_trans with (r (S t) ^ 2 * 2); [apply Rmult_le_compat_l; lra|lra]. }
    pose proof (quot u rnd HR ltac:(lra) n (r (S t) ^ 2) _ _ P Sq A C2 Nr) as G. replace (n / r (S t) ^ 2) with s in G by (rewrite En; field; lra). replace (P / r (S t) ^ 2) with 3.02 in G by (unfold P; apply (Rmult_eq_reg_r (r (S t) ^ 2)); [|lra]; replace (1.51 * (2 * r (S t) ^ 2) / r (S t) ^ 2 * r (S t) ^ 2) with (1.51 * (2 * r (S t) ^ 2)) by (field; lra); lra). lra. }
  assert (P2 : 0 < 2 * PI) by lra. eapply Rle_trans; [apply final_round; auto; [apply pi_near|exact Q]|]. apply Rmult_le_compat_r; [apply Rlt_le, Rinv_0_lt_compat, Rmult_lt_0_compat; auto; apply Rabs_pos_lt; auto|].
  assert (u * Rabs s <= u * 2) by (apply Rmult_le_compat_l; lra). lra.
Qed.
End Sig.
End Fm.
