(* Phasor: the phase error of the rounded oscillator grows at most linearly *)
From Coq Require Import Reals Lra Lia ZArith List.
From Coquelicot Require Import Coquelicot.
From Flocq Require Import Core Relative.
From Verif Require Import Proofs.BaseLemmas Model.Phasor Spec.Iir Spec.Dft Spec.Rounding Proofs.SignalLemmas Proofs.BiquadProofs Proofs.Butterworth Proofs.FftKernels Proofs.PhasorProofs.
Open Scope R_scope.

Lemma Cmod_dist_tri (a b c : C) : Cmod (a - c)%C <= Cmod (a - b)%C + Cmod (b - c)%C.
Proof. replace (a - c)%C with ((a - b) + (b - c))%C by ring. apply Cmod_triangle. Qed.
Lemma Cmod_sym (a b : C) : Cmod (a - b)%C = Cmod (b - a)%C.
Proof. replace (b - a)%C with (- (a - b))%C by ring. symmetry. apply Cmod_opp. Qed.
Lemma Cmod_diff (a b : C) : Rabs (Cmod a - Cmod b) <= Cmod (a - b)%C.
Proof.
  apply Rabs_le. split.
  - assert (Cmod b <= Cmod a + Cmod (a - b)%C); [|lra]. replace b with (a + - (a - b))%C at 1 by ring. eapply Rle_trans; [apply Cmod_triangle|]. rewrite Cmod_opp. lra.
  - assert (Cmod a <= Cmod b + Cmod (a - b)%C); [|lra]. replace a with (b + (a - b))%C at 1 by ring. apply Cmod_triangle.
Qed.
Lemma Rabs_sum_Cmod (a b : R) : Rabs a + Rabs b <= (142/100) * Cmod (a, b).
Proof.
  pose proof (Cmod_ge_0 (a, b)) as C0. set (w := Cmod (a, b)) in *.
  assert (W2 : Rabs a * Rabs a + Rabs b * Rabs b = w * w).
  { unfold w. rewrite Cmod_pair, sqrt_sqrt by nra. rewrite <- !Rabs_mult, !Rabs_pos_eq by nra. reflexivity. }
  pose proof (Rabs_pos a). pose proof (Rabs_pos b). apply Rsqr_incr_0_var; [|lra]. unfold Rsqr. clear - W2. pose proof (sq0' (Rabs a - Rabs b)). pose proof (sq0' w). lra.
Qed.

Section Rounded.
Context (u e : R) (rnd : R -> R) (H : rounding u e rnd) (Hu : 0 <= u <= 1/100) (He : 0 <= e <= u / 1000).
Lemma div_near (p q : R) : (3/10) <= Cmod (p, q) <= (25/10) ->
  Cmod (cdivr (Fn rnd) (p, q) (cabs (Fn rnd) (p, q)) - (p, q) / RtoC (Cmod (p, q)))%C <= 4 * u.
Proof.
  intros Hm. set (m := Cmod (p, q)) in *. assert (M2 : p * p + q * q = m * m).
  { unfold m. rewrite Cmod_pair. symmetry. apply sqrt_sqrt. nra. }
  unfold cabs, cnorm, cdivr, creal, cimag. cbn [fst snd Fn nsqrt nadd nmul ndiv].
  set (n := rnd (rnd (p * p) + rnd (q * q))).
  assert (Nb : m * m * (1 - (21/10) * u) <= n <= m * m * (1 + (21/10) * u)).
  { pose proof (rnd_pos u e rnd H (p * p) ltac:(nra)) as P1. pose proof (rnd_pos u e rnd H (q * q) ltac:(nra)) as Q1.
    set (s := rnd (p * p) + rnd (q * q)) in *. assert (S : m * m * (1 - u) - 2 * e <= s <= m * m * (1 + u) + 2 * e) by (unfold s; nra).
    assert (mm : (9/100) <= m * m) by nra. assert (e0 : e <= m * m * (u / 90)) by nra.
    assert (S0 : 0 <= s) by nra. pose proof (rnd_pos u e rnd H s S0) as N1. fold n in N1.
    assert (uu : u * u <= u / 100) by nra. assert (w : 0 <= m * m * u) by nra.
    split.
    - apply Rle_trans with ((m * m * (1 - u) - 2 * e) * (1 - u) - e); [|nra]. nra.
    - apply Rle_trans with ((m * m * (1 + u) + 2 * e) * (1 + u) + e); [nra|]. nra. }
  assert (Sb : m * (1 - (11/10) * u) <= sqrt n <= m * (1 + (11/10) * u)).
  { assert (m0 : 0 <= m) by lra. split.
    - rewrite <- (sqrt_square (m * (1 - (11/10) * u))) by nra. apply sqrt_le_1_alt. apply Rle_trans with (m * m * (1 - (21/10) * u)); [|lra].
      replace (m * (1 - (11/10) * u) * (m * (1 - (11/10) * u))) with (m * m * (1 - (22/10) * u + (121/100) * (u * u))) by field. apply Rmult_le_compat_l; [apply sq0'|nra].
    - rewrite <- (sqrt_square (m * (1 + (11/10) * u))) by nra. apply sqrt_le_1_alt. apply Rle_trans with (m * m * (1 + (21/10) * u)); [lra|].
      replace (m * (1 + (11/10) * u) * (m * (1 + (11/10) * u))) with (m * m * (1 + (22/10) * u + (121/100) * (u * u))) by field. apply Rmult_le_compat_l; [apply sq0'|nra]. }
  set (r := rnd (sqrt n)). pose proof (rnd_pos u e rnd H (sqrt n) (sqrt_pos n)) as Rb. fold r in Rb.
  assert (R1 : m * (1 - (22/10) * u) <= r <= m * (1 + (22/10) * u)).
  { assert (uu : u * u <= u / 100) by nra. assert (e0 : e <= m * (u / 300)) by nra. split; nra. }
  assert (r0 : 0 < r) by nra. set (v1 := p / r). set (v2 := q / r).
  assert (Vb : Rabs (m / r - 1) <= (23/10) * u).
  { assert (1 - (22/10) * u <= m / r <= 1 + (23/10) * u); [|apply Rabs_le; lra]. split; apply (Rmult_le_reg_r r); auto; replace (m / r * r) with m by (field; lra).
    - apply Rle_trans with ((1 - (22/10) * u) * (m * (1 + (22/10) * u))); [apply Rmult_le_compat_l; lra|]. nra.
    - apply Rle_trans with ((1 + (23/10) * u) * (m * (1 - (22/10) * u))); [|apply Rmult_le_compat_l; lra].
      replace ((1 + (23/10) * u) * (m * (1 - (22/10) * u))) with (m * (1 + (1/10) * u - (506/100) * (u * u))) by field. nra. }
  assert (U1 : Cmod ((p, q) / RtoC m)%C = 1).
  { rewrite Cmod_div by (intros E; apply RtoC_inj in E; lra). rewrite Cmod_R, Rabs_pos_eq by lra. fold m. field. lra. }
  assert (VE : ((v1, v2) : C) = (RtoC (m / r) * ((p, q) / RtoC m))%C).
  { unfold v1, v2. apply injective_projections; cbn; field; lra. }
  assert (V1 : Cmod ((v1, v2) - (p, q) / RtoC m)%C <= (23/10) * u).
  { rewrite VE. replace (RtoC (m / r) * ((p, q) / RtoC m) - (p, q) / RtoC m)%C with (RtoC (m / r - 1) * ((p, q) / RtoC m))%C by (rewrite RtoC_minus; ring).
    rewrite Cmod_mult, U1, Cmod_R, Rmult_1_r. auto. }
  assert (V2 : Cmod (v1, v2) <= 1 + (23/10) * u).
  { pose proof (Cmod_diff (v1, v2) ((p, q) / RtoC m)%C) as D. rewrite U1 in D. apply Rabs_le_inv in D. lra. }
  set (o := (rnd v1, rnd v2) : C). assert (O : Cmod (o - (v1, v2))%C <= (16/10) * u).
  { eapply Rle_trans; [apply Cmod_le_sum|]. cbn [fst snd o Cminus Cplus Copp]. pose proof (H v1) as A1. pose proof (H v2) as A2.
    pose proof (Rabs_sum_Cmod v1 v2) as B.
    change (Rabs (rnd v1 - v1) + Rabs (rnd v2 - v2) <= (16/10) * u). set (w := Cmod (v1, v2)) in *. clearbody w.
    assert (Bb : Rabs v1 + Rabs v2 <= (15/10)) by lra. apply Rle_trans with (u * (Rabs v1 + Rabs v2) + 2 * e); [lra|]. apply Rle_trans with (u * (15/10) + 2 * e); [|lra].
    apply Rplus_le_compat_r, Rmult_le_compat_l; lra. }
  change (Cmod (o - (p, q) / RtoC m)%C <= 4 * u). pose proof (Cmod_dist_tri o (v1, v2) ((p, q) / RtoC m)%C). lra.
Qed.

Lemma mul_err (a b : C) : Cmod a <= (104/100) -> Cmod b <= (11/10) -> Cmod (cmul (Fn rnd) b a - b * a)%C <= 5 * u.
Proof.
  intros A B. destruct a as [a1 a2], b as [b1 b2].
  assert (X : forall x y sg, Rabs x + Rabs y <= (115/100) -> sg = 1 \/ sg = -1 -> Rabs (rnd (rnd x + sg * rnd y) - (x + sg * y)) <= (24/10) * u).
  { intros x y sg Hs Hsg. pose proof (H x) as E1. pose proof (H y) as E2. pose proof (H (rnd x + sg * rnd y)) as E3.
    set (p := rnd x) in *. set (q := rnd y) in *. pose proof (Rabs_pos x). pose proof (Rabs_pos y).
    assert (S1 : Rabs (p - x) + Rabs (q - y) <= (116/100) * u) by nra.
    assert (S2 : Rabs (p + sg * q - (x + sg * y)) <= (116/100) * u).
    { replace (p + sg * q - (x + sg * y)) with ((p - x) + sg * (q - y)) by ring. eapply Rle_trans; [apply Rabs_triang|]. rewrite Rabs_mult.
      replace (Rabs sg) with 1 by (destruct Hsg; subst sg; unfold Rabs; destruct (Rcase_abs _); lra). lra. }
    assert (S3 : Rabs (p + sg * q) <= (118/100)).
    { replace (p + sg * q) with ((p + sg * q - (x + sg * y)) + (x + sg * y)) by ring. eapply Rle_trans; [apply Rabs_triang|].
      assert (Rabs (x + sg * y) <= (115/100)); [|nra]. eapply Rle_trans; [apply Rabs_triang|]. rewrite Rabs_mult.
      replace (Rabs sg) with 1 by (destruct Hsg; subst sg; unfold Rabs; destruct (Rcase_abs _); lra). lra. }
    replace (rnd (p + sg * q) - (x + sg * y)) with ((rnd (p + sg * q) - (p + sg * q)) + (p + sg * q - (x + sg * y))) by ring.
    eapply Rle_trans; [apply Rabs_triang|]. nra. }
  assert (Y : forall p q r s, Cmod (p, q) <= (104/100) -> Cmod (r, s) <= (11/10) -> Rabs (r * p) + Rabs (s * q) <= (115/100)).
  { intros p q r s P Q. rewrite !Rabs_mult. pose proof (Cmod_pair p q) as P1. pose proof (Cmod_pair r s) as Q1.
    pose proof (Cmod_ge_0 (p, q)). pose proof (Cmod_ge_0 (r, s)).
    assert (P2 : Rabs p * Rabs p + Rabs q * Rabs q = Cmod (p, q) * Cmod (p, q)) by (rewrite P1, sqrt_sqrt by nra; rewrite <- !Rabs_mult, !Rabs_pos_eq by nra; reflexivity).
    assert (Q2 : Rabs r * Rabs r + Rabs s * Rabs s = Cmod (r, s) * Cmod (r, s)) by (rewrite Q1, sqrt_sqrt by nra; rewrite <- !Rabs_mult, !Rabs_pos_eq by nra; reflexivity).
    set (p' := Rabs p) in *. set (q' := Rabs q) in *. set (r' := Rabs r) in *. set (s' := Rabs s) in *. set (M := Cmod (p, q)) in *. set (N := Cmod (r, s)) in *.
    assert (p0 : 0 <= p') by apply Rabs_pos. assert (q0 : 0 <= q') by apply Rabs_pos. assert (r0 : 0 <= r') by apply Rabs_pos. assert (s0 : 0 <= s') by apply Rabs_pos.
    assert (K : (r' * p' + s' * q') * (r' * p' + s' * q') <= (M * N) * (M * N)).
    { replace ((M * N) * (M * N)) with ((M * M) * (N * N)) by ring. rewrite <- P2, <- Q2. pose proof (sq0' (r' * q' - s' * p')). nra. }
    apply Rle_trans with (M * N); [|nra]. apply Rsqr_incr_0_var; [exact K|nra]. }
  eapply Rle_trans; [apply Cmod_le_sum|]. unfold cmul, creal, cimag. cbn [fst snd Fn nsub nadd nmul Cminus Cplus Copp Cmult].
  assert (A' : Cmod (a2, a1) <= (104/100)) by (rewrite Cmod_pair in *; rewrite Rplus_comm; auto).
  pose proof (X (b1 * a1) (b2 * a2) (-1) (Y _ _ _ _ A B) ltac:(auto)) as X1. pose proof (X (b1 * a2) (b2 * a1) 1 (Y _ _ _ _ A' B) ltac:(auto)) as X2.
  replace (rnd (b1 * a1) + -1 * rnd (b2 * a2)) with (rnd (b1 * a1) - rnd (b2 * a2)) in X1 by ring.
  replace (b1 * a1 + -1 * (b2 * a2)) with (b1 * a1 - b2 * a2) in X1 by ring. rewrite !Rmult_1_l in X2.
  unfold Rminus in *. lra.
Qed.

Lemma phase_drift (d w : C) (x : nat -> unit) t eta : Cmod w = 1 -> Cmod (d - w)%C <= eta -> eta <= 1/20 ->
  Cmod (out (phasor_step (Fn rnd)) (mkPhasor (RtoC 1) d) x t - Cpown w t)%C <= INR t * (20 * u + 3 * eta).
Proof.
  intros Hw Hd He2. pose proof (Cmod_ge_0 (d - w)%C) as Eta0.
  assert (Db : 1 - eta <= Cmod d <= 1 + eta). { pose proof (Cmod_diff d w) as D. rewrite Hw in D. apply Rabs_le_inv in D. lra. }
  assert (P : ph_delta (state_at (phasor_step (Fn rnd)) (mkPhasor (RtoC 1) d) x t) = d /\
    1 - 4 * u <= Cmod (ph_prev (state_at (phasor_step (Fn rnd)) (mkPhasor (RtoC 1) d) x t)) <= 1 + 4 * u /\
    Cmod (ph_prev (state_at (phasor_step (Fn rnd)) (mkPhasor (RtoC 1) d) x t) - Cpown w t)%C <= INR t * (20 * u + 3 * eta)).
  { induction t as [|t (I1 & I2 & I3)].
    - cbn. rewrite Cmod_R, Rabs_R1. split; [auto|]. split; [lra|]. match goal with |- Cmod ?a <= _ => replace a with (RtoC 0) by ring end. rewrite Cmod_0. lra.
    - cbn [state_at]. destruct (state_at (phasor_step (Fn rnd)) (mkPhasor (RtoC 1) d) x t) as [pv dl]. cbn [ph_delta ph_prev] in I1, I2, I3. subst dl.
      cbn [phasor_step fst ph_delta ph_prev]. split; auto. unfold cdivr_eq, cmul_eq.
      pose proof (mul_near u e rnd H Hu He pv d ltac:(lra) ltac:(lra)) as Z. pose proof (mul_err pv d ltac:(lra) ltac:(lra)) as ZE.
      set (z := cmul (Fn rnd) d pv) in *. clearbody z. destruct z as [p q].
      pose proof (div_norm u e rnd H Hu He p q Z) as DN. pose proof (div_near p q Z) as DE. split; auto.
      set (y := cdivr (Fn rnd) (p, q) (cabs (Fn rnd) (p, q))) in *. set (z := (p, q) : C) in *. 
      assert (Zn : Rabs (Cmod z - 1) <= 9 * u + (11/10) * eta).
      { pose proof (Cmod_diff z (d * pv)%C) as D. rewrite Cmod_mult in D. apply Rabs_le_inv in D.
        assert (- (4 * u + (11/10) * eta) <= Cmod d * Cmod pv - 1 <= 4 * u + (11/10) * eta) by (split; nra).
        apply Rabs_le. change (cplx R) with C in *. lra. }
      assert (S1 : Cmod (z / RtoC (Cmod z) - z)%C = Rabs (Cmod z - 1)).
      { replace (z / RtoC (Cmod z) - z)%C with (RtoC (1 - Cmod z) * (z / RtoC (Cmod z)))%C.
        - rewrite Cmod_mult, Cmod_div by (intros E; apply RtoC_inj in E; change (cplx R) with C in *; lra).
          rewrite !Cmod_R, (Rabs_pos_eq (Cmod z)) by apply Cmod_ge_0. rewrite Rabs_minus_sym. field. change (cplx R) with C in *; lra.
        - rewrite RtoC_minus. field. intros E. apply RtoC_inj in E. change (cplx R) with C in *; lra. }
      assert (S2 : Cmod (d * pv - w * pv)%C <= (11/10) * eta).
      { replace (d * pv - w * pv)%C with ((d - w) * pv)%C by ring. rewrite Cmod_mult. nra. }
      assert (S3 : Cmod (w * pv - Cpown w (S t))%C <= INR t * (20 * u + 3 * eta)).
      { cbn [Cpown]. replace (w * pv - w * Cpown w t)%C with (w * (pv - Cpown w t))%C by ring. rewrite Cmod_mult, Hw, Rmult_1_l. auto. }
      change (cplx R) with C in *.
      pose proof (Cmod_dist_tri y (z / RtoC (Cmod z))%C (Cpown w (S t))) as T1. pose proof (Cmod_dist_tri (z / RtoC (Cmod z))%C z (Cpown w (S t))) as T2.
      pose proof (Cmod_dist_tri z (d * pv)%C (Cpown w (S t))) as T3. pose proof (Cmod_dist_tri (d * pv)%C (w * pv)%C (Cpown w (S t))) as T4.
      rewrite S_INR. lra. }
  unfold out. cbn [phasor_step snd]. apply P.
Qed.
End Rounded.
