(* Phasor: exact rotation, no drift of the modulus with rounding *)
From Coq Require Import Reals Lra Lia ZArith List.
From Coquelicot Require Import Coquelicot.
From Flocq Require Import Core Relative.
From Verif Require Import Proofs.BaseLemmas Model.Phasor Spec.Iir Spec.Dft Spec.Rounding Proofs.SignalLemmas Proofs.BiquadProofs Proofs.Butterworth Proofs.FftKernels.
Open Scope R_scope.

Lemma Cmod_pair (a b : R) : Cmod (a, b) = sqrt (a * a + b * b).
Proof. unfold Cmod. cbn [fst snd]. f_equal. ring. Qed.
Lemma cmul_C (a b : cplx R) : cmul Rn a b = Cmult a b.
Proof. reflexivity. Qed.

Lemma phasor_next (p d : C) : Cmod p = 1 -> d <> 0%C -> phasor_step Rn (mkPhasor p d) tt = (mkPhasor (p * (d / RtoC (Cmod d)))%C d, p).
Proof.
  intros P D. unfold phasor_step. cbn [ph_prev ph_delta]. f_equal. f_equal. unfold cmul_eq, cdivr_eq, cabs, cnorm.
  change (cmul Rn d p) with (Cmult d p).
  assert (M : sqrt (creal (Cmult d p) * creal (Cmult d p) + cimag (Cmult d p) * cimag (Cmult d p)) = Cmod d).
  { transitivity (Cmod (d * p)%C); [unfold Cmod, creal, cimag; f_equal; ring|]. rewrite Cmod_mult, P. ring. }
  cbn [nsqrt Rn nadd nmul]. rewrite M. assert (Q : Cmod d <> 0) by (apply Rgt_not_eq, Cmod_gt_0; auto).
  assert (Di : forall (z : C) r, r <> 0 -> cdivr Rn z r = (z / RtoC r)%C).
  { intros [z1 z2] r Hr. apply injective_projections; cbn; field; auto. }
  rewrite Di by auto. match goal with |- ?a = ?b => change (@eq C a b) end. field. intros E. apply Q. apply RtoC_inj in E. auto.
Qed.
Lemma phasor_states (d : C) (x : nat -> unit) t : d <> 0%C ->
  state_at (phasor_step Rn) (mkPhasor (RtoC 1) d) x t = mkPhasor (Cpown (d / RtoC (Cmod d))%C t) d /\ Cmod (Cpown (d / RtoC (Cmod d))%C t) = 1.
Proof.
  intros D. assert (Q : Cmod d <> 0) by (apply Rgt_not_eq, Cmod_gt_0; auto).
  assert (U : Cmod (d / RtoC (Cmod d))%C = 1).
  { rewrite Cmod_div by (intros E; apply Q; apply RtoC_inj in E; auto). rewrite Cmod_R, Rabs_pos_eq by apply Cmod_ge_0. field. auto. }
  induction t as [|t [IH IM]].
  - split; [reflexivity|]. cbn. rewrite Cmod_R, Rabs_R1. reflexivity.
  - cbn [state_at]. rewrite IH. destruct (x t). rewrite phasor_next by auto. cbn [fst Cpown]. split.
    + f_equal. ring.
    + rewrite Cmod_mult, IM, U. ring.
Qed.
Lemma Cpown_cis a t : Cpown (cis a) t = cis (INR t * a).
Proof.
  induction t as [|t IH]; [cbn; unfold cis; rewrite Rmult_0_l, cos_0, sin_0; reflexivity|].
  cbn [Cpown]. rewrite IH, S_INR. unfold cis. replace ((INR t + 1) * a) with (a + INR t * a) by ring. rewrite cos_plus, sin_plus.
  apply injective_projections; cbn; ring.
Qed.

(** rounded arithmetic *)
Lemma sq0' x : 0 <= x * x. Proof. apply Rle_0_sqr. Qed.
Section Rounded.
Context (u e : R) (rnd : R -> R) (H : rounding u e rnd) (Hu : 0 <= u <= 1/100) (He : 0 <= e <= u / 1000).
Lemma rndb x : x - (u * Rabs x + e) <= rnd x <= x + (u * Rabs x + e).
Proof. pose proof (H x) as A. apply Rabs_le_inv in A. lra. Qed.
Lemma rnd_pos x : 0 <= x -> x * (1 - u) - e <= rnd x <= x * (1 + u) + e.
Proof. intros P. pose proof (rndb x) as A. rewrite Rabs_pos_eq in A by auto. lra. Qed.

Lemma div_norm (p q : R) : (3/10) <= Cmod (p, q) <= (25/10) ->
  1 - 4 * u <= Cmod (cdivr (Fn rnd) (p, q) (cabs (Fn rnd) (p, q))) <= 1 + 4 * u.
Proof.
  intros Hm. set (m := Cmod (p, q)) in *. assert (M2 : p * p + q * q = m * m).
  { unfold m. rewrite Cmod_pair. symmetry. apply sqrt_sqrt. nra. }
  unfold cabs, cnorm, cdivr, creal, cimag. cbn [fst snd Fn nsqrt nadd nmul ndiv].
  set (n := rnd (rnd (p * p) + rnd (q * q))).
  assert (Nb : m * m * (1 - (21/10) * u) <= n <= m * m * (1 + (21/10) * u)).
  { pose proof (rnd_pos (p * p) ltac:(nra)) as P1. pose proof (rnd_pos (q * q) ltac:(nra)) as Q1.
    set (s := rnd (p * p) + rnd (q * q)) in *. assert (S : m * m * (1 - u) - 2 * e <= s <= m * m * (1 + u) + 2 * e) by (unfold s; nra).
    assert (mm : (9/100) <= m * m) by nra. assert (e0 : e <= m * m * (u / 90)) by nra.
    assert (S0 : 0 <= s) by nra. pose proof (rnd_pos s S0) as N1. fold n in N1.
    assert (uu : u * u <= u / 100) by nra. assert (w : 0 <= m * m * u) by nra.
    split.
    - apply Rle_trans with ((m * m * (1 - u) - 2 * e) * (1 - u) - e); [|nra]. nra.
    - apply Rle_trans with ((m * m * (1 + u) + 2 * e) * (1 + u) + e); [nra|]. nra. }
  assert (Sb : m * (1 - (11/10) * u) <= sqrt n <= m * (1 + (11/10) * u)).
  { assert (m0 : 0 <= m) by lra. split.
    - rewrite <- (sqrt_square (m * (1 - (11/10) * u))) by nra. apply sqrt_le_1_alt. apply Rle_trans with (m * m * (1 - (21/10) * u)); [|lra].
      replace (m * (1 - (11/10) * u) * (m * (1 - (11/10) * u))) with (m * m * (1 - (22/10) * u + (121/100) * (u * u))) by field. apply Rmult_le_compat_l; [apply sq0'|nra].
    - rewrite <- (sqrt_square (m * (1 + (11/10) * u))) by nra. apply sqrt_le_1_alt. apply Rle_trans with (m * m * (1 + (21/10) * u)); [lra|].
      replace (m * (1 + (11/10) * u) * (m * (1 + (11/10) * u))) with (m * m * (1 + (22/10) * u + (121/100) * (u * u))) by field. apply Rmult_le_compat_l; [apply sq0'|nra]. }
  set (r := rnd (sqrt n)). pose proof (rnd_pos (sqrt n) (sqrt_pos n)) as Rb. fold r in Rb.
  assert (R1 : m * (1 - (22/10) * u) <= r <= m * (1 + (22/10) * u)).
  { assert (uu : u * u <= u / 100) by nra. assert (e0 : e <= m * (u / 300)) by nra. split; nra. }
  assert (r0 : 0 < r) by nra. set (v1 := p / r). set (v2 := q / r).
  assert (V : Cmod (v1, v2) = m / r).
  { rewrite Cmod_pair. unfold v1, v2. replace (p / r * (p / r) + q / r * (q / r)) with ((p * p + q * q) / (r * r)) by (field; lra).
    rewrite M2. replace (m * m / (r * r)) with ((m / r) * (m / r)) by (field; lra). apply sqrt_square. apply Rlt_le, Rdiv_lt_0_compat; lra. }
  assert (Vb : 1 - (22/10) * u <= Cmod (v1, v2) <= 1 + (23/10) * u).
  { rewrite V. split; apply (Rmult_le_reg_r r); auto; replace (m / r * r) with m by (field; lra).
    - apply Rle_trans with ((1 - (22/10) * u) * (m * (1 + (22/10) * u))); [apply Rmult_le_compat_l; lra|]. nra.
    - apply Rle_trans with ((1 + (23/10) * u) * (m * (1 - (22/10) * u))); [|apply Rmult_le_compat_l; lra].
      replace ((1 + (23/10) * u) * (m * (1 - (22/10) * u))) with (m * (1 + (1/10) * u - (506/100) * (u * u))) by field. nra. }
  set (o := (rnd v1, rnd v2) : C). assert (O : Cmod (o - (v1, v2))%C <= (16/10) * u).
  { eapply Rle_trans; [apply Cmod_le_sum|]. cbn [fst snd o Cminus Cplus Copp]. pose proof (H v1) as A1. pose proof (H v2) as A2.
    assert (B : Rabs v1 + Rabs v2 <= (142/100) * Cmod (v1, v2)).
    { pose proof (Rmax_Cmod (v1, v2)) as X. pose proof (Cmod_ge_0 (v1, v2)) as C0. set (w := Cmod (v1, v2)) in *. cbn [fst snd] in X.
      assert (W2 : Rabs v1 * Rabs v1 + Rabs v2 * Rabs v2 = w * w).
      { unfold w. rewrite Cmod_pair, sqrt_sqrt by nra. rewrite <- !Rabs_mult, !Rabs_pos_eq by nra. reflexivity. }
      pose proof (Rabs_pos v1). pose proof (Rabs_pos v2). apply Rsqr_incr_0_var; [|lra]. unfold Rsqr. clear - W2. pose proof (sq0' (Rabs v1 - Rabs v2)). pose proof (sq0' w). lra. }
    change (Rabs (rnd v1 - v1) + Rabs (rnd v2 - v2) <= (16/10) * u). set (w := Cmod (v1, v2)) in *. clearbody w.
    assert (Bb : Rabs v1 + Rabs v2 <= (15/10)) by lra. apply Rle_trans with (u * (Rabs v1 + Rabs v2) + 2 * e); [lra|]. apply Rle_trans with (u * (15/10) + 2 * e); [|lra].
    apply Rplus_le_compat_r, Rmult_le_compat_l; lra. }
  change (1 - 4 * u <= Cmod o <= 1 + 4 * u).
  assert (T1 : Cmod o <= Cmod (v1, v2) + Cmod (o - (v1, v2))%C).
  { replace o with ((v1, v2) + (o - (v1, v2)))%C at 1 by ring. apply Cmod_triangle. }
  assert (T2 : Cmod (v1, v2) <= Cmod o + Cmod (o - (v1, v2))%C).
  { replace ((v1, v2) : C) with (o + - (o - (v1, v2)))%C at 1 by ring. eapply Rle_trans; [apply Cmod_triangle|]. rewrite Cmod_opp. lra. }
  lra.
Qed.

Lemma mul_near (a b : C) : (96/100) <= Cmod a <= (104/100) -> 1/2 <= Cmod b <= 2 -> (3/10) <= Cmod (cmul (Fn rnd) b a) <= (25/10).
Proof.
  intros A B. destruct a as [a1 a2], b as [b1 b2].
  assert (E : Cmod (cmul (Fn rnd) (b1, b2) (a1, a2) - ((b1, b2) * (a1, a2))%C)%C <= (17/100)).
  { assert (X : forall p q r s, Rabs p <= 2 -> Rabs q <= (104/100) -> Rabs r <= 2 -> Rabs s <= (104/100) -> forall sg, sg = 1 \/ sg = -1 ->
       Rabs (rnd (rnd (p * q) + sg * rnd (r * s)) - (p * q + sg * (r * s))) <= (85/1000)).
    { intros p q r s Hp Hq Hr Hs sg Hsg.
      assert (P : Rabs (p * q) <= (208/100)) by (rewrite Rabs_mult; pose proof (Rabs_pos p); pose proof (Rabs_pos q); nra).
      assert (Rr : Rabs (r * s) <= (208/100)) by (rewrite Rabs_mult; pose proof (Rabs_pos r); pose proof (Rabs_pos s); nra).
      pose proof (H (p * q)) as E1. pose proof (H (r * s)) as E2. pose proof (H (rnd (p * q) + sg * rnd (r * s))) as E3.
      set (X := rnd (p * q)) in *. set (Y := rnd (r * s)) in *. apply Rabs_le_inv in P, Rr.
      assert (E1' : Rabs (X - p * q) <= (21/1000)) by (eapply Rle_trans; [apply E1|]; assert (Rabs (p * q) <= (208/100)) by (apply Rabs_le; lra); nra).
      assert (E2' : Rabs (Y - r * s) <= (21/1000)) by (eapply Rle_trans; [apply E2|]; assert (Rabs (r * s) <= (208/100)) by (apply Rabs_le; lra); nra).
      apply Rabs_le_inv in E1', E2'.
      assert (Bs : Rabs (X + sg * Y) <= (421/100)) by (apply Rabs_le; destruct Hsg; subst sg; lra).
      assert (E3' : Rabs (rnd (X + sg * Y) - (X + sg * Y)) <= (422/10000)) by (eapply Rle_trans; [apply E3|]; nra).
      apply Rabs_le_inv in E3'. apply Rabs_le. destruct Hsg; subst sg; lra. }
    pose proof (Rmax_Cmod (a1, a2)) as XA. pose proof (Rmax_Cmod (b1, b2)) as XB. cbn [fst snd] in XA, XB.
    pose proof (Rmax_l (Rabs a1) (Rabs a2)). pose proof (Rmax_r (Rabs a1) (Rabs a2)). pose proof (Rmax_l (Rabs b1) (Rabs b2)). pose proof (Rmax_r (Rabs b1) (Rabs b2)).
    eapply Rle_trans; [apply Cmod_le_sum|]. unfold cmul, creal, cimag. cbn [fst snd Fn nsub nadd nmul Cminus Cplus Copp Cmult].
    pose proof (X b1 a1 b2 a2 ltac:(lra) ltac:(lra) ltac:(lra) ltac:(lra) (-1) ltac:(auto)) as X1. pose proof (X b1 a2 b2 a1 ltac:(lra) ltac:(lra) ltac:(lra) ltac:(lra) 1 ltac:(auto)) as X2.
    replace (rnd (b1 * a1) + -1 * rnd (b2 * a2)) with (rnd (b1 * a1) - rnd (b2 * a2)) in X1 by ring.
    replace (b1 * a1 + -1 * (b2 * a2)) with (b1 * a1 - b2 * a2) in X1 by ring. rewrite !Rmult_1_l in X2.
    unfold Rminus in *. lra. }
  set (z := cmul (Fn rnd) (b1, b2) (a1, a2)) in *. set (y := ((b1, b2) * (a1, a2))%C) in *.
  assert (Y : Cmod y = Cmod (b1, b2) * Cmod (a1, a2)) by apply Cmod_mult.
  assert (Yb : (48/100) <= Cmod y <= (208/100)) by (rewrite Y; nra).
  assert (T1 : Cmod z <= Cmod y + Cmod (z - y)%C).
  { replace (z : C) with (y + (z - y))%C at 1 by ring. apply Cmod_triangle. }
  assert (T2 : Cmod y <= Cmod z + Cmod (z - y)%C).
  { replace y with (z + - (z - y))%C at 1 by ring. eapply Rle_trans; [apply Cmod_triangle|]. rewrite Cmod_opp. lra. }
  lra.
Qed.

Lemma no_drift (d : C) (x : nat -> unit) t : 1/2 <= Cmod d <= 2 ->
  1 - 4 * u <= Cmod (out (phasor_step (Fn rnd)) (mkPhasor (RtoC 1) d) x t) <= 1 + 4 * u.
Proof.
  intros D. assert (P : ph_delta (state_at (phasor_step (Fn rnd)) (mkPhasor (RtoC 1) d) x t) = d /\
    1 - 4 * u <= Cmod (ph_prev (state_at (phasor_step (Fn rnd)) (mkPhasor (RtoC 1) d) x t)) <= 1 + 4 * u).
  { induction t as [|t [I1 I2]].
    - cbn. rewrite Cmod_R, Rabs_R1. split; [auto|lra].
    - cbn [state_at]. destruct (state_at (phasor_step (Fn rnd)) (mkPhasor (RtoC 1) d) x t) as [pv dl]. cbn [ph_delta ph_prev] in I1, I2. subst dl.
      cbn [phasor_step fst ph_delta ph_prev]. split; auto. unfold cdivr_eq, cmul_eq.
      pose proof (mul_near pv d ltac:(lra) D) as Z. destruct (cmul (Fn rnd) d pv) as [p q]. apply div_norm. exact Z. }
  unfold out. cbn [phasor_step snd]. apply P.
Qed.
End Rounded.

(** binary32 and binary64 satisfy the rounding hypothesis *)
Lemma flt_rounding (emin prec : Z) (choice : Z -> bool) : (1 < prec)%Z -> (emin <= 0)%Z ->
  rounding (bpow radix2 (- prec)) (bpow radix2 (emin - 1)) (round radix2 (FLT_exp emin prec) (Znearest choice)).
Proof.
  intros Hp He x. assert (Pp : Prec_gt_0 prec) by (unfold Prec_gt_0; lia).
  destruct (error_N_FLT radix2 emin prec Pp choice x) as (ep & et & A & B & _ & E).
  rewrite E. replace (x * (1 + ep) + et - x) with (x * ep + et) by ring. eapply Rle_trans; [apply Rabs_triang|]. rewrite Rabs_mult.
  assert (Q1 : / 2 * bpow radix2 (- prec + 1) = bpow radix2 (- prec)) by (rewrite bpow_plus; change (bpow radix2 1) with 2; field).
  assert (Q2 : / 2 * bpow radix2 emin = bpow radix2 (emin - 1)) by (replace (emin - 1)%Z with (emin + -1)%Z by lia; rewrite bpow_plus; change (bpow radix2 (-1)) with (/ 2); ring).
  rewrite Q1 in A. rewrite Q2 in B. pose proof (Rabs_pos x). nra.
Qed.
