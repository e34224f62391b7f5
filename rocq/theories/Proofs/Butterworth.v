(* Monic polynomials with known roots, the factors of x^2N + 1, and the power gain of the biquad cascades *)
From Coq Require Import Reals Lra Lia ZArith List.
From Coquelicot Require Import Coquelicot.
From Verif Require Import Proofs.BaseLemmas Model.Biquad Spec.Iir Spec.Dft Proofs.FftAlg Proofs.FftInverse Proofs.FftKernels Proofs.BiquadProofs.
Import ListNotations.
Open Scope R_scope.

Section Monic.
Open Scope C_scope.
(** z^n + l_0 z^(n-1) + ... + l_(n-1) *)
Definition mon (l : list C) (z : C) : C := fold_left (fun acc c => acc * z + c) l 1.
Lemma mon_snoc l c z : mon (l ++ [c]) z = mon l z * z + c.
Proof. unfold mon. rewrite fold_left_app. reflexivity. Qed.
Lemma mon_div r : forall l, l <> [] -> exists q, length q = pred (length l) /\ forall z, mon l z = (z - r) * mon q z + mon l r.
Proof.
  intros l. induction l as [|c l' IH] using rev_ind; [congruence|]. intros _. destruct l' as [|a l'].
  - exists []. split; auto. intros z. unfold mon. cbn. ring.
  - destruct IH as (q & Lq & Hq); [congruence|]. exists (q ++ [mon (a :: l') r]). split.
    + rewrite !app_length, Lq. cbn. lia.
    + intros z. rewrite !mon_snoc, Hq. ring.
Qed.
Definition cprod (rs : list C) (z : C) : C := fold_right (fun r acc => (z - r) * acc) 1 rs.
Lemma mon_roots : forall rs l, NoDup rs -> length rs = length l -> (forall r, In r rs -> mon l r = 0) -> forall z, mon l z = cprod rs z.
Proof.
  induction rs as [|r rs IH]; intros l N L H z.
  - destruct l; [reflexivity|discriminate].
  - destruct (mon_div r l) as (q & Lq & Hq); [destruct l; [discriminate|congruence]|]. rewrite Hq, (H r) by (left; auto). cbn [cprod fold_right]. fold (cprod rs z).
    rewrite (IH q); [ring| | |].
    + inversion N; auto.
    + rewrite Lq, <- L. reflexivity.
    + intros r' I. inversion N as [|? ? NI N']; subst. pose proof (Hq r') as E. rewrite (H r), (H r') in E by (cbn; auto).
      assert (D : r' - r <> 0). { intros F. apply NI. replace r with r'; auto. replace r' with (r' - r + r) by ring. rewrite F. ring. }
      destruct (Ceq_dec (mon q r') 0) as [Z|Z]; auto. exfalso. apply (Cmult_neq_0 _ _ D Z). rewrite E. ring.
Qed.
Lemma mon_pow1 n z : mon (repeat (RtoC 0) n ++ [RtoC 1]) z = Cpown z (S n) + 1.
Proof.
  assert (P : mon (repeat (RtoC 0) n) z = Cpown z n).
  { induction n as [|n IH]; [reflexivity|]. replace (repeat (RtoC 0) (S n)) with (repeat (RtoC 0) n ++ [RtoC 0]) by (rewrite <- repeat_cons; reflexivity).
    rewrite mon_snoc, IH. cbn. ring. }
  rewrite mon_snoc, P. cbn. ring.
Qed.

Definition rt (n k : nat) : C := root 1 (4 * Z.of_nat n) (2 * Z.of_nat k + 1).
Lemma rt_pow n k : (0 < n)%nat -> Cpown (rt n k) (2 * n) = -1.
Proof.
  intros Hn. assert (P : forall (r : C) m, Cpown r m = Cpow r m) by (induction m; cbn; auto; rewrite IHm; reflexivity).
  rewrite P. unfold rt. rewrite <- FftInverse.root_pow.
  replace (Z.of_nat (2 * n) * (2 * Z.of_nat k + 1))%Z with (4 * Z.of_nat n * Z.of_nat k + 2 * Z.of_nat n * 1)%Z by lia.
  rewrite root_add, root_period by lia. replace (4 * Z.of_nat n)%Z with (2 * Z.of_nat n * 2)%Z by lia. rewrite root_scale by lia. rewrite root_2_1. ring.
Qed.
Lemma root_mul_opp s N a : root s N a * root s N (- a) = 1.
Proof. rewrite <- root_add, Z.add_opp_diag_r. apply root_0. Qed.
Lemma rt_inj n k k' : (k < 2 * n)%nat -> (k' < 2 * n)%nat -> rt n k = rt n k' -> k = k'.
Proof.
  assert (W : forall a b, (a < b)%nat -> (b < 2 * n)%nat -> rt n a = rt n b -> False).
  { intros a b Hab Hb E. apply (root_ne_1 1 (4 * Z.of_nat n) (2 * (Z.of_nat b - Z.of_nat a))); [auto|lia|].
    replace (2 * (Z.of_nat b - Z.of_nat a))%Z with ((2 * Z.of_nat b + 1) + - (2 * Z.of_nat a + 1))%Z by lia. rewrite root_add.
    unfold rt in E. rewrite <- E. apply root_mul_opp. }
  intros H H' E. destruct (lt_eq_lt_dec k k') as [[L|L]|L]; auto; exfalso; [apply (W k k')|apply (W k' k)]; auto.
Qed.
Lemma factor_complex n z : (0 < n)%nat -> Cpown z (2 * n) + 1 = cprod (map (rt n) (seq 0 (2 * n))) z.
Proof.
  intros Hn. destruct (2 * n)%nat as [|m] eqn:E; [lia|]. rewrite <- mon_pow1. apply mon_roots.
  - rewrite <- E. assert (G : forall a c, (a + c <= 2 * n)%nat -> NoDup (map (rt n) (seq a c))).
    { intros a c. revert a. induction c as [|c IH]; intros a Hc; cbn; constructor; [|apply IH; lia].
      rewrite in_map_iff. intros (x & Hx & I). apply in_seq in I. apply rt_inj in Hx; lia. }
    apply G. lia.
  - rewrite map_length, seq_length, app_length, repeat_length. cbn. lia.
  - intros r I. apply in_map_iff in I. destruct I as (k & <- & I). rewrite mon_pow1, <- E, rt_pow by auto. apply injective_projections; cbn; ring.
Qed.
End Monic.

Fixpoint Rprod (n : nat) (f : nat -> R) : R := match n with O => 1 | S k => Rprod k f * f k end.
Lemma Rprod_ext n f g : (forall k, (k < n)%nat -> f k = g k) -> Rprod n f = Rprod n g.
Proof. induction n; intros H; cbn; auto. rewrite IHn, H; auto. Qed.
Lemma Rprod_pos n f : (forall k, (k < n)%nat -> 0 < f k) -> 0 < Rprod n f.
Proof. induction n; intros H; cbn; [lra|]. apply Rmult_lt_0_compat; auto. Qed.
Fixpoint CProd (n : nat) (f : nat -> C) : C := match n with O => RtoC 1 | S k => (CProd k f * f k)%C end.

Lemma cprod_app a b z : cprod (a ++ b) z = (cprod a z * cprod b z)%C.
Proof. unfold cprod. induction a as [|r a IH]; cbn; [ring|]. rewrite IH. ring. Qed.
Lemma rt_conj n k : (k < 2 * n)%nat -> rt n (2 * n - 1 - k) = Cconj (rt n k).
Proof.
  intros H. unfold rt. rewrite <- root_opp. apply root_mod; [lia|].
  replace (2 * Z.of_nat (2 * n - 1 - k) + 1 - - (2 * Z.of_nat k + 1))%Z with (1 * (4 * Z.of_nat n))%Z by lia. apply Z.mod_mul. lia.
Qed.
Definition th (n k : nat) : R := 2 * PI * (2 * INR k + 1) / (4 * INR n).
Lemma rt_cos n k : fst (rt n k) = cos (th n k).
Proof. unfold rt. rewrite root_1. cbn [fst]. unfold th. rewrite plus_IZR, !mult_IZR, <- !INR_IZR_INZ. reflexivity. Qed.
Lemma rt_pair n k (x : R) : ((x - rt n k) * (x - Cconj (rt n k)) = RtoC (x * x - 2 * x * cos (th n k) + 1))%C.
Proof.
  rewrite <- rt_cos. unfold rt. rewrite root_1. set (a := 2 * PI * IZR (2 * Z.of_nat k + 1) / IZR (4 * Z.of_nat n)).
  pose proof (sin2_cos2 a) as E. unfold Rsqr in E. apply injective_projections; cbn; nra.
Qed.

(** x^2n + 1 is the product of the quadratics x^2 - 2 x cos + 1 *)
Lemma factor_real n x : (0 < n)%nat -> x ^ (2 * n) + 1 = Rprod n (fun k => x * x - 2 * x * cos (th n k) + 1).
Proof.
  intros Hn. pose proof (factor_complex n (RtoC x) Hn) as F.
  assert (P : forall m, Cpown (RtoC x) m = RtoC (x ^ m)) by (induction m as [|m IH]; cbn [Cpown pow]; auto; rewrite IH, <- RtoC_mult; reflexivity).
  rewrite P in F. clear P.
  assert (G : forall j, (j <= n)%nat -> cprod (map (rt n) (seq 0 (2 * n))) (RtoC x) =
     (RtoC (Rprod j (fun k => x * x - 2 * x * cos (th n k) + 1)%R) * cprod (map (rt n) (seq j (2 * (n - j)))) (RtoC x))%C).
  { induction j as [|j IH]; intros Hj; [rewrite Nat.sub_0_r; cbn [Rprod]; ring|]. rewrite IH by lia. cbn [Rprod].
    replace (2 * (n - j))%nat with (1 + (2 * (n - S j) + 1))%nat by lia. rewrite !seq_app, !map_app, !cprod_app. cbn [seq map].
    replace (j + 1 + 2 * (n - S j))%nat with (2 * n - 1 - j)%nat by lia. rewrite rt_conj by lia.
    replace (j + 1)%nat with (S j) by lia.
    rewrite RtoC_mult, <- (rt_pair n j x). unfold cprod at 1 3. cbn [fold_right]. ring. }
  rewrite (G n), Nat.sub_diag in F by lia. change (seq n (2 * 0)) with (@nil nat) in F. cbn [map cprod fold_right] in F.
  apply (f_equal fst) in F. cbn -[Nat.mul] in F. lra.
Qed.

Lemma factor_uv n u v : (0 < n)%nat -> Rprod n (fun k => v * v + u * u + 2 * (u * v) * cos (th n k)) = u ^ (2 * n) + v ^ (2 * n).
Proof.
  intros Hn. destruct (Req_dec v 0) as [->|Hv].
  - rewrite (Rprod_ext n _ (fun _ => u * u)) by (intros; ring). rewrite (pow_ne_zero (2 * n)) by lia.
    rewrite pow_mult. clear Hn. assert (E : forall m, Rprod m (fun _ => u * u) = (u ^ 2) ^ m) by (induction m as [|m IH]; cbn [Rprod pow]; [ring|rewrite IH; cbn [pow]; ring]).
    rewrite E. ring.
  - pose proof (factor_real n (- u / v) Hn) as F.
    rewrite (Rprod_ext n _ (fun k => (v * v) * ((- u / v) * (- u / v) - 2 * (- u / v) * cos (th n k) + 1))) by (intros; field; auto).
    assert (E : forall m f, Rprod m (fun k => (v * v) * f k) = (v ^ 2) ^ m * Rprod m f) by (induction m as [|m IH]; intros; cbn [Rprod pow]; [ring|rewrite IH; cbn [pow]; ring]).
    rewrite E, <- F, !pow_mult. replace ((- u / v) ^ 2) with ((u ^ 2) / (v ^ 2)) by (field; auto).
    unfold Rdiv. rewrite Rpow_mult_distr, pow_inv. field. apply pow_nonzero. apply pow_nonzero. auto.
Qed.

(** power gain of one section at exp(i t), with u = (1 - cos t)(1 + k) and v = (1 - k)(1 + cos t) *)
Section Power.
Context (tr : trig R) (n K : Z) (Q : R) (HQ : 0 < Q) (Hs : 0 < tsin tr n K) (Hc : -1 < tcos tr n K < 1)
  (Hu : tcos tr n K * tcos tr n K + tsin tr n K * tsin tr n K = 1).
Let s := tsin tr n K.
Let k := tcos tr n K.
Let al := s / (2 * Q).
Context (t : R).
Let u := (1 - cos t) * (1 + k).
Let v := (1 - k) * (1 + cos t).

Lemma Cmod2 (z : C) : Cmod z ^ 2 = fst z * fst z + snd z * snd z.
Proof. unfold Cmod. rewrite <- Rsqr_pow2, Rsqr_sqrt by nra. ring. Qed.
Lemma Cmod_cis : Cmod (cis t) = 1.
Proof. unfold Cmod, cis. cbn [fst snd]. pose proof (sin2_cos2 t) as E. unfold Rsqr in E. replace (cos t ^ 2 + sin t ^ 2) with 1 by (rewrite <- E; ring). apply sqrt_1. Qed.
Lemma den_power : Cmod (RtoC (1 + al) * (cis t * cis t) + RtoC (-2 * k) * cis t + RtoC (1 - al))%C ^ 2 = v * v + u * u + 2 * (u * v) * (1 / (2 * Q * Q) - 1).
Proof.
  rewrite Cmod2. unfold cis. cbn. pose proof (sin2_cos2 t) as E. unfold Rsqr in E.
  assert (A : al * al = (1 - k * k) / (4 * Q * Q)). { unfold al. replace (1 - k * k) with (s * s) by (unfold s, k; lra). field. lra. }
  assert (S2 : sin t * sin t = 1 - cos t * cos t) by lra.
  match goal with |- ?l = _ => replace l with (4 * (cos t - k) * (cos t - k) + 4 * (al * al) * (sin t * sin t)
     + (sin t * sin t + cos t * cos t - 1) * ((1 + al) * (1 + al) * (sin t * sin t + cos t * cos t + 1) - 2 * (1 + al) * (1 - al) + 4 * k * k - 4 * k * (1 + al) * cos t)) end.
  - rewrite E, A, S2. unfold u, v. field. lra.
  - ring_simplify. ring_simplify in S2. assert (S2' : sin t ^ 2 = 1 - cos t ^ 2) by lra.
    assert (S4 : sin t ^ 4 = (1 - cos t ^ 2) * (1 - cos t ^ 2)) by (rewrite <- S2'; ring).
    rewrite S4, S2'. ring.
Qed.
Lemma lowpass_power : Cmod (tfc (bq_lowpass Rn tr n K Q) (cis t)) ^ 2 = (v * v) / (v * v + u * u + 2 * (u * v) * (1 / (2 * Q * Q) - 1))
  /\ 0 < v * v + u * u + 2 * (u * v) * (1 / (2 * Q * Q) - 1).
Proof.
  change (bq_lowpass Rn tr n K Q) with (bq_div Rn ((1 - k) / 2) (1 - k) ((1 - k) / 2) (1 + al) (-2 * k) (1 - al)).
  pose proof (tf_div tr n K Q HQ Hs Hc ((1 - k) / 2) (1 - k) ((1 - k) / 2) (cis t) Cmod_cis) as P. cbv zeta in P. fold s in P. fold k in P. fold al in P.
  destruct P as [Dn ->]. rewrite <- den_power. split.
  - rewrite Cmod_div by exact Dn. unfold Rdiv. rewrite Rpow_mult_distr, pow_inv. f_equal. rewrite Cmod2.
    unfold cis. cbn. pose proof (sin2_cos2 t) as E. unfold Rsqr in E. unfold v.
    assert (S2' : sin t ^ 2 = 1 - cos t ^ 2) by (rewrite <- E; ring).
    assert (S4 : sin t ^ 4 = (1 - cos t ^ 2) * (1 - cos t ^ 2)) by (rewrite <- S2'; ring).
    field_simplify. rewrite S4, S2'. field.
  - apply pow_lt. apply Cmod_gt_0. exact Dn.
Qed.
Lemma highpass_power : Cmod (tfc (bq_highpass Rn tr n K Q) (cis t)) ^ 2 = (u * u) / (v * v + u * u + 2 * (u * v) * (1 / (2 * Q * Q) - 1)).
Proof.
  change (bq_highpass Rn tr n K Q) with (bq_div Rn ((1 + k) / 2) (- (1 + k)) ((1 + k) / 2) (1 + al) (-2 * k) (1 - al)).
  pose proof (tf_div tr n K Q HQ Hs Hc ((1 + k) / 2) (- (1 + k)) ((1 + k) / 2) (cis t) Cmod_cis) as P. cbv zeta in P. fold s in P. fold k in P. fold al in P.
  destruct P as [Dn ->]. rewrite <- den_power.
  rewrite Cmod_div by exact Dn. unfold Rdiv. rewrite Rpow_mult_distr, pow_inv. f_equal. rewrite Cmod2.
  unfold cis. cbn. pose proof (sin2_cos2 t) as E. unfold Rsqr in E. unfold u.
  assert (S2' : sin t ^ 2 = 1 - cos t ^ 2) by (rewrite <- E; ring).
  assert (S4 : sin t ^ 4 = (1 - cos t ^ 2) * (1 - cos t ^ 2)) by (rewrite <- S2'; ring).
  field_simplify. rewrite S4, S2'. field.
Qed.
End Power.

(** cascades *)
Definition bqc_coefs (ss : list (biquad R C)) : list (coefs R) := map bq_c ss.
Lemma bqc_set_coefs (f : nat -> coefs R) (ss : list (biquad R C)) :
  map bq_c (map (fun p => biquad_set (snd p) (f (fst p))) (combine (seq 0 (length ss)) ss)) = map f (seq 0 (length ss)).
Proof.
  rewrite map_map. cbn. generalize 0%nat. induction ss as [|b ss IH]; intros a; cbn; auto. rewrite IH. reflexivity.
Qed.
Lemma lowpass_coefs (ss : list (biquad R C)) n K : map bq_c (bqc_lowpass Rn exact_trig ss n K) = map (fun i => bq_lowpass Rn exact_trig n K (bqc_Q Rn exact_trig (Z.of_nat (length ss)) (Z.of_nat i))) (seq 0 (length ss)).
Proof. apply (bqc_set_coefs (fun i => bq_lowpass Rn exact_trig n K (bqc_Q Rn exact_trig (Z.of_nat (length ss)) (Z.of_nat i)))). Qed.
Lemma highpass_coefs (ss : list (biquad R C)) n K : map bq_c (bqc_highpass Rn exact_trig ss n K) = map (fun i => bq_highpass Rn exact_trig n K (bqc_Q Rn exact_trig (Z.of_nat (length ss)) (Z.of_nat i))) (seq 0 (length ss)).
Proof. apply (bqc_set_coefs (fun i => bq_highpass Rn exact_trig n K (bqc_Q Rn exact_trig (Z.of_nat (length ss)) (Z.of_nat i)))). Qed.

Lemma sec_Q NUM i : (i < NUM)%nat -> let Q := bqc_Q Rn exact_trig (Z.of_nat NUM) (Z.of_nat i) in 0 < Q /\ 1 / (2 * Q * Q) - 1 = cos (th NUM i).
Proof.
  intros H Q. set (ph := 2 * PI * IZR (2 * Z.of_nat i + 1) / IZR (4 * (2 * Z.of_nat NUM))).
  assert (Hn : 0 < INR NUM) by (apply lt_0_INR; lia).
  assert (E : ph = PI / 2 * ((2 * INR i + 1) / (2 * INR NUM))).
  { unfold ph. rewrite plus_IZR, !mult_IZR, <- !INR_IZR_INZ. field. lra. }
  assert (B : 0 < (2 * INR i + 1) / (2 * INR NUM) < 1).
  { pose proof (pos_INR i). split; [apply Rdiv_lt_0_compat; lra|]. apply (Rmult_lt_reg_r (2 * INR NUM)); [lra|].
    unfold Rdiv. rewrite Rmult_assoc, Rinv_l by lra. assert (INR i + 1 <= INR NUM); [|lra]. rewrite <- S_INR. apply le_INR. lia. }
  pose proof PI_RGT_0 as Pp. assert (C : 0 < cos ph) by (apply cos_gt_0; rewrite E; nra).
  assert (EQ : Q = 1 / (2 * cos ph)) by reflexivity. split; [rewrite EQ; apply Rdiv_lt_0_compat; lra|].
  replace (th NUM i) with (2 * ph) by (unfold th; rewrite E; field; lra). rewrite cos_2a_cos, EQ. field. lra.
Qed.

Definition total (cs : list (coefs R)) (w : C) : C := fold_left (fun g c => tfc c w * g)%C cs (RtoC 1).
Lemma fold_gain cs w : forall a : C, fold_left (fun g c => tfc c w * g)%C cs a = (total cs w * a)%C.
Proof.
  unfold total. induction cs as [|c cs IH]; intros a; cbn [fold_left]; [ring|]. rewrite IH, (IH (tfc c w * RtoC 1)%C). ring.
Qed.
Lemma total_power (f : nat -> coefs R) w m : Cmod (total (map f (seq 0 m)) w) ^ 2 = Rprod m (fun i => Cmod (tfc (f i) w) ^ 2).
Proof.
  induction m as [|m IH]; [cbn; rewrite Cmod_R, Rabs_R1; ring|]. rewrite seq_S, map_app. unfold total. rewrite fold_left_app. cbn [map fold_left].
  fold (total (map f (seq 0 m)) w). rewrite Cmod_mult, Rpow_mult_distr, IH. cbn [Rprod Nat.add]. ring.
Qed.

Lemma cascade_gain (ss : list (biquad R C)) (w amp : C) : Cmod w = 1 -> Forall stable (map bq_c ss) ->
  approaches (out (bqc_step (vcplx Rn)) ss (fun t => amp * Cpown w t)%C) (fun t => total (map bq_c ss) w * (amp * Cpown w t))%C.
Proof.
  intros Hw Hs.
  assert (A : approaches (fun t => amp * Cpown w t)%C (fun t => amp * Cpown w t)%C).
  { unfold approaches. apply (is_lim_seq_ext (fun _ => 0)); [|apply is_lim_seq_const]. intros t. replace (amp * Cpown w t - amp * Cpown w t)%C with (RtoC 0) by ring. rewrite Cmod_R, Rabs_R0. reflexivity. }
  assert (F : Forall (fun s => stable (bq_c s)) ss) by (apply (Forall_map bq_c stable ss); exact Hs).
  pose proof (cascade_steady ss amp w _ Hw F A) as S. unfold approaches in *.
  eapply is_lim_seq_ext; [|exact S]. intros t. cbv beta. f_equal. f_equal.
  replace (fold_left (fun (g : C) s => (tfc (bq_c s) w * g)%C) ss amp) with (fold_left (fun g c => tfc c w * g)%C (map bq_c ss) amp).
  - rewrite fold_gain. ring.
  - clear. revert amp. induction ss as [|b ss IH]; intros amp; cbn; auto.
Qed.

Lemma exact_ok n K : (0 < 2 * n < K)%Z -> 0 < tsin exact_trig n K /\ -1 < tcos exact_trig n K < 1 /\
  tcos exact_trig n K * tcos exact_trig n K + tsin exact_trig n K * tsin exact_trig n K = 1.
Proof.
  intros H. cbn. set (a := 2 * PI * IZR n / IZR K).
  assert (Kp : 0 < IZR K) by (apply IZR_lt; lia). assert (np : 0 < IZR n) by (apply IZR_lt; lia).
  assert (lt : 2 * IZR n < IZR K) by (rewrite <- mult_IZR; apply IZR_lt; lia). pose proof PI_RGT_0 as Pp.
  assert (E : a = PI * (2 * IZR n / IZR K)) by (unfold a; field; lra).
  assert (B : 0 < 2 * IZR n / IZR K < 1).
  { split; [apply Rdiv_lt_0_compat; lra|]. apply (Rmult_lt_reg_r (IZR K)); [lra|]. unfold Rdiv. rewrite Rmult_assoc, Rinv_l; lra. }
  assert (A : 0 < a < PI) by (rewrite E; nra).
  pose proof (sin_gt_0 a (proj1 A) (proj2 A)) as S. pose proof (sin2_cos2 a) as Q. unfold Rsqr in Q. split; auto. split; [split; nra|lra].
Qed.

Lemma butter n K (ss : list (biquad R C)) (t : R) : (0 < 2 * n < K)%Z -> ss <> [] ->
  let u := (1 - cos t) * (1 + tcos exact_trig n K) in let v := (1 - tcos exact_trig n K) * (1 + cos t) in
  Cmod (total (map bq_c (bqc_lowpass Rn exact_trig ss n K)) (cis t)) ^ 2 = v ^ (2 * length ss) / (u ^ (2 * length ss) + v ^ (2 * length ss)) /\
  Cmod (total (map bq_c (bqc_highpass Rn exact_trig ss n K)) (cis t)) ^ 2 = u ^ (2 * length ss) / (u ^ (2 * length ss) + v ^ (2 * length ss)) /\
  Forall stable (map bq_c (bqc_lowpass Rn exact_trig ss n K)) /\ Forall stable (map bq_c (bqc_highpass Rn exact_trig ss n K)) /\
  0 < u ^ (2 * length ss) + v ^ (2 * length ss).
Proof.
  intros Hn Hs u v. destruct (exact_ok n K Hn) as (S & Cc & Un). set (m := length ss). assert (Hm : (0 < m)%nat) by (unfold m; destruct ss; [congruence|cbn; lia]).
  rewrite lowpass_coefs, highpass_coefs. fold m. rewrite !total_power.
  assert (LP : forall i, (i < m)%nat -> let c := bq_lowpass Rn exact_trig n K (bqc_Q Rn exact_trig (Z.of_nat m) (Z.of_nat i)) in
     Cmod (tfc c (cis t)) ^ 2 = (v * v) / (v * v + u * u + 2 * (u * v) * cos (th m i)) /\ 0 < v * v + u * u + 2 * (u * v) * cos (th m i)).
  { intros i Hi c. destruct (sec_Q m i Hi) as [HQ EQ]. rewrite <- EQ. apply lowpass_power; auto. }
  assert (HP : forall i, (i < m)%nat -> let c := bq_highpass Rn exact_trig n K (bqc_Q Rn exact_trig (Z.of_nat m) (Z.of_nat i)) in
     Cmod (tfc c (cis t)) ^ 2 = (u * u) / (v * v + u * u + 2 * (u * v) * cos (th m i))).
  { intros i Hi c. destruct (sec_Q m i Hi) as [HQ EQ]. rewrite <- EQ. apply highpass_power; auto. }
  assert (Dv : forall a f j, (forall i, (i < j)%nat -> 0 < f i) -> Rprod j (fun i => a * a / f i) = a ^ (2 * j) / Rprod j f).
  { intros a f j. rewrite pow_mult. induction j as [|j IH]; intros P; cbn [Rprod pow]; [field|]. rewrite IH by (intros; apply P; lia).
    assert (P0 := Rprod_pos j f ltac:(intros; apply P; lia)). specialize (P j ltac:(lia)). cbn [pow]. field. lra. }
  splits.
  - rewrite (Rprod_ext m _ (fun i => v * v / (v * v + u * u + 2 * (u * v) * cos (th m i)))) by (intros; apply LP; auto).
    rewrite (Dv v (fun i => v * v + u * u + 2 * (u * v) * cos (th m i))) by (intros; apply LP; auto). rewrite factor_uv by auto. reflexivity.
  - rewrite (Rprod_ext m _ (fun i => u * u / (v * v + u * u + 2 * (u * v) * cos (th m i)))) by (intros; apply HP; auto).
    rewrite (Dv u (fun i => v * v + u * u + 2 * (u * v) * cos (th m i))) by (intros; apply LP; auto). rewrite factor_uv by auto. reflexivity.
  - apply Forall_map, Forall_forall. intros i Hi. apply in_seq in Hi. apply stable_lowpass; auto. apply sec_Q. lia.
  - apply Forall_map, Forall_forall. intros i Hi. apply in_seq in Hi. apply stable_highpass; auto. apply sec_Q. lia.
  - rewrite <- factor_uv by auto. apply Rprod_pos. intros; apply LP; auto.
Qed.
