(* EMA::cutoff in a binary floating-point format: the square root stays defined, the factor stays in [0, 1), and how
   far it is from the exact factor *)
From Coq Require Import Reals ZArith Lia Lra List Psatz.
From Interval Require Import Tactic.
From Flocq Require Import Core.
From Verif Require Import Proofs.BaseLemmas Spec.Rounding Model.UnitCircle Model.Ema Proofs.KahanFloat Proofs.KaiserRound.
Open Scope R_scope.

Section EmaR.
Context (emin prec : Z) (Hp : (20 <= prec)%Z) (He : (emin <= - prec - 110)%Z).
Notation rnd := (FLTrnd emin prec).
Notation u := (ulp_u prec).
Notation e := (bpow radix2 (emin - 1)).
Notation F := (FLTfmt emin prec).

Lemma HPp : Prec_gt_0 prec. Proof. unfold Prec_gt_0. lia. Qed.
Lemma half m y : (0 <= m)%Z -> Rabs y < bpow radix2 m -> Rabs (rnd y - y) <= bpow radix2 (m - 1) * u.
Proof.
  intros Hm Hy. pose proof HPp as HP. pose proof (error_le_half_ulp radix2 (FLT_exp emin prec) (fun x => negb (Z.even x)) y) as E.
  unfold FLTrnd. eapply Rle_trans; [exact E|]. assert (U : ulp radix2 (FLT_exp emin prec) y <= bpow radix2 (m - prec)).
  { destruct (Req_dec y 0) as [->|Z]; [rewrite ulp_FLT_small; auto; [apply bpow_le; lia|rewrite Rabs_R0; apply bpow_gt_0]|].
    rewrite ulp_neq_0 by auto. apply bpow_le. unfold cexp, FLT_exp. pose proof (mag_le_bpow radix2 y m Z Hy). lia. }
  unfold ulp_u. rewrite <- bpow_plus. replace (m - 1 + - prec)%Z with (m - prec + -1)%Z by lia. rewrite bpow_plus. change (bpow radix2 (-1)) with (/ 2). lra.
Qed.
Lemma half4 y : Rabs y < 4 -> Rabs (rnd y - y) <= 2 * u. Proof. intros H. apply (half 2 y); [lia|exact H]. Qed.
(** neighbours of 1 and of 3 *)
Lemma gap1 x : F x -> x < 1 -> x <= 1 - u.
Proof.
  intros Fx L. pose proof HPp as HP. pose proof (pred_ge_gt radix2 (FLT_exp emin prec) x 1 Fx) as P. change 1 with (bpow radix2 0) in P at 3.
  rewrite pred_bpow in P. replace (FLT_exp emin prec 0) with (- prec)%Z in P by (unfold FLT_exp; lia). apply P; auto. apply (fmt_Z emin prec Hp He 1). cbn. pose proof (Z.pow_le_mono_r 2 0 prec). lia.
Qed.
Lemma ulp3 : ulp radix2 (FLT_exp emin prec) 3 = 4 * u.
Proof.
  pose proof HPp as HP. rewrite ulp_neq_0 by lra. unfold cexp, FLT_exp. rewrite (mag_unique_pos radix2 3 2) by (change (bpow radix2 (2 - 1)) with 2; change (bpow radix2 2) with 4; lra).
  rewrite Z.max_l by lia. unfold Z.sub. rewrite bpow_plus. reflexivity.
Qed.
Lemma fmt3 : F 3. Proof. apply (fmt_Z emin prec Hp He 3). cbn. pose proof (Z.pow_le_mono_r 2 20 prec). lia. Qed.
Lemma gap3 x : F x -> 3 < x -> 3 + 4 * u <= x.
Proof.
  intros Fx L. pose proof HPp as HP. pose proof (succ_le_lt radix2 (FLT_exp emin prec) 3 x fmt3 Fx L) as P. rewrite succ_eq_pos, ulp3 in P by lra. exact P.
Qed.
Lemma gap3' x : F x -> x < 3 -> x <= 3 - 4 * u.
Proof.
  intros Fx L. pose proof HPp as HP. pose proof (pred_ge_gt radix2 (FLT_exp emin prec) x 3 Fx fmt3 L) as P. rewrite pred_eq_pos in P by lra. unfold pred_pos in P.
  rewrite (mag_unique_pos radix2 3 2) in P by (change (bpow radix2 (2 - 1)) with 2; change (bpow radix2 2) with 4; lra). change (bpow radix2 (2 - 1)) with 2 in P. rewrite Req_bool_false in P by lra. rewrite ulp3 in P. exact P.
Qed.
Lemma opp_fmt x : F x -> F (- x). Proof. apply generic_format_opp. Qed.
Lemma rnd_opp x : rnd (- x) = - rnd x. Proof. apply round_NE_opp. Qed.

(** the argument of the square root *)
Definition rad (x : R) : R := rnd (rnd (x * rnd (x - 4)) + 3).
Definition alp (x : R) : R := rnd (rnd (x - 1) + rnd (sqrt (rad x))).
Lemma rad_1 : rad 1 = 0.
Proof.
  unfold rad. replace (1 - 4) with (- (3)) by lra. rewrite rnd_opp, (fmt_id emin prec 3 fmt3). replace (1 * - (3)) with (- (3)) by lra. rewrite rnd_opp, (fmt_id emin prec 3 fmt3).
  replace (- (3) + 3) with 0 by lra. apply rnd_0.
Qed.
Lemma alp_1 : alp 1 = 0.
Proof. unfold alp. rewrite rad_1, sqrt_0, Rminus_diag_eq, rnd_0 by reflexivity. replace (0 + 0) with 0 by lra. apply rnd_0. Qed.

(** close to 1 the product does not round to -3 *)
Lemma prod_gap x : F x -> 0 < x < 1 -> rnd (x * rnd (x - 4)) >= -3 + 4 * u.
Proof.
  intros Fx [X0 X1]. pose proof (u_range prec Hp) as U. pose proof (gap1 x Fx X1) as G. set (w := 1 - x). assert (W : u <= w) by (unfold w; lra).
  set (c := rnd (x - 4)). assert (Fc : F c) by apply (rnd_fmt emin prec Hp).
  assert (D : Rabs (c - (x - 4)) <= 2 * u) by (apply half4; apply Rabs_def1; lra). apply Rabs_le_inv in D.
  assert (C3 : c <= -3). { replace (-3) with (rnd (- (3))) by (rewrite rnd_opp, (fmt_id emin prec 3 fmt3); lra). apply (rnd_mono emin prec Hp). lra. }
  assert (B : x * c > -3 + 2 * u).
  { destruct (Req_dec c (-3)) as [->|N]; [unfold w in *; lra|]. assert (C4 : c <= -3 - 4 * u) by (pose proof (gap3 (- c) (opp_fmt _ Fc) ltac:(lra)); lra).
    assert (W2 : 2 * u <= w) by (unfold w in *; lra). assert (x * c >= x * (x - 4 - 2 * u)) by (apply Rle_ge, Rmult_le_compat_l; lra).
    replace x with (1 - w) in * by (unfold w; ring). assert (0 <= w * w) by nra. assert (0 < w * u) by nra. nra. }
  set (p := rnd (x * c)). assert (P : Rabs (p - x * c) <= 2 * u). { apply half4. apply Rabs_def1; nra. } apply Rabs_le_inv in P.
  assert (Fq : F p) by apply (rnd_fmt emin prec Hp). pose proof (gap3' (- p) (opp_fmt _ Fq) ltac:(lra)). lra.
Qed.
Lemma rad_nonneg x : F x -> -1 <= x <= 1 -> 0 <= rad x /\ (x < 1 -> 4 * u <= rad x).
Proof.
  intros Fx X. pose proof (u_range prec Hp) as U. destruct (Req_dec x 1) as [->|N]; [rewrite rad_1; split; [lra|intros; lra]|].
  assert (L : 4 * u <= rad x); [|split; lra].
  assert (F4 : rnd (4 * u) = 4 * u). { apply fmt_id. unfold ulp_u. change 4 with (bpow radix2 2). rewrite <- bpow_plus. apply generic_format_bpow. unfold FLT_exp. lia. }
  rewrite <- F4 at 1. apply (rnd_mono emin prec Hp). destruct (Rlt_dec 0 x) as [P|P]; [pose proof (prod_gap x Fx ltac:(lra)); lra|].
  assert (C : rnd (x - 4) <= 0) by (rewrite <- (rnd_0 emin prec); apply (rnd_mono emin prec Hp); lra).
  assert (Q : 0 <= rnd (x * rnd (x - 4))) by (rewrite <- (rnd_0 emin prec) at 1; apply (rnd_mono emin prec Hp); nra). lra.
Qed.

(** error of the radicand *)
Lemma rad_err x : -1 <= x <= 1 -> Rabs (rad x - (1 - x) * (3 - x)) <= 20 * u.
Proof.
  intros X. pose proof (u_range prec Hp) as U. pose proof (half 3 (x - 4) ltac:(lia)) as D. change (bpow radix2 3) with 8 in D. change (bpow radix2 (3 - 1)) with 4 in D.
  specialize (D ltac:(apply Rabs_def1; lra)). set (c := rnd (x - 4)) in *. apply Rabs_le_inv in D.
  assert (XC : Rabs (x * c - x * (x - 4)) <= 4 * u). { replace (x * c - x * (x - 4)) with (x * (c - (x - 4))) by ring. rewrite Rabs_mult. apply Rle_trans with (1 * (4 * u)); [|lra]. apply Rmult_le_compat; auto using Rabs_pos; apply Rabs_le; lra. }
  apply Rabs_le_inv in XC. assert (PB : -3 <= x * (x - 4) <= 5) by nra.
  pose proof (half 3 (x * c) ltac:(lia)) as D2. change (bpow radix2 3) with 8 in D2. change (bpow radix2 (3 - 1)) with 4 in D2. specialize (D2 ltac:(apply Rabs_def1; lra)). 
  unfold rad. fold c. set (p := rnd (x * c)) in *. apply Rabs_le_inv in D2.
  pose proof (half 4 (p + 3) ltac:(lia)) as D3. change (bpow radix2 4) with 16 in D3. change (bpow radix2 (4 - 1)) with 8 in D3. specialize (D3 ltac:(apply Rabs_def1; lra)). apply Rabs_le_inv in D3.
  apply Rabs_le. assert ((1 - x) * (3 - x) = x * (x - 4) + 3) by ring. lra.
Qed.

Lemma sqrt_diff a b : 0 <= a -> 0 <= b -> Rabs (sqrt a - sqrt b) <= sqrt (Rabs (a - b)).
Proof.
  intros A B. pose proof (sqrt_pos a) as PA. pose proof (sqrt_pos b) as PB. apply Rsqr_incr_0; [|apply Rabs_pos|apply sqrt_pos].
  rewrite Rsqr_sqrt by apply Rabs_pos. rewrite <- Rsqr_abs. unfold Rsqr.
  assert (E : a - b = (sqrt a - sqrt b) * (sqrt a + sqrt b)) by (pose proof (sqrt_def a A); pose proof (sqrt_def b B); nra).
  destruct (Rle_dec (sqrt a) (sqrt b)) as [L|L].
  - rewrite (Rabs_left1 (a - b)) by nra. nra.
  - rewrite (Rabs_pos_eq (a - b)) by nra. nra.
Qed.

Lemma alp_pos x : F x -> -1 <= x < 1 -> 0 < alp x <= 9/10.
Proof.
  intros Fx X. pose proof (u_range prec Hp) as U. pose proof (e_range emin prec He) as E. pose proof (gap1 x Fx ltac:(lra)) as G.
  destruct (rad_nonneg x Fx ltac:(lra)) as [R0 R4]. specialize (R4 ltac:(lra)). pose proof (rad_err x ltac:(lra)) as RE. apply Rabs_le_inv in RE.
  set (s := rad x) in *. set (w := 1 - x) in *. assert (W : u <= w <= 2) by (unfold w; lra). replace (3 - x) with (2 + w) in RE by (unfold w; ring).
  set (q := sqrt s). assert (Q0 : 0 <= q) by apply sqrt_pos. assert (QQ : q * q = s) by (apply sqrt_def; lra).
  (* 1.1 w <= q *)
  assert (L : 11/10 * w <= q).
  { apply Rsqr_incr_0; [|nra|auto]. unfold Rsqr. rewrite QQ. destruct (Rle_dec w (20 * u)) as [S|S]; [apply Rle_trans with (4 * u); [|auto]; nra|]. nra. }
  assert (Hq : q <= w + 84/100).
  { apply Rsqr_incr_0; [|auto|lra]. unfold Rsqr. rewrite QQ. nra. }
  unfold alp. fold s q. replace (x - 1) with (- w) by (unfold w; ring). rewrite rnd_opp.
  pose proof (rnd_err emin prec Hp w) as EW. pose proof (rnd_err emin prec Hp q) as EQ. rewrite (Rabs_pos_eq w) in EW by lra. rewrite (Rabs_pos_eq q) in EQ by lra.
  apply Rabs_le_inv in EW, EQ. set (d := - rnd w + rnd q). 
  assert (Dl : w / 20 <= d) by (unfold d; nra). assert (Dh : d <= 86/100) by (unfold d; nra).
  pose proof (rnd_err emin prec Hp d) as ED. rewrite (Rabs_pos_eq d) in ED by lra. apply Rabs_le_inv in ED. split; [|nra]. nra.
Qed.
(** distance from the exact factor *)
Lemma alp_err x t : 0 < sin (t / 2) -> F x -> -1 <= x <= 1 -> Rabs (x - cos t) <= 83/10 * u ->
  Rabs (alp x - (cos t - 1 + sqrt ((1 - cos t) * (3 - cos t)))) <= 50 * u / sin (t / 2).
Proof.
  intros S0 Fx X D. pose proof (u_range prec Hp) as U. set (S := sin (t / 2)) in *. pose proof (SIN_bound (t / 2)) as SB. fold S in SB.
  assert (C2 : 1 - cos t = 2 * (S * S)). { unfold S. replace t with (2 * (t / 2)) at 1 by field. rewrite cos_2a_sin. ring. }
  pose proof (COS_bound t) as CB. set (c := cos t) in *. set (A := (1 - c) * (3 - c)). assert (A2 : (2 * S) * (2 * S) <= A) by (unfold A; nra).
  set (r := sqrt A). assert (R2 : 2 * S <= r). { unfold r. rewrite <- (sqrt_square (2 * S)) by lra. apply sqrt_le_1_alt. exact A2. }
  assert (RR : r * r = A) by (apply sqrt_def; nra).
  pose proof (rad_err x X) as RE. destruct (rad_nonneg x Fx X) as [R0 _].
  assert (DA : Rabs (rad x - A) <= 70 * u).
  { replace (rad x - A) with ((rad x - (1 - x) * (3 - x)) + ((1 - x) * (3 - x) - A)) by ring. eapply Rle_trans; [apply Rabs_triang|].
    replace ((1 - x) * (3 - x) - A) with ((x - c) * (x + c - 4)) by (unfold A; ring). rewrite Rabs_mult.
    assert (Rabs (x + c - 4) <= 6) by (apply Rabs_le; lra). pose proof (Rabs_pos (x - c)). pose proof (Rabs_pos (x + c - 4)). nra. }
  set (q := sqrt (rad x)). assert (Q0 : 0 <= q) by apply sqrt_pos. assert (QQ : q * q = rad x) by (apply sqrt_def; auto).
  assert (DQ : Rabs (q - r) <= 35 * u / S).
  { replace (rad x - A) with ((q - r) * (q + r)) in DA by nra. rewrite Rabs_mult, (Rabs_pos_eq (q + r)) in DA by lra. apply (Rmult_le_reg_r (2 * S)); [lra|].
    replace (35 * u / S * (2 * S)) with (70 * u) by (field; lra). pose proof (Rabs_pos (q - r)). nra. }
  assert (Q3 : q < 4). { apply Rsqr_incrst_0; [|auto|lra]. unfold Rsqr. rewrite QQ. apply Rabs_le_inv in RE. nra. }
  pose proof (half4 q ltac:(apply Rabs_def1; lra)) as E2. pose proof (half4 (x - 1) ltac:(apply Rabs_def1; lra)) as E1.
  assert (AB : Rabs (rnd (x - 1) + rnd q) < 4).
  { pose proof (rad_err x X) as RE2. apply Rabs_le_inv in E1, E2. assert (q < 3). { apply Rsqr_incrst_0; [|auto|lra]. unfold Rsqr. rewrite QQ. apply Rabs_le_inv in RE2. nra. } apply Rabs_def1; lra. }
  pose proof (half4 _ AB) as E3. unfold alp. fold q.
  assert (U1 : 15 * u <= 15 * u / S). { apply (Rmult_le_reg_r S); [lra|]. replace (15 * u / S * S) with (15 * u) by (field; lra). nra. }
  replace (50 * u / S) with (35 * u / S + 15 * u / S) by (field; lra). apply Rabs_le_inv in E1, E2, E3, D, DQ. apply Rabs_le. unfold c in *. lra.
Qed.
End EmaR.
