(* Rounding errors of complex arithmetic (complex.hh) *)
From Coq Require Import Reals Lra Psatz.
From Flocq Require Import Core.
From Coquelicot Require Import Complex.
From Verif Require Import Proofs.BaseLemmas Spec.Rounding Model.Complex Proofs.FftAlg.
Open Scope R_scope.

Lemma comp_le (p q k S : R) : 0 <= S -> Rabs p <= k * S -> Rabs q <= k * S -> 0 <= k -> Cmod (p, q) <= 1.4143 * k * S.
Proof.
  intros HS Hp Hq Hk. unfold Cmod. cbn [fst snd]. assert (0 <= k * S) by (apply Rmult_le_pos; auto). rewrite <- (sqrt_pow2 (1.4143 * k * S)) by nra. apply sqrt_le_1_alt.
  assert (Rabs p ^ 2 <= (k * S) ^ 2) by (apply pow_incr; split; auto using Rabs_pos). assert (Rabs q ^ 2 <= (k * S) ^ 2) by (apply pow_incr; split; auto using Rabs_pos).
  rewrite pow2_abs in *. replace ((1.4143 * k * S) ^ 2) with (1.4143 ^ 2 * (k * S) ^ 2) by ring. assert (0 <= (k * S) ^ 2) by nra. lra.
Qed.
Lemma comp_add (p q k S f : R) : 0 <= S -> 0 <= f -> Rabs p <= k * S + f -> Rabs q <= k * S + f -> 0 <= k -> Cmod (p, q) <= 1.4143 * k * S + 1.4143 * f.
Proof. intros HS Hf Hp Hq Hk. assert (0 <= k * S) by (apply Rmult_le_pos; auto). pose proof (comp_le p q 1 (k * S + f) ltac:(lra) ltac:(lra) ltac:(lra) ltac:(lra)). lra. Qed.
(** Cauchy-Schwarz for the two products of a component *)
Lemma cs (a b c d : R) : Rabs (a * c) + Rabs (b * d) <= Cmod (a, b) * Cmod (c, d).
Proof.
  unfold Cmod. cbn [fst snd]. rewrite <- sqrt_mult by nra. rewrite !Rabs_mult. set (A := Rabs a). set (B := Rabs b). set (X := Rabs c). set (D := Rabs d).
  assert (0 <= A /\ 0 <= B /\ 0 <= X /\ 0 <= D) as (HA & HB & HX & HD) by (unfold A, B, X, D; repeat split; apply Rabs_pos).
  rewrite <- (pow2_abs a), <- (pow2_abs b), <- (pow2_abs c), <- (pow2_abs d). fold A B X D. assert (0 <= A * X + B * D) by (apply Rplus_le_le_0_compat; apply Rmult_le_pos; auto). rewrite <- (sqrt_pow2 (A * X + B * D)) by auto. apply sqrt_le_1_alt. pose proof (pow2_ge_0 (A * D - B * X)). lra.
Qed.
Lemma cs' (a b c d : R) : Rabs (a * d) + Rabs (b * c) <= Cmod (a, b) * Cmod (c, d).
Proof. replace (Cmod (c, d)) with (Cmod (d, c)) by (unfold Cmod; cbn [fst snd]; f_equal; ring). apply cs. Qed.

Section S.
Context (u e : R) (rnd : R -> R).
Hypothesis Hr : rounding u e rnd.
Hypothesis Hu : 0 <= u <= 1 / 100.
Hypothesis He : 0 <= e.
(** a sum or difference of two rounded products *)
Lemma two (s : R) (p q S : R) : s = 1 \/ s = -1 -> Rabs p + Rabs q <= S -> Rabs (rnd (rnd p + s * rnd q) - (p + s * q)) <= 2.01 * u * S + 3.02 * e.
Proof.
  intros Hs HS. pose proof (Hr p) as P. pose proof (Hr q) as Q. pose proof (Hr (rnd p + s * rnd q)) as Z. pose proof (Rabs_pos p). pose proof (Rabs_pos q).
  assert (E1 : Rabs ((rnd p + s * rnd q) - (p + s * q)) <= u * S + 2 * e).
  { replace ((rnd p + s * rnd q) - (p + s * q)) with ((rnd p - p) + s * (rnd q - q)) by ring. eapply Rle_trans; [apply Rabs_triang|]. rewrite Rabs_mult. replace (Rabs s) with 1 by (destruct Hs as [-> | ->]; unfold Rabs; destruct Rcase_abs; lra). nra. }
  assert (E2 : Rabs (p + s * q) <= S). { eapply Rle_trans; [apply Rabs_triang|]. rewrite Rabs_mult. replace (Rabs s) with 1 by (destruct Hs as [-> | ->]; unfold Rabs; destruct Rcase_abs; lra). lra. }
  assert (E3 : Rabs (rnd p + s * rnd q) <= (1 + u) * S + 2 * e).
  { replace (rnd p + s * rnd q) with ((rnd p + s * rnd q - (p + s * q)) + (p + s * q)) by ring. eapply Rle_trans; [apply Rabs_triang|]. nra. }
  replace (rnd (rnd p + s * rnd q) - (p + s * q)) with ((rnd (rnd p + s * rnd q) - (rnd p + s * rnd q)) + ((rnd p + s * rnd q) - (p + s * q))) by ring.
  eapply Rle_trans; [apply Rabs_triang|]. assert (0 <= S) by lra. assert (U1 : u * Rabs (rnd p + s * rnd q) <= u * ((1 + u) * S + 2 * e)) by (apply Rmult_le_compat_l; lra).
  assert (U2 : u * (u * S) <= 1 / 100 * (u * S)) by (apply Rmult_le_compat_r; [apply Rmult_le_pos|]; lra). assert (U3 : u * e <= 1 / 100 * e) by (apply Rmult_le_compat_r; lra). lra.
Qed.
Lemma mul_round (a b : C) : Cmod (cmul (Fn rnd) a b - a * b)%C <= 3 * u * (Cmod a * Cmod b) + 5 * e.
Proof.
  destruct a as [a1 a2], b as [b1 b2]. set (S := Cmod (a1, a2) * Cmod (b1, b2)). assert (HS : 0 <= S) by (apply Rmult_le_pos; apply Cmod_ge_0).
  pose proof (two (-1) _ _ S ltac:(auto) (cs a1 a2 b1 b2)) as P. pose proof (two 1 _ _ S ltac:(auto) (cs' a1 a2 b1 b2)) as Q.
  unfold cmul, creal, cimag, Cminus, Cplus, Copp, Cmult. cbn [nsub nadd nmul Fn fst snd].
  eapply Rle_trans; [apply (comp_add _ _ (2.01 * u) S (3.02 * e)); auto; try lra|].
  3: { assert (0 <= u * S) by (apply Rmult_le_pos; lra). lra. }
  - replace (rnd (rnd (a1 * b1) - rnd (a2 * b2))) with (rnd (rnd (a1 * b1) + -1 * rnd (a2 * b2))) by (f_equal; ring). eapply Rle_trans; [right|apply P]. f_equal. ring.
  - replace (rnd (rnd (a1 * b2) + rnd (a2 * b1))) with (rnd (rnd (a1 * b2) + 1 * rnd (a2 * b1))) by (f_equal; ring). eapply Rle_trans; [right|apply Q]. f_equal. ring.
Qed.
End S.

Section X.
Context (u : R) (rnd : R -> R).
Hypothesis Hr : rounding u 0 rnd.
Hypothesis Hu : 0 <= u <= 1 / 100.
Lemma norm_round (b : C) : Rabs (cnorm (Fn rnd) b - Cmod b ^ 2) <= 2.01 * u * Cmod b ^ 2.
Proof.
  destruct b as [c d]. assert (M : Cmod (c, d) ^ 2 = c * c + d * d) by (unfold Cmod; cbn [fst snd]; rewrite pow2_sqrt; [ring|nra]).
  pose proof (two u 0 rnd Hr Hu ltac:(lra) 1 (c * c) (d * d) (Cmod (c, d) ^ 2) ltac:(auto)) as P. unfold cnorm, creal, cimag. cbn [nadd nmul Fn fst snd]. rewrite M in *.
  rewrite !Rmult_1_l, Rmult_0_r, Rplus_0_r in P. apply P. rewrite !Rabs_pos_eq by nra. lra.
Qed.
Lemma quot (n m N D P : R) : 0 < m -> Rabs n <= P -> Rabs (N - n) <= 2.01 * u * P -> Rabs (D - m) <= 2.01 * u * m -> Rabs (rnd (N / D) - n / m) <= 5.2 * u * (P / m).
Proof.
  intros Hm Hn HN HD. pose proof (Rabs_pos n) as Pn. assert (HP : 0 <= P) by lra. apply Rabs_le_inv in HD.
  assert (Dm : 0.979 * m <= D) by nra. assert (D0 : 0 < D) by lra. set (k := / m). assert (K : 0 < k) by (apply Rinv_0_lt_compat; auto).
  assert (KD : / D <= 1.022 * k). { apply Rmult_le_reg_l with D; auto. rewrite Rinv_r by lra. unfold k. apply Rmult_le_reg_r with m; auto. replace (D * (1.022 * / m) * m) with (1.022 * D) by (field; lra). lra. }
  assert (E : Rabs (N / D - n / m) <= 4.12 * u * (P * k)).
  { replace (N / D - n / m) with ((N - n) * / D + n * ((m - D) * k * / D)) by (unfold k; field; lra). eapply Rle_trans; [apply Rabs_triang|]. rewrite !Rabs_mult.
    assert (ID : 0 < / D) by (apply Rinv_0_lt_compat; auto). rewrite (Rabs_pos_eq (/ D)), (Rabs_pos_eq k) by lra.
    assert (MD : Rabs (m - D) <= 2.01 * u * m) by (apply Rabs_le; lra).
    assert (A : Rabs (N - n) * / D <= 2.01 * u * P * (1.022 * k)) by (apply Rmult_le_compat; auto; try lra; apply Rabs_pos).
    assert (B : Rabs (m - D) * k * / D <= 2.01 * u * (1.022 * k)).
    { apply Rle_trans with (2.01 * u * m * k * (1.022 * k)). { apply Rmult_le_compat; auto; try lra. { apply Rmult_le_pos; [apply Rabs_pos|lra]. } apply Rmult_le_compat_r; auto; lra. } replace (2.01 * u * m * k) with (2.01 * u) by (unfold k; field; lra). lra. }
    assert (B' : Rabs n * (Rabs (m - D) * k * / D) <= P * (2.01 * u * (1.022 * k))). { apply Rmult_le_compat; auto; try lra. repeat apply Rmult_le_pos; try lra. apply Rabs_pos. }
    assert (0 <= u * (P * k)) by (apply Rmult_le_pos; [lra|apply Rmult_le_pos; lra]). nra. }
  pose proof (Hr (N / D)) as R. assert (Q : Rabs (n / m) <= P * k). { unfold Rdiv. rewrite Rabs_mult. fold k. rewrite (Rabs_pos_eq k) by lra. apply Rmult_le_compat_r; lra. }
  assert (ND : Rabs (N / D) <= (1 + 4.12 * u) * (P * k)). { replace (N / D) with ((N / D - n / m) + n / m) by ring. eapply Rle_trans; [apply Rabs_triang|]. lra. }
  replace (rnd (N / D) - n / m) with ((rnd (N / D) - N / D) + (N / D - n / m)) by ring. eapply Rle_trans; [apply Rabs_triang|]. replace (P / m) with (P * k) by reflexivity.
  assert (0 <= P * k) by (apply Rmult_le_pos; lra). rewrite Rplus_0_r in R.
  assert (u * Rabs (N / D) <= u * ((1 + 4.12 * u) * (P * k))) by (apply Rmult_le_compat_l; lra).
  assert (u * (P * k) * (4.12 * u) <= u * (P * k) * 0.0412) by (apply Rmult_le_compat_l; [apply Rmult_le_pos|]; lra). assert (0 <= u * (P * k)) by (apply Rmult_le_pos; lra). lra.
Qed.
Lemma div_round (a b : C) : b <> 0%C -> Cmod (cdiv (Fn rnd) a b - a / b)%C <= 8 * u * Cmod (a / b)%C.
Proof.
  intros Hb. rewrite Cmod_div by auto. pose proof (norm_round b) as D. pose proof (Cmod_gt_0 b) as [G _]. specialize (G Hb). destruct a as [a1 a2], b as [b1 b2].
  set (S := Cmod (a1, a2) * Cmod (b1, b2)) in *. set (m := Cmod (b1, b2) ^ 2) in *. assert (Hm : 0 < m) by (unfold m; nra).
  assert (M : m = b1 ^ 2 + b2 ^ 2) by (unfold m, Cmod; cbn [fst snd]; rewrite pow2_sqrt; nra).
  pose proof (cs a1 a2 b1 b2) as C1'. pose proof (cs' a2 a1 b2 b1) as C2'.
  assert (SW : Cmod (a2, a1) * Cmod (b2, b1) = S). { unfold S. f_equal; unfold Cmod; cbn [fst snd]; f_equal; ring. } rewrite SW in C2'. fold S in C1'.
  pose proof (two u 0 rnd Hr Hu ltac:(lra) 1 _ _ S ltac:(auto) C1') as P. pose proof (two u 0 rnd Hr Hu ltac:(lra) (-1) _ _ S ltac:(auto) C2') as Q.
  rewrite Rmult_0_r, Rplus_0_r in P, Q. rewrite !Rmult_1_l in P.
  replace (rnd (a2 * b1) + -1 * rnd (a1 * b2)) with (rnd (a2 * b1) - rnd (a1 * b2)) in Q by ring. replace (a2 * b1 + -1 * (a1 * b2)) with (a2 * b1 - a1 * b2) in Q by ring.
  assert (HS : 0 <= S) by (apply Rmult_le_pos; apply Cmod_ge_0).
  assert (N1 : Rabs (a1 * b1 + a2 * b2) <= S) by (eapply Rle_trans; [apply Rabs_triang|auto]).
  assert (N2 : Rabs (a2 * b1 - a1 * b2) <= S). { unfold Rminus. eapply Rle_trans; [apply Rabs_triang|]. rewrite Rabs_Ropp. auto. }
  pose proof (quot _ m _ _ S Hm N1 P D) as E1. pose proof (quot _ m _ _ S Hm N2 Q D) as E2.
  assert (SM : S / m = Cmod (a1, a2) / Cmod (b1, b2)) by (unfold S, m; field; lra). rewrite SM in *.
  unfold cnorm in E1, E2. cbn [nadd nmul Fn] in E1, E2. unfold creal, cimag in E1, E2. cbn [fst snd] in E1, E2.
  unfold cdiv, creal, cimag, Cminus, Cplus, Copp, Cdiv, Cinv, Cmult. cbn [nsub nadd nmul ndiv Fn fst snd].
  assert (0 <= Cmod (a1, a2) / Cmod (b1, b2)) by (rewrite <- SM; apply Rmult_le_pos; [auto|apply Rlt_le, Rinv_0_lt_compat; auto]).
  eapply Rle_trans; [apply (comp_le _ _ (5.2 * u) (Cmod (a1, a2) / Cmod (b1, b2))); auto; try lra|].
  3: { assert (0 <= u * (Cmod (a1, a2) / Cmod (b1, b2))) by (apply Rmult_le_pos; lra). lra. }
  - assert (X : a1 * (b1 / (b1 ^ 2 + b2 ^ 2)) - a2 * (- b2 / (b1 ^ 2 + b2 ^ 2)) = (a1 * b1 + a2 * b2) / m) by (rewrite M; field; rewrite <- M; lra). rewrite X. exact E1.
  - assert (X : a1 * (- b2 / (b1 ^ 2 + b2 ^ 2)) + a2 * (b1 / (b1 ^ 2 + b2 ^ 2)) = (a2 * b1 - a1 * b2) / m) by (rewrite M; field; rewrite <- M; lra). rewrite X. exact E2.
Qed.
Lemma abs_round (a : C) : Rabs (cabs (Fn rnd) a - Cmod a) <= 3 * u * Cmod a.
Proof.
  pose proof (norm_round a) as D. unfold cabs. cbn [nsqrt Fn]. set (N := cnorm (Fn rnd) a) in *. pose proof (Cmod_ge_0 a) as G. set (m := Cmod a) in *. pose proof (Hr (sqrt N)) as R. rewrite Rplus_0_r in R.
  apply Rabs_le_inv in D. assert (m2 : 0 <= m ^ 2) by nra. assert (N0 : 0.979 * m ^ 2 <= N) by nra. pose proof (sqrt_pos N) as SP. assert (SS : sqrt N * sqrt N = N) by (apply sqrt_sqrt; nra).
  assert (E : Rabs (sqrt N - m) <= 1.1 * u * m).
  { apply Rabs_le. assert (S1 : 0.98 * m <= sqrt N) by (apply Rnot_lt_le; intros L; nra). split.
    - apply Rnot_lt_le. intros L. assert (sqrt N < (1 - 1.1 * u) * m) by lra. assert (sqrt N * sqrt N < (1 - 1.1 * u) * m * ((1 - 1.1 * u) * m)) by nra. assert ((1 - 1.1 * u) * m * ((1 - 1.1 * u) * m) <= (1 - 2.01 * u) * m ^ 2) by nra. nra.
    - apply Rnot_lt_le. intros L. assert ((1 + 1.1 * u) * m < sqrt N) by lra. assert (0 <= (1 + 1.1 * u) * m) by nra. assert ((1 + 1.1 * u) * m * ((1 + 1.1 * u) * m) < sqrt N * sqrt N) by nra. assert ((1 + 2.01 * u) * m ^ 2 <= (1 + 1.1 * u) * m * ((1 + 1.1 * u) * m)) by nra. nra. }
  replace (rnd (sqrt N) - m) with ((rnd (sqrt N) - sqrt N) + (sqrt N - m)) by ring. eapply Rle_trans; [apply Rabs_triang|].
  assert (Rabs (sqrt N) <= 1.011 * m). { rewrite Rabs_pos_eq by auto. apply Rabs_le_inv in E. nra. } nra.
Qed.
End X.
