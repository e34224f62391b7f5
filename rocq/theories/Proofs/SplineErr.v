(* Distance between a smooth function and the splines through its samples. *)
From Coq Require Import Reals Psatz Lia.
From Coquelicot Require Import Coquelicot.
From Verif Require Import Spec.Interp Proofs.SplineMin.
Open Scope R_scope.

Lemma mvt (f f1 : R -> R) p q : p < q -> (forall t, p <= t <= q -> is_derive f t (f1 t)) -> exists c, f q - f p = f1 c * (q - p) /\ p < c < q.
Proof. intros H D. apply MVT_cor2; auto. intros c Hc. apply is_derive_Reals. apply D; auto. Qed.

(** a convex function lies below its chord *)
Lemma convex (f f1 f2 : R -> R) p q : (forall t, p <= t <= q -> is_derive f t (f1 t)) -> (forall t, p <= t <= q -> is_derive f1 t (f2 t)) ->
  (forall t, p <= t <= q -> 0 <= f2 t) -> f p <= 0 -> f q <= 0 -> forall x, p <= x <= q -> f x <= 0.
Proof.
  intros D1 D2 N Hp Hq x Hx. destruct (Rle_or_lt (f x) 0) as [H|H]; auto. exfalso.
  assert (p <> x) by (intros ->; lra). assert (x <> q) by (intros ->; lra).
  destruct (mvt f f1 p x) as (c & Ec & Hc); [lra|intros; apply D1; lra|]. destruct (mvt f f1 x q) as (d & Ed & Hd); [lra|intros; apply D1; lra|].
  destruct (mvt f1 f2 c d) as (e & Ee & He); [lra|intros; apply D2; lra|].
  assert (0 <= f2 e) by (apply N; lra). assert (0 < f1 c). { apply Rnot_le_lt. intros K. assert (f1 c * (x - p) <= 0) by nra. lra. }
  assert (f1 d < 0). { apply Rnot_le_lt. intros K. assert (0 <= f1 d * (q - x)) by (apply Rmult_le_pos; lra). lra. }
  assert (0 <= f2 e * (d - c)) by (apply Rmult_le_pos; lra). lra.
Qed.
(** a function with zeros at p and q and second derivative at most C *)
Lemma zeros_le (E E1 E2 : R -> R) p q C : (forall t, p <= t <= q -> is_derive E t (E1 t)) -> (forall t, p <= t <= q -> is_derive E1 t (E2 t)) ->
  (forall t, p <= t <= q -> - C <= E2 t) -> E p = 0 -> E q = 0 -> forall x, p <= x <= q -> E x <= C / 2 * ((x - p) * (q - x)).
Proof.
  intros D1 D2 B Ep Eq x Hx.
  enough (E x - C / 2 * ((x - p) * (q - x)) <= 0) by lra.
  apply (convex (fun t => E t - C / 2 * ((t - p) * (q - t))) (fun t => E1 t - C / 2 * (p + q - 2 * t)) (fun t => E2 t + C) p q); auto.
  - intros t Ht. apply (is_derive_minus E (fun t => C / 2 * ((t - p) * (q - t)))); [apply D1; auto|]. auto_derive; auto. field.
  - intros t Ht. replace (E2 t + C) with (minus (E2 t) (- C)) by (cbn; unfold minus, plus, opp; cbn; ring).
    apply (is_derive_minus E1 (fun t => C / 2 * (p + q - 2 * t))); [apply D2; auto|]. auto_derive; auto. field.
  - intros t Ht. specialize (B t Ht). lra.
  - rewrite Ep. lra.
  - rewrite Eq. lra.
Qed.
Lemma zeros_abs (E E1 E2 : R -> R) p q C : (forall t, p <= t <= q -> is_derive E t (E1 t)) -> (forall t, p <= t <= q -> is_derive E1 t (E2 t)) ->
  (forall t, p <= t <= q -> Rabs (E2 t) <= C) -> E p = 0 -> E q = 0 -> forall x, p <= x <= q -> Rabs (E x) <= C / 8 * (q - p) ^ 2.
Proof.
  intros D1 D2 B Ep Eq x Hx.
  assert (C0 : 0 <= C) by (eapply Rle_trans; [apply Rabs_pos|apply (B x Hx)]).
  assert (Q : C / 2 * ((x - p) * (q - x)) <= C / 8 * (q - p) ^ 2).
  { replace (C / 8 * (q - p) ^ 2) with (C / 2 * ((q - p) ^ 2 / 4)) by field. apply Rmult_le_compat_l; [lra|]. pose proof (pow2_ge_0 (x - p - (q - x))). nra. }
  apply Rabs_le. split.
  - enough (- E x <= C / 2 * ((x - p) * (q - x))) by lra.
    apply (zeros_le (fun t => - E t) (fun t => - E1 t) (fun t => - E2 t) p q C); auto.
    + intros t Ht. apply (is_derive_opp E). auto.
    + intros t Ht. apply (is_derive_opp E1). auto.
    + intros t Ht. specialize (B t Ht). apply Rabs_le_between in B. lra.
    + rewrite Ep; ring.
    + rewrite Eq; ring.
  - enough (E x <= C / 2 * ((x - p) * (q - x))) by lra. apply (zeros_le E E1 E2 p q C); auto. intros t Ht. specialize (B t Ht). apply Rabs_le_between in B. lra.
Qed.

(** Taylor with the second derivative bounded *)
Lemma taylor_up (G G1 G2 : R -> R) p q B : p < q -> (forall t, p <= t <= q -> is_derive G t (G1 t)) -> (forall t, p <= t <= q -> is_derive G1 t (G2 t)) ->
  (forall t, p <= t <= q -> G2 t <= B) -> G q - G p - G1 p * (q - p) <= B / 2 * (q - p) ^ 2.
Proof.
  intros L D1 D2 H. set (f := fun t => G t - G1 p * (t - p) - B / 2 * (t - p) ^ 2). set (f1 := fun t => G1 t - G1 p - B * (t - p)).
  destruct (mvt f f1 p q L) as (c & E & Hc).
  { intros t Ht. unfold f, f1. apply (is_derive_minus (fun t => G t - G1 p * (t - p)) (fun t => B / 2 * (t - p) ^ 2)).
    - apply (is_derive_minus G (fun t => G1 p * (t - p))); [apply D1; auto|]. auto_derive; auto; ring.
    - auto_derive; auto; field. }
  assert (N : f1 c <= 0).
  { unfold f1. destruct (mvt G1 G2 p c) as (d & Ed & Hd); [lra|intros; apply D2; lra|]. assert (G2 d <= B) by (apply H; lra).
    assert (G2 d * (c - p) <= B * (c - p)) by (apply Rmult_le_compat_r; lra). lra. }
  assert (f1 c * (q - p) <= 0) by nra. unfold f in E. replace (p - p) with 0 in E by ring. lra.
Qed.
Section Taylor.
Variables (G G1 G2 : R -> R) (p q B : R).
Hypothesis D1 : forall t, p <= t <= q -> is_derive G t (G1 t).
Hypothesis D2 : forall t, p <= t <= q -> is_derive G1 t (G2 t).
Hypothesis HB : forall t, p <= t <= q -> Rabs (G2 t) <= B.
Lemma taylor_right x y : p <= x -> x < y -> y <= q -> Rabs (G y - G x - G1 x * (y - x)) <= B / 2 * (y - x) ^ 2.
Proof.
  intros Hx Hl Hy. apply Rabs_le. split.
  - enough (- G y - - G x - - G1 x * (y - x) <= B / 2 * (y - x) ^ 2) by lra.
    apply (taylor_up (fun t => - G t) (fun t => - G1 t) (fun t => - G2 t)); auto.
    + intros t Ht. apply (is_derive_opp G). apply D1; lra.
    + intros t Ht. apply (is_derive_opp G1). apply D2; lra.
    + intros t Ht. specialize (HB t ltac:(lra)). apply Rabs_le_between in HB. lra.
  - apply (taylor_up G G1 G2); auto; intros t Ht; [apply D1; lra|apply D2; lra|]. specialize (HB t ltac:(lra)). apply Rabs_le_between in HB. lra.
Qed.
End Taylor.
Lemma taylor_left (G G1 G2 : R -> R) (p q B : R) : (forall t, p <= t <= q -> is_derive G t (G1 t)) -> (forall t, p <= t <= q -> is_derive G1 t (G2 t)) ->
  (forall t, p <= t <= q -> Rabs (G2 t) <= B) -> forall x y, p <= y -> y < x -> x <= q -> Rabs (G y - G x - G1 x * (y - x)) <= B / 2 * (y - x) ^ 2.
Proof.
  intros D1 D2 HB x y Hy Hl Hx.
  pose proof (taylor_right (fun t => G (- t)) (fun t => - G1 (- t)) (fun t => G2 (- t)) (- q) (- p) B) as T.
  assert (T' := T). clear T. specialize (T').
  assert (A : Rabs (G (- - y) - G (- - x) - - G1 (- - x) * (- y - - x)) <= B / 2 * (- y - - x) ^ 2).
  { apply T'; try lra.
    - intros t Ht. replace (- G1 (- t)) with (scal (-1) (G1 (- t))) by (cbn; unfold scal, mult; cbn; unfold mult; cbn; ring).
      apply (is_derive_comp G (fun t => - t)); [apply D1; lra|]. auto_derive; auto; ring.
    - intros t Ht. replace (G2 (- t)) with (opp (scal (-1) (G2 (- t)))) by (cbn; unfold opp, scal, mult; cbn; unfold mult; cbn; ring).
      apply (is_derive_opp (fun t => G1 (- t))). apply (is_derive_comp G1 (fun t => - t)); [apply D2; lra|]. auto_derive; auto; ring.
    - intros t Ht. apply HB. lra. }
  rewrite !Ropp_involutive in A. replace (- G1 x * (- y - - x)) with (G1 x * (y - x)) in A by ring. replace ((- y - - x) ^ 2) with ((y - x) ^ 2) in A by ring. exact A.
Qed.

(** knots: some piece contains x *)
Lemma piece_ex (u : nat -> R) m x : u O <= x <= u (S m) -> exists j, (j <= m)%nat /\ u j <= x <= u (S j).
Proof.
  induction m as [|m IH]; intros H; [exists O; split; [lia|auto]|]. destruct (Rle_or_lt x (u (S m))) as [L|L].
  - destruct IH as (j & Hj & P); [lra|]. exists j. split; [lia|auto].
  - exists (S m). split; [lia|lra].
Qed.
Lemma nat_max (f : nat -> R) n : exists k, (k <= n)%nat /\ forall j, (j <= n)%nat -> f j <= f k.
Proof.
  induction n as [|n (k & Hk & M)]. { exists O. split; [lia|]. intros j Hj. replace j with O by lia. lra. }
  destruct (Rle_or_lt (f (S n)) (f k)) as [L|L].
  - exists k. split; [lia|]. intros j Hj. destruct (Nat.eq_dec j (S n)) as [->|]; auto. apply M; lia.
  - exists (S n). split; [lia|]. intros j Hj. destruct (Nat.eq_dec j (S n)) as [->|]; [lra|]. specialize (M j ltac:(lia)). lra.
Qed.

(** first derivative of a function that is cubic on [a, b] *)
Lemma cubic_first (F F1 : R -> R) a b c0 c1 c2 c3 : a < b -> (forall x, is_derive F x (F1 x)) -> (forall x, continuous F1 x) ->
  (forall x, a <= x <= b -> F x = c0 + c1 * x + c2 * x ^ 2 + c3 * x ^ 3) -> forall x, a <= x <= b -> F1 x = c1 + 2 * c2 * x + 3 * c3 * x ^ 2.
Proof.
  intros AB D1 C1 E. apply cont_eq_ends; auto.
  - intros x _. apply (ex_derive_continuous (fun x => c1 + 2 * c2 * x + 3 * c3 * x ^ 2)). auto_derive; auto.
  - intros x Hx. apply (derive_eq F (fun x => c0 + c1 * x + c2 * x ^ 2 + c3 * x ^ 3) a b (F1 x) (c1 + 2 * c2 * x + 3 * c3 * x ^ 2) x); auto.
    + intros t Ht. apply E. lra.
    + auto_derive; auto; ring.
Qed.

Section Approx.
Variables (n : nat) (u : nat -> R) (G G1 G2 : R -> R) (B : R).
Hypothesis Hu : forall k, (S k < n)%nat -> u k < u (S k).
Let a := u O.
Let b := u (n - 1)%nat.
Hypothesis D1 : forall x, a <= x <= b -> is_derive G x (G1 x).
Hypothesis D2 : forall x, a <= x <= b -> is_derive G1 x (G2 x).
Hypothesis HB : forall x, a <= x <= b -> Rabs (G2 x) <= B.
Lemma u_le j k : (j <= k)%nat -> (k < n)%nat -> u j <= u k.
Proof. induction 1 as [|k H IH]; intros Hk; [lra|]. specialize (IH ltac:(lia)). specialize (Hu k Hk). lra. Qed.
Lemma in_ab k x : (S k < n)%nat -> u k <= x <= u (S k) -> a <= x <= b.
Proof. intros Hk Hx. pose proof (u_le 0 k ltac:(lia) ltac:(lia)). pose proof (u_le (S k) (n - 1) ltac:(lia) ltac:(lia)). unfold a, b. lra. Qed.

(** slopes of adjacent chords *)
Lemma chords k : (S (S k) < n)%nat -> Rabs (chord u (fun k => G (u k)) (S k) - chord u (fun k => G (u k)) k) <= B / 2 * (u (S (S k)) - u k).
Proof.
  intros Hk. pose proof (Hu k ltac:(lia)) as L0. pose proof (Hu (S k) Hk) as L1.
  pose proof (u_le 0 k ltac:(lia) ltac:(lia)). pose proof (u_le (S (S k)) (n - 1) ltac:(lia) ltac:(lia)).
  pose proof (taylor_right G G1 G2 a b B D1 D2 HB (u (S k)) (u (S (S k))) ltac:(unfold a; lra) L1 ltac:(unfold b; lra)) as T1.
  pose proof (taylor_left G G1 G2 a b B D1 D2 HB (u (S k)) (u k) ltac:(unfold a; lra) L0 ltac:(unfold b; lra)) as T0.
  unfold chord. set (h1 := u (S (S k)) - u (S k)) in *. set (h0 := u (S k) - u k) in *.
  replace (u k - u (S k)) with (- h0) in T0 by (unfold h0; ring).
  assert (P1 : 0 < h1) by (unfold h1; lra). assert (P0 : 0 < h0) by (unfold h0; lra).
  replace (u (S (S k)) - u k) with (h1 + h0) by (unfold h0, h1; ring).
  replace ((G (u (S (S k))) - G (u (S k))) / h1 - (G (u (S k)) - G (u k)) / h0) with
    ((G (u (S (S k))) - G (u (S k)) - G1 (u (S k)) * h1) / h1 + (G (u k) - G (u (S k)) - G1 (u (S k)) * - h0) / h0) by (field; lra).
  eapply Rle_trans; [apply Rabs_triang|]. unfold Rdiv at 1 2. rewrite !Rabs_mult, !Rabs_inv, (Rabs_pos_eq h1), (Rabs_pos_eq h0) by lra.
  replace (B / 2 * (h1 + h0)) with (B / 2 * h1 ^ 2 * / h1 + B / 2 * (- h0) ^ 2 * / h0) by (field; lra).
  apply Rplus_le_compat; (apply Rmult_le_compat_r; [left; apply Rinv_0_lt_compat; auto|auto]).
Qed.

(** the chord itself *)
Lemma chord_err k x : (S k < n)%nat -> u k <= x <= u (S k) -> Rabs (G x - (G (u k) + chord u (fun k => G (u k)) k * (x - u k))) <= B / 8 * (u (S k) - u k) ^ 2.
Proof.
  intros Hk Hx. set (c := chord u (fun k => G (u k)) k).
  apply (zeros_abs (fun x => G x - (G (u k) + c * (x - u k))) (fun x => G1 x - c) G2); auto.
  - intros t Ht. apply (is_derive_minus G (fun x => G (u k) + c * (x - u k))); [apply D1; apply (in_ab k); auto|]. auto_derive; auto; ring.
  - intros t Ht. replace (G2 t) with (minus (G2 t) 0) by (unfold minus, plus, opp; cbn; ring). apply (is_derive_minus G1 (fun x => c)); [apply D2; apply (in_ab k); auto|]. auto_derive; auto.
  - intros t Ht. apply HB. apply (in_ab k); auto.
  - ring.
  - unfold c, chord. field. pose proof (Hu k Hk). lra.
Qed.

(** cubic Hermite pieces *)
Lemma hermite_piece p q F c0 c1 c2 c3 m0 m1 D : p < q -> (forall x, p <= x <= q -> F x = c0 + c1 * x + c2 * x ^ 2 + c3 * x ^ 3) ->
  m0 = c1 + 2 * c2 * p + 3 * c3 * p ^ 2 -> m1 = c1 + 2 * c2 * q + 3 * c3 * q ^ 2 ->
  Rabs (m0 - (F q - F p) / (q - p)) <= D -> Rabs (m1 - (F q - F p) / (q - p)) <= D ->
  forall x, p <= x <= q -> Rabs (F x - (F p + (F q - F p) / (q - p) * (x - p))) <= D / 4 * (q - p).
Proof.
  intros L E E0 E1 H0 H1 x Hx. set (s := (F q - F p) / (q - p)) in *.
  set (t := (x - p) / (q - p)). assert (T : 0 <= t <= 1).
  { unfold t. split; [apply Rdiv_le_0_compat; lra|]. apply Rmult_le_reg_r with (q - p); [lra|]. unfold Rdiv. rewrite Rmult_assoc, Rinv_l by lra. lra. }
  assert (Q : F x - (F p + s * (x - p)) = (q - p) * (t * (1 - t) ^ 2 * (m0 - s) - t ^ 2 * (1 - t) * (m1 - s))).
  { unfold s, t. rewrite E0, E1, !E by lra. field. lra. }
  rewrite Q, Rabs_mult, (Rabs_pos_eq (q - p)), (Rmult_comm (D / 4)) by lra. apply Rmult_le_compat_l; [lra|].
  assert (D0 : 0 <= D) by (eapply Rle_trans; [apply Rabs_pos|exact H0]).
  assert (A : 0 <= t * (1 - t) ^ 2) by (apply Rmult_le_pos; [lra|apply pow2_ge_0]).
  assert (A' : 0 <= t ^ 2 * (1 - t)) by (apply Rmult_le_pos; [apply pow2_ge_0|lra]).
  unfold Rminus at 1. eapply Rle_trans; [apply Rabs_triang|]. rewrite Rabs_Ropp, !(Rabs_mult (t * (1 - t) ^ 2)), !(Rabs_mult (t ^ 2 * (1 - t))), (Rabs_pos_eq (t * (1 - t) ^ 2)), (Rabs_pos_eq (t ^ 2 * (1 - t))) by auto.
  apply Rle_trans with (t * (1 - t) ^ 2 * D + t ^ 2 * (1 - t) * D); [apply Rplus_le_compat; apply Rmult_le_compat_l; auto|].
  replace (t * (1 - t) ^ 2 * D + t ^ 2 * (1 - t) * D) with (D * (t * (1 - t))) by ring. unfold Rdiv. apply Rmult_le_compat_l; auto. pose proof (pow2_ge_0 (t - / 2)). nra.
Qed.

Variable h : R.
Hypothesis Hh : forall k, (S k < n)%nat -> u (S k) - u k <= h.
Hypothesis B0 : 0 <= B.
Lemma hermite_error F : (3 <= n)%nat -> hermite_spline n u (fun k => G (u k)) F -> forall x, a <= x <= b -> Rabs (F x - G x) <= B / 4 * h ^ 2.
Proof.
  intros Hn (I & P & F1 & DF & CF & M0 & Mn & Mk) x Hx.
  destruct (piece_ex u (n - 2) x) as (j & Hj & Px). { replace (S (n - 2)) with (n - 1)%nat by lia. exact Hx. }
  assert (Sj : (S j < n)%nat) by lia. pose proof (Hu j Sj) as Lj. pose proof (Hh j Sj) as Wj.
  destruct (P j Sj) as (c0 & c1 & c2 & c3 & Ec).
  assert (E : forall t, u j <= t <= u (S j) -> F t = c0 + c1 * t + c2 * t ^ 2 + c3 * t ^ 3).
  { intros t Ht. apply Ec. unfold on_piece. repeat split; [auto|right; lra|right; lra]. }
  pose proof (cubic_first F F1 (u j) (u (S j)) c0 c1 c2 c3 Lj DF CF E) as E1.
  assert (Sl : (F (u (S j)) - F (u j)) / (u (S j) - u j) = chord u (fun k => G (u k)) j) by (unfold chord; rewrite !I by lia; auto).
  assert (h0 : 0 < h) by lra.
  assert (Slope : forall k, (k = j \/ k = S j) -> Rabs (F1 (u k) - chord u (fun k => G (u k)) j) <= B / 2 * h).
  { assert (Z : 0 <= B / 2 * h) by nra.
    assert (Adj : forall i, (S (S i) < n)%nat -> Rabs (chord u (fun k => G (u k)) (S i) - chord u (fun k => G (u k)) i) <= B * h).
    { intros i Hi. eapply Rle_trans; [apply (chords i Hi)|]. pose proof (Hh i ltac:(lia)). pose proof (Hh (S i) Hi).
      replace (B * h) with (B / 2 * (2 * h)) by field. apply Rmult_le_compat_l; lra. }
    intros k Hk. destruct (Nat.eq_dec k 0) as [->|K0].
    - assert (j = 0)%nat by lia. subst j. rewrite M0. replace (_ - _) with 0 by ring. rewrite Rabs_R0. auto.
    - destruct (Nat.eq_dec k (n - 1)) as [->|Kn].
      + assert (j = n - 2)%nat by lia. subst j. rewrite Mn. replace (_ - _) with 0 by ring. rewrite Rabs_R0. auto.
      + rewrite Mk by lia. specialize (Adj (k - 1)%nat ltac:(lia)). replace (S (k - 1)) with k in Adj by lia.
        destruct Hk as [->| ->].
        * replace ((chord u (fun k => G (u k)) (j - 1) + chord u (fun k => G (u k)) j) / 2 - chord u (fun k => G (u k)) j) with
            (- ((chord u (fun k => G (u k)) j - chord u (fun k => G (u k)) (j - 1)) / 2)) by field.
          rewrite Rabs_Ropp. unfold Rdiv. rewrite Rabs_mult, (Rabs_pos_eq (/ 2)) by lra. lra.
        * replace (S j - 1)%nat with j in * by lia.
          replace ((chord u (fun k => G (u k)) j + chord u (fun k => G (u k)) (S j)) / 2 - chord u (fun k => G (u k)) j) with
            ((chord u (fun k => G (u k)) (S j) - chord u (fun k => G (u k)) j) / 2) by field.
          unfold Rdiv. rewrite Rabs_mult, (Rabs_pos_eq (/ 2)) by lra. lra. }
  pose proof (hermite_piece (u j) (u (S j)) F c0 c1 c2 c3 (F1 (u j)) (F1 (u (S j))) (B / 2 * h) Lj E (E1 (u j) ltac:(lra)) (E1 (u (S j)) ltac:(lra))) as HP.
  rewrite Sl in HP. specialize (HP (Slope j ltac:(auto)) (Slope (S j) ltac:(auto)) x Px).
  pose proof (chord_err j x Sj Px) as CE. rewrite (I j) in HP by lia.
  set (L := G (u j) + chord u (fun k => G (u k)) j * (x - u j)) in *.
  replace (F x - G x) with ((F x - L) + - (G x - L)) by ring. eapply Rle_trans; [apply Rabs_triang|]. rewrite Rabs_Ropp.
  assert (W : 0 < u (S j) - u j) by lra. set (w := u (S j) - u j) in *.
  assert (B / 2 * h / 4 * w <= B / 8 * h ^ 2). { replace (B / 8 * h ^ 2) with (B / 2 * h / 4 * h) by field. apply Rmult_le_compat_l; [|auto]. assert (0 <= B * h) by (apply Rmult_le_pos; lra). lra. }
  assert (B / 8 * w ^ 2 <= B / 8 * h ^ 2). { apply Rmult_le_compat_l; [lra|]. apply pow_incr. lra. }
  lra.
Qed.

(** natural spline on equidistant knots *)
Hypothesis He : forall k, (S k < n)%nat -> u (S k) - u k = h.
Lemma natural_error F : (2 <= n)%nat -> natural_spline n u (fun k => G (u k)) F -> forall x, a <= x <= b -> Rabs (F x - G x) <= B / 2 * h ^ 2.
Proof.
  intros Hn (I & P & F1 & F2 & DF & DF1 & CF & Z0 & Zn) x Hx.
  assert (H0 : 0 < h) by (rewrite <- (He 0) by lia; specialize (Hu 0%nat ltac:(lia)); lra).
  assert (CF1 : forall x, continuous F1 x) by (intros t; apply (ex_derive_continuous F1); eexists; apply DF1).
  assert (Pc : forall j, (S j < n)%nat -> exists c0 c1 c2 c3, (forall t, u j <= t <= u (S j) -> F t = c0 + c1 * t + c2 * t ^ 2 + c3 * t ^ 3) /\
    (forall t, u j <= t <= u (S j) -> F1 t = c1 + 2 * c2 * t + 3 * c3 * t ^ 2) /\ (forall t, u j <= t <= u (S j) -> F2 t = 2 * c2 + 6 * c3 * t)).
  { intros j Hj. destruct (P j Hj) as (c0 & c1 & c2 & c3 & Ec). exists c0, c1, c2, c3.
    assert (E : forall t, u j <= t <= u (S j) -> F t = c0 + c1 * t + c2 * t ^ 2 + c3 * t ^ 3).
    { intros t Ht. apply Ec. unfold on_piece. repeat split; [auto|right; lra|right; lra]. }
    split; [auto|]. split; [apply (cubic_first F F1 (u j) (u (S j)) c0 c1 c2 c3); auto|apply (cubic_second F F1 F2 (u j) (u (S j)) c0 c1 c2 c3); auto]. }
  assert (Tri : forall i, (S (S i) < n)%nat -> F2 (u i) + 4 * F2 (u (S i)) + F2 (u (S (S i))) = 6 / h * (chord u (fun k => G (u k)) (S i) - chord u (fun k => G (u k)) i)).
  { intros i Hi. unfold chord. rewrite !He by lia. rewrite <- !I by lia.
    destruct (Pc i ltac:(lia)) as (c0 & c1 & c2 & c3 & E & E1 & E2). destruct (Pc (S i) Hi) as (d0 & d1 & d2 & d3 & X & X1 & X2).
    pose proof (Hu i ltac:(lia)) as L0. pose proof (Hu (S i) Hi) as L1. pose proof (He i ltac:(lia)) as W0. pose proof (He (S i) Hi) as W1.
    set (w := u (S i)) in *. set (p := u i) in *. set (q := u (S (S i))) in *.
    assert (Hp : p = w - h) by lra. assert (Hq : q = w + h) by lra.
    assert (Y : F1 w = c1 + 2 * c2 * w + 3 * c3 * w ^ 2) by (apply E1; lra). assert (Y' : F1 w = d1 + 2 * d2 * w + 3 * d3 * w ^ 2) by (apply X1; lra).
    assert (V : F w = c0 + c1 * w + c2 * w ^ 2 + c3 * w ^ 3) by (apply E; lra). assert (V' : F w = d0 + d1 * w + d2 * w ^ 2 + d3 * w ^ 3) by (apply X; lra).
    assert (S2 : F2 w = 2 * c2 + 6 * c3 * w) by (apply E2; lra). assert (S2' : F2 w = 2 * d2 + 6 * d3 * w) by (apply X2; lra).
    rewrite (E2 p), (X2 q), (X q), (E p) by lra. clearbody p q w. subst p q.
    assert (c1E : c1 = F1 w - 2 * c2 * w - 3 * c3 * w ^ 2) by lra. assert (d1E : d1 = F1 w - 2 * d2 * w - 3 * d3 * w ^ 2) by lra.
    assert (c0E : c0 = F w - c1 * w - c2 * w ^ 2 - c3 * w ^ 3) by lra. assert (d0E : d0 = F w - d1 * w - d2 * w ^ 2 - d3 * w ^ 3) by lra.
    assert (c2E : c2 = F2 w / 2 - 3 * c3 * w) by lra. assert (d2E : d2 = F2 w / 2 - 3 * d3 * w) by lra.
    rewrite c0E, d0E, c1E, d1E, c2E, d2E. field. lra. }
  destruct (nat_max (fun k => Rabs (F2 (u k))) (n - 1)) as (k & Hk & Mx).
  assert (MB : Rabs (F2 (u k)) <= 3 * B).
  { destruct (Nat.eq_dec k 0) as [->|K0]; [rewrite Z0, Rabs_R0; lra|]. destruct (Nat.eq_dec k (n - 1)) as [->|Kn]; [rewrite Zn, Rabs_R0; lra|].
    destruct k as [|i]; [lia|]. pose proof (Tri i ltac:(lia)) as T. pose proof (chords i ltac:(lia)) as C.
    pose proof (He i ltac:(lia)). pose proof (He (S i) ltac:(lia)). replace (u (S (S i)) - u i) with (2 * h) in C by lra.
    set (d := chord _ _ _ - chord _ _ _) in *. pose proof (Mx i ltac:(lia)) as M0. pose proof (Mx (S (S i)) ltac:(lia)) as M1. cbv beta in M0, M1.
    assert (Td : Rabs (6 / h * d) <= 6 * B).
    { rewrite Rabs_mult, (Rabs_pos_eq (6 / h)) by (apply Rdiv_le_0_compat; lra). replace (6 * B) with (6 / h * (B / 2 * (2 * h))) by (field; lra). apply Rmult_le_compat_l; [apply Rdiv_le_0_compat; lra|auto]. }
    assert (Four : 4 * F2 (u (S i)) = 6 / h * d - F2 (u i) - F2 (u (S (S i)))) by lra.
    assert (4 * Rabs (F2 (u (S i))) <= 6 * B + Rabs (F2 (u i)) + Rabs (F2 (u (S (S i))))).
    { replace (4 * Rabs (F2 (u (S i)))) with (Rabs (4 * F2 (u (S i)))) by (rewrite Rabs_mult, (Rabs_pos_eq 4) by lra; auto). rewrite Four.
      apply Rabs_le. clear - Td. revert Td. unfold Rabs. repeat destruct Rcase_abs; lra. }
    lra. }
  destruct (piece_ex u (n - 2) x) as (j & Hj & Px). { replace (S (n - 2)) with (n - 1)%nat by lia. exact Hx. }
  assert (Sj : (S j < n)%nat) by lia. pose proof (Hu j Sj) as Lj. pose proof (He j Sj) as Wj.
  replace (B / 2 * h ^ 2) with (4 * B / 8 * (u (S j) - u j) ^ 2) by (rewrite Wj; field).
  apply (zeros_abs (fun x => F x - G x) (fun x => F1 x - G1 x) (fun x => F2 x - G2 x) (u j) (u (S j)) (4 * B)); auto.
  - intros t Ht. apply (is_derive_minus F G); [apply DF|apply D1; apply (in_ab j); auto].
  - intros t Ht. apply (is_derive_minus F1 G1); [apply DF1|apply D2; apply (in_ab j); auto].
  - intros t Ht. destruct (Pc j Sj) as (c0 & c1 & c2 & c3 & _ & _ & E2).
    assert (FB : Rabs (F2 t) <= 3 * B).
    { pose proof (Mx j ltac:(lia)) as A0. pose proof (Mx (S j) ltac:(lia)) as A1. cbv beta in A0, A1.
      assert (A0' : Rabs (F2 (u j)) <= 3 * B) by lra. assert (A1' : Rabs (F2 (u (S j))) <= 3 * B) by lra.
      rewrite E2 in A0', A1' by lra. rewrite E2 by lra. apply Rabs_le_between in A0'. apply Rabs_le_between in A1'. apply Rabs_le.
      destruct (Rle_or_lt 0 c3); split; nra. }
    pose proof (HB t (in_ab j t Sj Ht)) as GB. revert FB GB. unfold Rabs. repeat destruct Rcase_abs; lra.
  - rewrite I by lia. ring.
  - rewrite I by lia. ring.
Qed.
End Approx.
