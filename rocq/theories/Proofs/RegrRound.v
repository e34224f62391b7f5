(* Rounding error of the slope of SimpleLinearRegression on equidistant points *)
From Coq Require Import Reals ZArith Lia Lra List Psatz.
From Verif Require Import Model.Regression Spec.Fir Spec.LeastSquares Spec.Rounding Proofs.BaseLemmas Proofs.RegressionProofs.
Import ListNotations.
Open Scope R_scope.

Lemma Rabs_div a b : b <> 0 -> Rabs (a / b) = Rabs a / Rabs b.
Proof. intros H. unfold Rdiv. rewrite Rabs_mult, Rabs_inv. reflexivity. Qed.
Lemma Rsumn_abs n f : Rabs (Rsumn n f) <= Rsumn n (fun i => Rabs (f i)).
Proof. induction n as [|n IH]; cbn [Rsumn]; [rewrite Rabs_R0; lra|]. eapply Rle_trans; [apply Rabs_triang|]. lra. Qed.
Lemma Rsumn_le' n f g : (forall i, (i < n)%nat -> f i <= g i) -> Rsumn n f <= Rsumn n g.
Proof. induction n as [|n IH]; intros H; cbn [Rsumn]; [lra|]. assert (Rsumn n f <= Rsumn n g) by (apply IH; intros; apply H; lia). pose proof (H n ltac:(lia)). lra. Qed.
Lemma grow u n : 0 <= u -> INR n * u <= 1 / 4 -> (1 + u) ^ n <= 1 + 4 / 3 * (INR n * u).
Proof.
  intros Hu H. assert (P : 0 <= INR n) by apply pos_INR. assert (Q : (1 + u) ^ n * (1 - INR n * u) <= 1).
  { clear H. induction n as [|n IH]; [cbn; lra|]. specialize (IH (pos_INR n)). rewrite S_INR in *. cbn [pow]. pose proof (pos_INR n).
    assert (G : 0 <= (1 + u) ^ n) by (apply pow_le; lra).
    apply Rle_trans with ((1 + u) ^ n * (1 - INR n * u)); [|exact IH].
    replace ((1 + u) * (1 + u) ^ n * (1 - (INR n + 1) * u)) with ((1 + u) ^ n * ((1 + u) * (1 - (INR n + 1) * u))) by ring. apply Rmult_le_compat_l; [exact G|].
    assert (0 <= INR n * u * u) by (apply Rmult_le_pos; [apply Rmult_le_pos|]; lra). assert (0 <= u * u) by (apply Rmult_le_pos; lra). lra. }
  set (y := INR n * u) in *. assert (0 <= y) by (apply Rmult_le_pos; lra). apply (Rmult_le_reg_r (1 - y)); [lra|]. eapply Rle_trans; [exact Q|]. assert (0 <= y * (1 / 4 - y)) by (apply Rmult_le_pos; lra). lra.
Qed.

Section RR.
Context (u : R) (rnd : R -> R) (Hu : 0 <= u) (HR : forall x, Rabs (rnd x - x) <= u * Rabs x).

Lemma r0 : rnd 0 = 0.
Proof. pose proof (HR 0) as H. rewrite Rabs_R0, Rmult_0_r, Rminus_0_r in H. pose proof (Rabs_pos (rnd 0)). destruct (Req_dec (rnd 0) 0) as [E|E]; auto. apply Rabs_pos_lt in E. lra. Qed.
Fixpoint facc (f : nat -> R) (n : nat) : R := match n with O => 0 | S n => rnd (facc f n + f n) end.
Lemma facc_err f n : Rabs (facc f n - Rsumn n f) <= ((1 + u) ^ n - 1) * Rsumn n (fun i => Rabs (f i)).
Proof.
  induction n as [|n IH]; [cbn; rewrite Rminus_0_r, Rabs_R0; lra|]. cbn [facc Rsumn]. set (s := facc f n) in *. pose proof (Rsumn_abs n f) as AB. set (S0 := Rsumn n f) in *. set (A := Rsumn n (fun i => Rabs (f i))) in *. set (g := f n).
  assert (G : 1 <= (1 + u) ^ n) by (apply pow_R1_Rle; lra). change ((1 + u) ^ S n) with ((1 + u) * (1 + u) ^ n). set (q := (1 + u) ^ n) in *. pose proof (HR (s + g)) as R.
  assert (B : Rabs (s + g) <= Rabs (s - S0) + (A + Rabs g)) by (replace (s + g) with ((s - S0) + (S0 + g)) by ring; eapply Rle_trans; [apply Rabs_triang|]; pose proof (Rabs_triang S0 g); lra).
  assert (UB : u * Rabs (s + g) <= u * (Rabs (s - S0) + (A + Rabs g))) by (apply Rmult_le_compat_l; lra).
  replace (rnd (s + g) - (S0 + g)) with ((rnd (s + g) - (s + g)) + (s - S0)) by ring. eapply Rle_trans; [apply Rabs_triang|].
  assert (UI : u * Rabs (s - S0) <= u * ((q - 1) * A)) by (apply Rmult_le_compat_l; lra).
  pose proof (Rabs_pos g). assert (0 <= (q - 1) * Rabs g) by (apply Rmult_le_pos; lra). assert (0 <= u * ((q - 1) * Rabs g)) by (apply Rmult_le_pos; lra). lra.
Qed.
(** terms with relative error of three roundings *)
Lemma facc_err3 f g n : (forall i, (i < n)%nat -> Rabs (f i - g i) <= ((1 + u) ^ 3 - 1) * Rabs (g i)) ->
  Rabs (facc f n - Rsumn n g) <= ((1 + u) ^ (n + 3) - 1) * Rsumn n (fun i => Rabs (g i)).
Proof.
  intros H. pose proof (facc_err f n) as E. assert (Q : 1 <= (1 + u) ^ n) by (apply pow_R1_Rle; lra). assert (T : 1 <= (1 + u) ^ 3) by (apply pow_R1_Rle; lra). rewrite pow_add. set (q := (1 + u) ^ n) in *. set (t := (1 + u) ^ 3) in *.
  set (G := Rsumn n (fun i => Rabs (g i))). 
  assert (E1 : Rabs (Rsumn n f - Rsumn n g) <= (t - 1) * G). { rewrite <- Rsumn_minus. eapply Rle_trans; [apply Rsumn_abs|]. unfold G. rewrite <- Rsumn_scal. apply Rsumn_le'. exact H. }
  assert (E2 : Rsumn n (fun i => Rabs (f i)) <= t * G). { unfold G. rewrite <- Rsumn_scal. apply Rsumn_le'. intros i Hi. specialize (H i Hi). replace (f i) with ((f i - g i) + g i) by ring. eapply Rle_trans; [apply Rabs_triang|]. lra. }
  assert (E3 : (q - 1) * Rsumn n (fun i => Rabs (f i)) <= (q - 1) * (t * G)) by (apply Rmult_le_compat_l; lra).
  replace (facc f n - Rsumn n g) with ((facc f n - Rsumn n f) + (Rsumn n f - Rsumn n g)) by ring. eapply Rle_trans; [apply Rabs_triang|]. lra.
Qed.
Lemma prod3 a a' b b' : Rabs (a' - a) <= u * Rabs a -> Rabs (b' - b) <= u * Rabs b -> Rabs (rnd (a' * b') - a * b) <= ((1 + u) ^ 3 - 1) * Rabs (a * b).
Proof.
  intros A B. pose proof (HR (a' * b')) as R. rewrite Rabs_mult in *. pose proof (Rabs_pos a). pose proof (Rabs_pos b). set (x := Rabs a) in *. set (y := Rabs b) in *.
  assert (A' : Rabs a' <= (1 + u) * x) by (replace a' with ((a' - a) + a) by ring; eapply Rle_trans; [apply Rabs_triang|]; fold x; lra).
  assert (B' : Rabs b' <= (1 + u) * y) by (replace b' with ((b' - b) + b) by ring; eapply Rle_trans; [apply Rabs_triang|]; fold y; lra).
  assert (D : Rabs (a' * b' - a * b) <= ((1 + u) ^ 2 - 1) * (x * y)).
  { replace (a' * b' - a * b) with ((a' - a) * b' + a * (b' - b)) by ring. eapply Rle_trans; [apply Rabs_triang|]. rewrite !Rabs_mult. fold x.
    assert (Rabs (a' - a) * Rabs b' <= (u * x) * ((1 + u) * y)) by (apply Rmult_le_compat; auto using Rabs_pos). assert (x * Rabs (b' - b) <= x * (u * y)) by (apply Rmult_le_compat_l; lra). nra. }
  assert (P : Rabs a' * Rabs b' <= ((1 + u) * x) * ((1 + u) * y)) by (apply Rmult_le_compat; auto using Rabs_pos).
  assert (P' : u * (Rabs a' * Rabs b') <= u * (((1 + u) * x) * ((1 + u) * y))) by (apply Rmult_le_compat_l; auto).
  replace (rnd (a' * b') - a * b) with ((rnd (a' * b') - a' * b') + (a' * b' - a * b)) by ring. eapply Rle_trans; [apply Rabs_triang|]. nra.
Qed.

Lemma floop1 (n : nat) (body : Z -> R -> outcome R) f z :
  (forall j s, (j < n)%nat -> body (Z.of_nat j) s = Ok (rnd (s + f j))) -> z = 0 -> for_loop n 0 body z = Ok (facc f n).
Proof.
  intros H ->. destruct (for_loop_inv (fun i s => s = facc f (Z.to_nat i)) body n 0%Z 0) as (s & E & I).
  - reflexivity.
  - intros i s Hi ->. exists (facc f (Z.to_nat (i + 1))). split; [|reflexivity].
    rewrite <- (Z2Nat.id i) at 1 by lia. rewrite H by lia. f_equal. replace (Z.to_nat (i + 1)) with (S (Z.to_nat i)) by lia. reflexivity.
  - rewrite E, I. do 2 f_equal. lia.
Qed.
Lemma floop2 (n : nat) (body : Z -> R * R -> outcome (R * R)) f g z :
  (forall j a b, (j < n)%nat -> body (Z.of_nat j) (a, b) = Ok (rnd (a + f j), rnd (b + g j))) -> z = (0, 0) -> for_loop n 0 body z = Ok (facc f n, facc g n).
Proof.
  intros H ->. destruct (for_loop_inv (fun i s => s = (facc f (Z.to_nat i), facc g (Z.to_nat i))) body n 0%Z (0, 0)) as (s & E & I).
  - reflexivity.
  - intros i s Hi ->. exists (facc f (Z.to_nat (i + 1)), facc g (Z.to_nat (i + 1))). split; [|reflexivity].
    rewrite <- (Z2Nat.id i) at 1 by lia. rewrite H by lia. replace (Z.to_nat (i + 1)) with (S (Z.to_nat i)) by lia. reflexivity.
  - rewrite E, I. do 3 f_equal; lia.
Qed.

(** quotient of two perturbed sums *)
Lemma quot_err g V V' C C' Q : 0 <= g <= 1/50 -> 0 < V -> Rabs (V' - V) <= g * V -> Rabs C <= Q -> Rabs (C' - C) <= g * Q -> u <= 1/100 ->
  Rabs (rnd (C' / V') - C / V) <= (205/100 * g + 105/100 * u) * (Q / V).
Proof.
  intros Hg HV EV HC EC U. assert (V'l : (1 - g) * V <= V') by (pose proof (Rle_abs (- (V' - V))) as L; rewrite Rabs_Ropp in L; lra).
  assert (V'p : 0 < V') by nra. pose proof (Rabs_pos C) as C0. assert (Q0 : 0 <= Q) by lra. set (k := Q / V). assert (K0 : 0 <= k) by (unfold k; apply Rmult_le_pos; [lra|apply Rlt_le, Rinv_0_lt_compat; lra]).
  assert (QK : Q = k * V) by (unfold k; field; lra).
  assert (D : Rabs (C' / V' - C / V) <= 2 * g * k * (V / V')).
  { replace (C' / V' - C / V) with (((C' - C) * V - C * (V' - V)) / (V' * V)) by (field; lra). rewrite Rabs_div by (apply Rgt_not_eq, Rmult_lt_0_compat; lra). rewrite (Rabs_pos_eq (V' * V)) by (apply Rlt_le, Rmult_lt_0_compat; lra).
    apply (Rmult_le_reg_r (V' * V)); [apply Rmult_lt_0_compat; lra|]. replace (2 * g * k * (V / V') * (V' * V)) with (2 * (g * Q) * V) by (rewrite QK; field; lra).
    replace (Rabs ((C' - C) * V - C * (V' - V)) / (V' * V) * (V' * V)) with (Rabs ((C' - C) * V - C * (V' - V))) by (field; lra).
    unfold Rminus at 1. eapply Rle_trans; [apply Rabs_triang|]. rewrite Rabs_Ropp, !Rabs_mult, (Rabs_pos_eq V) by lra.
    assert (Rabs (C' - C) * V <= g * Q * V) by (apply Rmult_le_compat_r; lra). assert (Rabs C * Rabs (V' - V) <= Q * (g * V)) by (apply Rmult_le_compat; auto using Rabs_pos). lra. }
  assert (VV : 0 <= V / V' <= 1021/1000). { split; [apply Rmult_le_pos; [lra|apply Rlt_le, Rinv_0_lt_compat; lra]|]. apply (Rmult_le_reg_r V'); [lra|]. replace (V / V' * V') with V by (field; lra). nra. }
  assert (GK : 0 <= g * k) by (apply Rmult_le_pos; lra).
  assert (D' : Rabs (C' / V' - C / V) <= 2042/1000 * (g * k)) by (eapply Rle_trans; [exact D|]; nra).
  assert (CK : Rabs (C / V) <= k). { rewrite Rabs_div by lra. rewrite (Rabs_pos_eq V) by lra. unfold k. apply Rmult_le_compat_r; [apply Rlt_le, Rinv_0_lt_compat; lra|auto]. }
  pose proof (HR (C' / V')) as R. assert (B : Rabs (C' / V') <= 1041/1000 * k). { replace (C' / V') with ((C' / V' - C / V) + C / V) by ring. eapply Rle_trans; [apply Rabs_triang|]. nra. }
  assert (UB : u * Rabs (C' / V') <= u * (1041/1000 * k)) by (apply Rmult_le_compat_l; lra). assert (0 <= u * k) by (apply Rmult_le_pos; lra).
  replace (rnd (C' / V') - C / V) with ((rnd (C' / V') - C' / V') + (C' / V' - C / V)) by ring. eapply Rle_trans; [apply Rabs_triang|]. lra.
Qed.

(** sums over the centred grid *)
Definition Dc (n i : nat) : R := INR i - (INR n - 1) / 2.
Lemma sum_sq n : Rsumn n (fun i => INR i * INR i) = INR n * (INR n - 1) * (2 * INR n - 1) / 6.
Proof. induction n as [|n IH]; [cbn; lra|]. cbn [Rsumn]. rewrite IH, S_INR. lra. Qed.
Lemma Dc_sum n : Rsumn n (Dc n) = 0.
Proof. unfold Dc. rewrite Rsumn_minus, Rsumn_const, sum_iota. lra. Qed.
Lemma Dc_sq n : Rsumn n (fun i => Dc n i * Dc n i) = INR n * (INR n * INR n - 1) / 12.
Proof.
  rewrite (Rsumn_ext n _ (fun i => INR i * INR i + (- (INR n - 1)) * INR i + (INR n - 1) / 2 * ((INR n - 1) / 2))) by (intros; unfold Dc; field).
  rewrite !Rsumn_plus, Rsumn_scal, sum_iota, sum_sq, Rsumn_const. field.
Qed.
Lemma Dc_abs n : (2 <= n)%nat -> Rsumn n (fun i => Rabs (Dc n i)) <= 4 / INR n * (INR n * (INR n * INR n - 1) / 12).
Proof.
  intros Hn. assert (N2 : 2 <= INR n) by (apply (le_INR 2); auto). set (m := INR n) in *.
  apply Rle_trans with (Rsumn n (fun i => 2 / m * (Dc n i * Dc n i) + m / 8)).
  - apply Rsumn_le'. intros i _. set (d := Dc n i). assert (A : Rabs d * Rabs d = d * d) by (rewrite <- Rabs_mult; apply Rabs_pos_eq, Rle_0_sqr). rewrite <- A. set (x := Rabs d).
    apply (Rmult_le_reg_r (8 * m)); [lra|]. replace ((2 / m * (x * x) + m / 8) * (8 * m)) with (16 * (x * x) + m * m) by (field; lra). pose proof (Rle_0_sqr (4 * x - m)) as S. unfold Rsqr in S. lra.
  - rewrite Rsumn_plus, Rsumn_scal, Dc_sq, Rsumn_const. fold m. replace (2 / m * (m * (m * m - 1) / 12)) with ((m * m - 1) / 6) by (field; lra). replace (4 / m * (m * (m * m - 1) / 12)) with ((m * m - 1) / 3) by (field; lra). nra.
Qed.

Lemma slope_round (y : list R) (n : nat) (x0 dx Y : R) : (2 <= n)%nat -> (Z.of_nat n <= INT_MAX)%Z -> (n <= length y)%nat -> dx <> 0 ->
  (forall k, (Z.abs k <= 2 * Z.of_nat n)%Z -> rnd (IZR k / 2) = IZR k / 2) -> INR (n + 3) * u <= 1/100 -> (forall i, (i < n)%nat -> Rabs (el y i) <= Y) ->
  exists s s', regr_grid Rn y (Z.of_nat n) x0 dx = Ok s /\ regr_grid (Fn rnd) y (Z.of_nat n) x0 dx = Ok s' /\
  Rabs (ln_slope s' - ln_slope s) <= 23 * INR (n + 4) * u * Y / (INR n * Rabs dx).
Proof.
  intros Hn Hm Hy Hdx Hex Hnu HY. rewrite regr_grid_fit by (auto; lia). eexists. 
  assert (RZ : forall k, (Z.abs k <= Z.of_nat n)%Z -> rnd (IZR k) = IZR k). { intros k Hk. replace (IZR k) with (IZR (2 * k) / 2) by (rewrite mult_IZR; field). apply Hex. lia. }
  unfold regr_grid. rewrite ichk_ok by (unfold INT_MIN, INT_MAX in *; lia). cbn [bind]. rewrite Nat2Z.id. cbn [nofZ ndiv nadd nmul nsub Fn]. rewrite !r0.
  assert (Mid : rnd (rnd (IZR (Z.of_nat n - 1)) / rnd 2) = (INR n - 1) / 2). { rewrite (RZ 2%Z), (RZ (Z.of_nat n - 1)%Z) by lia. rewrite Hex by lia. rewrite minus_IZR, <- INR_IZR_INZ. reflexivity. }
  rewrite Mid, (RZ (Z.of_nat n)) by lia.
  erewrite (floop1 n _ (el y)); [|intros; rewrite !get_el by lia; reflexivity|reflexivity]. cbn [bind].
  rewrite <- (INR_IZR_INZ n). set (yb := rnd (facc (el y) n / INR n)).
  erewrite (floop2 n); [|intros; rewrite !get_el by lia; reflexivity|reflexivity]. cbn [bind]. eexists. split; [reflexivity|]. split; [reflexivity|]. cbn [ln_slope fit].
  set (x := fun i => x0 + dx * INR i). assert (N2 : 2 <= INR n) by (apply (le_INR 2); auto).
  assert (Em : mean n x = x0 + dx * ((INR n - 1) / 2)) by (unfold mean, x; rewrite Rsumn_plus, Rsumn_const, Rsumn_scal, sum_iota; field; lra).
  assert (DD : forall i, (i < n)%nat -> rnd (rnd (IZR (Z.of_nat i)) - (INR n - 1) / 2) = Dc n i).
  { intros i Hi. rewrite RZ by lia. unfold Dc. rewrite (INR_IZR_INZ i). replace (IZR (Z.of_nat i) - (INR n - 1) / 2) with (IZR (2 * Z.of_nat i - Z.of_nat n + 1) / 2) by (rewrite plus_IZR, minus_IZR, mult_IZR, (INR_IZR_INZ n); field).
    apply Hex. lia. }
  set (q := fun i => dx * Dc n i). set (z := fun i => el y i - yb).
  assert (V : varx n x = Rsumn n (fun i => q i * q i)) by (unfold varx; apply Rsumn_ext; intros; rewrite Em; unfold x, q, Dc; ring).
  assert (K : covxy n x (el y) = Rsumn n (fun i => q i * z i)).
  { unfold covxy. rewrite (Rsumn_ext n _ (fun i => q i * z i + (yb - mean n (el y)) * q i)) by (intros; rewrite Em; unfold x, q, z, Dc; ring). rewrite Rsumn_plus, Rsumn_scal. assert (SQ : Rsumn n q = 0) by (unfold q; rewrite Rsumn_scal, Dc_sum; ring). rewrite SQ. ring. }
  rewrite V, K. clear V K Em.
  (* the magnitude of the mean and of the deviations *)
  assert (Y0 : 0 <= Y) by (pose proof (HY O ltac:(lia)); pose proof (Rabs_pos (el y 0%nat)); lra).
  assert (SY : Rsumn n (fun i => Rabs (el y i)) <= INR n * Y) by (rewrite <- Rsumn_const; apply Rsumn_le'; auto).
  rewrite plus_INR in Hnu. change (INR 3) with 3 in Hnu || (replace (INR 3) with 3 in Hnu by (cbn; lra)).
  assert (U0 : u <= 1/500) by nra.
  assert (G0 : (1 + u) ^ (n + 3) <= 1 + 4/3 * ((INR n + 3) * u)). { pose proof (grow u (n + 3) Hu) as G. rewrite plus_INR in G. replace (INR 3) with 3 in G by (cbn; lra). apply G. lra. }
  set (g := (1 + u) ^ (n + 3) - 1). assert (Gp : 0 <= g) by (unfold g; assert (1 <= (1 + u) ^ (n + 3)) by (apply pow_R1_Rle; lra); lra). assert (Gb : g <= 4/3 * ((INR n + 3) * u)) by (unfold g; lra).
  assert (Gn : (1 + u) ^ n - 1 <= g). { unfold g. assert ((1 + u) ^ n <= (1 + u) ^ (n + 3)) by (apply Rle_pow; [lra|lia]). lra. }
  assert (YB : Rabs yb <= 102/100 * Y).
  { pose proof (facc_err (el y) n) as FE. pose proof (Rsumn_abs n (el y)) as SA. set (fa := facc (el y) n) in *. assert (P1 : 0 <= Rsumn n (fun i => Rabs (el y i))) by (pose proof (Rabs_pos (Rsumn n (el y))); lra).
    assert (FA : Rabs fa <= (1 + g) * (INR n * Y)). { replace fa with ((fa - Rsumn n (el y)) + Rsumn n (el y)) by ring. eapply Rle_trans; [apply Rabs_triang|]. assert (((1 + u) ^ n - 1) * Rsumn n (fun i => Rabs (el y i)) <= g * (INR n * Y)) by (apply Rmult_le_compat; auto; assert (1 <= (1 + u) ^ n) by (apply pow_R1_Rle; lra); lra). lra. }
    assert (FB : Rabs (fa / INR n) <= (1 + g) * Y). { rewrite Rabs_div by lra. rewrite (Rabs_pos_eq (INR n)) by lra. apply (Rmult_le_reg_r (INR n)); [lra|]. replace (Rabs fa / INR n * INR n) with (Rabs fa) by (field; lra). lra. }
    pose proof (HR (fa / INR n)) as R. fold yb in R. replace yb with ((yb - fa / INR n) + fa / INR n) by ring. eapply Rle_trans; [apply Rabs_triang|].
    assert (u * Rabs (fa / INR n) <= u * ((1 + g) * Y)) by (apply Rmult_le_compat_l; lra). assert (GY : g * Y <= 14/1000 * Y) by (apply Rmult_le_compat_r; lra). assert (UY : u * Y <= 1/500 * Y) by (apply Rmult_le_compat_r; lra). assert (u * (g * Y) <= u * (14/1000 * Y)) by (apply Rmult_le_compat_l; lra). lra. }
  assert (ZB : forall i, (i < n)%nat -> Rabs (z i) <= 202/100 * Y). { intros i Hi. unfold z, Rminus. eapply Rle_trans; [apply Rabs_triang|]. rewrite Rabs_Ropp. pose proof (HY i Hi). lra. }
  (* the two sums *)
  assert (DQ : forall i, (i < n)%nat -> Rabs (rnd (dx * rnd (rnd (IZR (Z.of_nat i)) - (INR n - 1) / 2)) - q i) <= u * Rabs (q i)) by (intros i Hi; rewrite DD by auto; apply HR).
  match goal with |- Rabs (rnd (facc ?fc n / facc ?fv n) - _) <= _ => pose proof (facc_err3 fv (fun i => q i * q i) n) as EV; pose proof (facc_err3 fc (fun i => q i * z i) n) as EC; set (V' := facc fv n) in *; set (C' := facc fc n) in * end.
  specialize (EV ltac:(intros i Hi; apply prod3; apply DQ; auto)). specialize (EC ltac:(intros i Hi; apply prod3; [apply DQ; auto|apply HR])). cbv beta in EV, EC. fold g in EV, EC.
  set (V := Rsumn n (fun i => q i * q i)) in *. set (C := Rsumn n (fun i => q i * z i)) in *. set (Q := Rsumn n (fun i => Rabs (q i * z i))) in *.
  assert (VE : V = dx * dx * (INR n * (INR n * INR n - 1) / 12)) by (unfold V, q; rewrite <- Dc_sq, <- Rsumn_scal; apply Rsumn_ext; intros; ring).
  assert (VA : Rsumn n (fun i => Rabs (q i * q i)) = V) by (apply Rsumn_ext; intros; apply Rabs_pos_eq, Rle_0_sqr). rewrite VA in EV.
  assert (V0 : 0 < V). { rewrite VE. apply Rmult_lt_0_compat; [apply Rsqr_pos_lt; auto|]. nra. }
  pose proof (quot_err g V V' C C' Q ltac:(lra) V0 EV (Rsumn_abs n _) EC ltac:(lra)) as QE. eapply Rle_trans; [exact QE|].
  assert (AD : 0 < Rabs dx) by (apply Rabs_pos_lt; auto).
  assert (QV : Q / V <= 808/100 * Y / (INR n * Rabs dx)).
  { assert (QB : Q <= Rabs dx * (202/100 * Y) * (4 / INR n * (INR n * (INR n * INR n - 1) / 12))).
    { apply Rle_trans with (Rabs dx * (202/100 * Y) * Rsumn n (fun i => Rabs (Dc n i))); [|apply Rmult_le_compat_l; [apply Rmult_le_pos; lra|apply Dc_abs; auto]].
      rewrite <- Rsumn_scal. apply Rsumn_le'. intros i Hi. unfold q. rewrite !Rabs_mult. pose proof (ZB i Hi). pose proof (Rabs_pos (Dc n i)). pose proof (Rabs_pos (z i)).
      replace (Rabs dx * (202/100 * Y) * Rabs (Dc n i)) with (Rabs dx * Rabs (Dc n i) * (202/100 * Y)) by ring. apply Rmult_le_compat_l; [apply Rmult_le_pos; lra|auto]. }
    apply (Rmult_le_reg_r V); auto. replace (Q / V * V) with Q by (field; lra). eapply Rle_trans; [exact QB|]. rewrite VE. assert (DX : dx * dx = Rabs dx * Rabs dx) by (rewrite <- Rabs_mult; symmetry; apply Rabs_pos_eq, Rle_0_sqr). rewrite DX. right. field. split; lra. }
  assert (QV0 : 0 <= Q / V). { apply Rmult_le_pos; [|apply Rlt_le, Rinv_0_lt_compat; auto]. assert (QA : Rabs C <= Q) by apply (Rsumn_abs n (fun i => q i * z i)). pose proof (Rabs_pos C). lra. }
  assert (F : 205/100 * g + 105/100 * u <= 28/10 * (INR n + 4) * u) by nra.
  apply Rle_trans with (28/10 * (INR n + 4) * u * (808/100 * Y / (INR n * Rabs dx))); [apply Rmult_le_compat; auto; nra|].
  rewrite plus_INR. replace (INR 4) with 4 by (cbn; lra). set (w := Y / (INR n * Rabs dx)). assert (W0 : 0 <= w) by (unfold w; apply Rmult_le_pos; [auto|apply Rlt_le, Rinv_0_lt_compat, Rmult_lt_0_compat; lra]).
  replace (808/100 * Y / (INR n * Rabs dx)) with (808/100 * w) by (unfold w; field; repeat split; lra). replace (23 * (INR n + 4) * u * Y / (INR n * Rabs dx)) with (23 * (INR n + 4) * u * w) by (unfold w; field; repeat split; lra).
  assert (0 <= (INR n + 4) * u * w) by (apply Rmult_le_pos; [apply Rmult_le_pos|]; lra). nra.
Qed.
End RR.
