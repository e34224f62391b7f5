(* Proofs about Model/Regression.v *)
From Coq Require Import Reals ZArith List Lra Lia.
From Verif Require Import Model.Regression Spec.Fir Spec.LeastSquares Proofs.BaseLemmas.
Open Scope R_scope.

Lemma Rsumn_ext n f g : (forall i, (i < n)%nat -> f i = g i) -> Rsumn n f = Rsumn n g.
Proof. induction n as [|n IH]; intros H; [reflexivity|]. cbn [Rsumn]. rewrite IH, H; auto. Qed.
Lemma Rsumn_plus n f g : Rsumn n (fun i => f i + g i) = Rsumn n f + Rsumn n g.
Proof. induction n as [|n IH]; cbn [Rsumn]; [ring|rewrite IH; ring]. Qed.
Lemma Rsumn_minus n f g : Rsumn n (fun i => f i - g i) = Rsumn n f - Rsumn n g.
Proof. induction n as [|n IH]; cbn [Rsumn]; [ring|rewrite IH; ring]. Qed.
Lemma Rsumn_scal n c f : Rsumn n (fun i => c * f i) = c * Rsumn n f.
Proof. induction n as [|n IH]; cbn [Rsumn]; [ring|rewrite IH; ring]. Qed.
Lemma Rsumn_const n c : Rsumn n (fun _ => c) = INR n * c.
Proof. induction n as [|n IH]; cbn [Rsumn]; [cbn; ring|rewrite IH, S_INR; ring]. Qed.
Lemma Rsumn_pos n f : (forall i, (i < n)%nat -> 0 <= f i) -> 0 <= Rsumn n f.
Proof. induction n as [|n IH]; intros H; cbn [Rsumn]; [lra|]. pose proof (H n). pose proof (IH (fun i h => H i (Nat.lt_lt_succ_r _ _ h))). assert (0 <= f n) by auto. lra. Qed.
Lemma Rsumn_zero n f : (forall i, (i < n)%nat -> 0 <= f i) -> Rsumn n f = 0 -> forall i, (i < n)%nat -> f i = 0.
Proof.
  induction n as [|n IH]; intros H E i Hi; [lia|]. cbn [Rsumn] in E.
  assert (0 <= Rsumn n f) by (apply Rsumn_pos; auto). assert (0 <= f n) by auto.
  destruct (Nat.eq_dec i n) as [->|]; [lra|]. apply IH; auto; [lra|lia].
Qed.

Lemma get_el l i : (i < length l)%nat -> get l (Z.of_nat i) = Ok (el l i).
Proof. intros H. apply get_Some. rewrite znth_nth_error. apply nth_error_nth'. exact H. Qed.

Lemma loop1 (n : nat) (body : Z -> R -> outcome R) f z :
  (forall j s, (j < n)%nat -> body (Z.of_nat j) s = Ok (s + f j)) -> z = 0 -> for_loop n 0 body z = Ok (Rsumn n f).
Proof.
  intros H ->. destruct (for_loop_inv (fun i s => s = Rsumn (Z.to_nat i) f) body n 0%Z 0) as (s & E & I).
  - reflexivity.
  - intros i s Hi ->. exists (Rsumn (Z.to_nat (i + 1)) f). split; [|reflexivity].
    rewrite <- (Z2Nat.id i) at 1 by lia. rewrite H by lia. f_equal. replace (Z.to_nat (i + 1)) with (S (Z.to_nat i)) by lia. reflexivity.
  - rewrite E, I. do 2 f_equal. lia.
Qed.
Lemma loop2 (n : nat) (body : Z -> R * R -> outcome (R * R)) f g z :
  (forall j a b, (j < n)%nat -> body (Z.of_nat j) (a, b) = Ok (a + f j, b + g j)) -> z = (0, 0) -> for_loop n 0 body z = Ok (Rsumn n f, Rsumn n g).
Proof.
  intros H ->. destruct (for_loop_inv (fun i s => s = (Rsumn (Z.to_nat i) f, Rsumn (Z.to_nat i) g)) body n 0%Z (0, 0)) as (s & E & I).
  - reflexivity.
  - intros i s Hi ->. exists (Rsumn (Z.to_nat (i + 1)) f, Rsumn (Z.to_nat (i + 1)) g). split; [|reflexivity].
    rewrite <- (Z2Nat.id i) at 1 by lia. rewrite H by lia. replace (Z.to_nat (i + 1)) with (S (Z.to_nat i)) by lia. reflexivity.
  - rewrite E, I. do 3 f_equal; lia.
Qed.

Section Fit.
Variables (n : nat) (x y : nat -> R).
Definition mean (f : nat -> R) : R := Rsumn n f / INR n.
Definition varx : R := Rsumn n (fun i => (x i - mean x) * (x i - mean x)).
Definition covxy : R := Rsumn n (fun i => (x i - mean x) * (y i - mean y)).
Definition fit : line R := mkLine (mean x - mean y * varx / covxy) (mean y - covxy / varx * mean x) (covxy / varx).
Hypothesis Hn : (1 <= n)%nat.
Hypothesis D : exists i j, (i < n)%nat /\ (j < n)%nat /\ x i <> x j.

Lemma INR_n : 0 < INR n. Proof. apply lt_0_INR. lia. Qed.
Lemma mean_dev f : Rsumn n (fun i => f i - mean f) = 0.
Proof. rewrite Rsumn_minus, Rsumn_const. unfold mean. field. pose proof INR_n. lra. Qed.
Lemma varx_pos : 0 < varx.
Proof.
  assert (P : forall i, (i < n)%nat -> 0 <= (x i - mean x) * (x i - mean x)) by (intros; apply Rle_0_sqr).
  assert (0 <= varx) by (apply Rsumn_pos; exact P). destruct (Req_dec varx 0) as [E|]; [|lra]. exfalso.
  destruct D as (i & j & Hi & Hj & N). apply N.
  pose proof (Rsumn_zero _ _ P E i Hi) as Ei. pose proof (Rsumn_zero _ _ P E j Hj) as Ej. cbv beta in Ei, Ej.
  apply Rsqr_0_uniq in Ei. apply Rsqr_0_uniq in Ej. lra.
Qed.
Lemma resid0 : Rsumn n (fun i => y i - (ln_yint fit + ln_slope fit * x i)) = 0.
Proof.
  cbn [fit ln_yint ln_slope]. rewrite (Rsumn_ext _ _ (fun i => (y i - mean y) - covxy / varx * (x i - mean x))) by (intros; ring).
  rewrite Rsumn_minus, Rsumn_scal, !mean_dev. ring.
Qed.
Lemma resid1 : Rsumn n (fun i => (y i - (ln_yint fit + ln_slope fit * x i)) * x i) = 0.
Proof.
  cbn [fit ln_yint ln_slope].
  rewrite (Rsumn_ext _ _ (fun i => ((x i - mean x) * (y i - mean y) - covxy / varx * ((x i - mean x) * (x i - mean x))) + mean x * (y i - (ln_yint fit + ln_slope fit * x i)))) by (intros; cbn [fit ln_yint ln_slope]; ring).
  rewrite Rsumn_plus, Rsumn_minus, !Rsumn_scal, resid0. fold varx covxy. field. pose proof varx_pos. lra.
Qed.
Lemma sse_split a b : sq_error n x y a b = sq_error n x y (ln_yint fit) (ln_slope fit)
  + Rsumn n (fun i => ((a - ln_yint fit) + (b - ln_slope fit) * x i)²).
Proof.
  unfold sq_error. set (a0 := ln_yint fit). set (b0 := ln_slope fit).
  rewrite (Rsumn_ext _ _ (fun i => ((y i - (a0 + b0 * x i))² + ((a - a0) + (b - b0) * x i)²) + ((-2 * (a - a0)) * (y i - (a0 + b0 * x i)) + (-2 * (b - b0)) * ((y i - (a0 + b0 * x i)) * x i))))
    by (intros; unfold Rsqr; ring).
  rewrite !Rsumn_plus, !Rsumn_scal. pose proof resid0 as E0. pose proof resid1 as E1. fold a0 b0 in E0, E1. rewrite E0, E1. ring.
Qed.
Lemma fit_min a b : sq_error n x y (ln_yint fit) (ln_slope fit) <= sq_error n x y a b.
Proof. rewrite (sse_split a b). assert (0 <= Rsumn n (fun i => ((a - ln_yint fit) + (b - ln_slope fit) * x i)²)) by (apply Rsumn_pos; intros; apply Rle_0_sqr). lra. Qed.
Lemma fit_unique a b : sq_error n x y a b <= sq_error n x y (ln_yint fit) (ln_slope fit) -> a = ln_yint fit /\ b = ln_slope fit.
Proof.
  rewrite (sse_split a b). intros H.
  assert (P : forall i, (i < n)%nat -> 0 <= ((a - ln_yint fit) + (b - ln_slope fit) * x i)²) by (intros; apply Rle_0_sqr).
  assert (E : Rsumn n (fun i => ((a - ln_yint fit) + (b - ln_slope fit) * x i)²) = 0) by (pose proof (Rsumn_pos _ _ P); lra).
  destruct D as (i & j & Hi & Hj & N). pose proof (Rsumn_zero _ _ P E i Hi) as Ei. pose proof (Rsumn_zero _ _ P E j Hj) as Ej. cbv beta in Ei, Ej.
  apply Rsqr_0_uniq in Ei. apply Rsqr_0_uniq in Ej.
  assert (Z : (b - ln_slope fit) * (x i - x j) = 0) by lra. apply Rmult_integral in Z. destruct Z as [Z|Z]; [|lra].
  rewrite Z in Ei. lra.
Qed.
Lemma fit_line a b : (forall i, (i < n)%nat -> y i = a + b * x i) -> ln_yint fit = a /\ ln_slope fit = b.
Proof.
  intros H. destruct (fit_unique a b); [|auto]. apply Rle_trans with 0.
  - right. unfold sq_error. rewrite (Rsumn_ext _ _ (fun _ => 0)), Rsumn_const; [ring|]. intros i Hi. rewrite H by auto. unfold Rsqr. ring.
  - apply Rsumn_pos. intros. apply Rle_0_sqr.
Qed.
Lemma fit_xint : ln_slope fit <> 0 -> line_at Rn fit (ln_xint fit) = 0.
Proof.
  intros H. cbn [line_at fit ln_xint ln_yint ln_slope nadd nmul Rn] in *. pose proof varx_pos. field.
  split; [|lra]. intros E. apply H. rewrite E. unfold Rdiv. ring.
Qed.
Lemma fit_mean : line_at Rn fit (mean x) = mean y.
Proof. cbn [line_at fit ln_xint ln_yint ln_slope nadd nmul Rn]. ring. Qed.
End Fit.

Lemma regr_xy_fit x y n : (1 <= n)%nat -> (n <= length x)%nat -> (n <= length y)%nat -> regr_xy Rn x y (Z.of_nat n) = Ok (fit n (el x) (el y)).
Proof.
  intros H Hx Hy. unfold regr_xy. rewrite Nat2Z.id.
  erewrite (loop2 n _ (el x) (el y)); [|intros; rewrite !get_el by lia; reflexivity|reflexivity]. cbn [bind].
  cbn [nofZ ndiv Rn].
  erewrite (loop2 n); [|intros; rewrite !get_el by lia; reflexivity|reflexivity]. cbn [bind].
  unfold fit, varx, covxy, mean. rewrite !INR_IZR_INZ. reflexivity.
Qed.

Lemma fit_ext n x x' y : (forall i, (i < n)%nat -> x i = x' i) -> fit n x y = fit n x' y.
Proof.
  intros H. assert (E : mean n x = mean n x') by (unfold mean; f_equal; apply Rsumn_ext; auto).
  assert (V : varx n x = varx n x') by (unfold varx; rewrite E; apply Rsumn_ext; intros; rewrite H by auto; reflexivity).
  assert (K : covxy n x y = covxy n x' y) by (unfold covxy; rewrite E; apply Rsumn_ext; intros; rewrite H by auto; reflexivity).
  unfold fit. rewrite E, V, K. reflexivity.
Qed.
Lemma sum_iota n : Rsumn n INR = INR n * (INR n - 1) / 2.
Proof. induction n as [|n IH]; [cbn; lra|]. cbn [Rsumn]. rewrite IH, S_INR. lra. Qed.

Lemma regr_grid_fit y n x0 dx : (1 <= n)%nat -> (Z.of_nat n <= INT_MAX)%Z -> (n <= length y)%nat ->
  regr_grid Rn y (Z.of_nat n) x0 dx = Ok (fit n (fun i => x0 + dx * INR i) (el y)).
Proof.
  intros H Hm Hy. unfold regr_grid. rewrite ichk_ok by (unfold INT_MIN, INT_MAX in *; lia). cbn [bind]. rewrite Nat2Z.id.
  set (mid := ndiv Rn _ _).
  assert (Em : mean n (fun i => x0 + dx * INR i) = x0 + dx * mid).
  { unfold mean. rewrite Rsumn_plus, Rsumn_const, Rsumn_scal, sum_iota. unfold mid. cbn [ndiv nofZ Rn]. rewrite minus_IZR, <- INR_IZR_INZ. field.
    pose proof (lt_0_INR n). assert (0 < INR n) by (apply lt_0_INR; lia). lra. }
  erewrite (loop1 n _ (el y)); [|intros; rewrite !get_el by lia; reflexivity|reflexivity]. cbn [bind].
  erewrite (loop2 n); [|intros; rewrite !get_el by lia; reflexivity|reflexivity]. cbn [bind].
  cbn [nofZ ndiv nadd nmul nsub Rn].
  assert (V : varx n (fun i => x0 + dx * INR i) = Rsumn n (fun i => dx * (IZR (Z.of_nat i) - mid) * (dx * (IZR (Z.of_nat i) - mid)))).
  { unfold varx. apply Rsumn_ext. intros. rewrite Em, INR_IZR_INZ. ring. }
  assert (K : covxy n (fun i => x0 + dx * INR i) (el y) = Rsumn n (fun i => dx * (IZR (Z.of_nat i) - mid) * (el y i - Rsumn n (el y) / IZR (Z.of_nat n)))).
  { unfold covxy. apply Rsumn_ext. intros. rewrite Em. unfold mean. rewrite !INR_IZR_INZ. ring. }
  unfold fit. rewrite V, K, Em. unfold mean. rewrite INR_IZR_INZ. reflexivity.
Qed.
