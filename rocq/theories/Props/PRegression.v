(* Property C59: least squares line *)
From Coq Require Import Reals ZArith List Lra Lia.
From Verif Require Import Model.Regression Spec.Fir Spec.LeastSquares Proofs.RegressionProofs.
Open Scope R_scope.

(** C59: for LEN points of which two differ in x the constructor returns the line with the strictly least
    sum of squared errors *)
Theorem C59_minimises : forall (x y : list R) (n : nat), (n <= length x)%nat -> (n <= length y)%nat ->
  (exists i j, (i < n)%nat /\ (j < n)%nat /\ el x i <> el x j) ->
  exists s, regr_xy Rn x y (Z.of_nat n) = Ok s /\
    forall a b, (a, b) <> (ln_yint s, ln_slope s) ->
      sq_error n (el x) (el y) (ln_yint s) (ln_slope s) < sq_error n (el x) (el y) a b.
Proof.
  intros x y n Hx Hy D. assert (Hn : (1 <= n)%nat) by (destruct D as (i & _ & Hi & _); lia).
  exists (fit n (el x) (el y)). split; [apply regr_xy_fit; auto|]. intros a b N.
  pose proof (fit_min n (el x) (el y) Hn D a b) as L. destruct (Rle_lt_or_eq_dec _ _ L) as [|E]; [auto|].
  exfalso. apply N. destruct (fit_unique n (el x) (el y) Hn D a b) as [-> ->]; [lra|reflexivity].
Qed.
Print Assumptions C59_minimises.

(** C59: points on a line give that line back *)
Theorem C59_collinear : forall (x y : list R) (n : nat) (a b : R), (n <= length x)%nat -> (n <= length y)%nat ->
  (exists i j, (i < n)%nat /\ (j < n)%nat /\ el x i <> el x j) ->
  (forall i, (i < n)%nat -> el y i = a + b * el x i) ->
  exists s, regr_xy Rn x y (Z.of_nat n) = Ok s /\ ln_yint s = a /\ ln_slope s = b /\ (forall t, line_at Rn s t = a + b * t) /\
    (b <> 0 -> ln_xint s = - a / b).
Proof.
  intros x y n a b Hx Hy D L. assert (Hn : (1 <= n)%nat) by (destruct D as (i & _ & Hi & _); lia).
  exists (fit n (el x) (el y)). split; [apply regr_xy_fit; auto|].
  destruct (fit_line n (el x) (el y) Hn D a b L) as [Ea Eb].
  assert (EL : forall t, line_at Rn (fit n (el x) (el y)) t = a + b * t) by (intros t; unfold line_at; rewrite Ea, Eb; reflexivity).
  repeat split; auto. intros Nb. pose proof (fit_xint n (el x) (el y) D) as X. rewrite Eb, EL in X. specialize (X Nb).
  assert (E : ln_xint (fit n (el x) (el y)) * b = - a) by lra. rewrite <- E. field. exact Nb.
Qed.
Print Assumptions C59_collinear.

(** C59: xint() is the zero of the line unless it is horizontal, the line passes through the centre of
    gravity, and residuals are orthogonal to the data *)
Theorem C59_xint : forall (x y : list R) (n : nat), (n <= length x)%nat -> (n <= length y)%nat ->
  (exists i j, (i < n)%nat /\ (j < n)%nat /\ el x i <> el x j) ->
  exists s, regr_xy Rn x y (Z.of_nat n) = Ok s /\ (ln_slope s <> 0 -> line_at Rn s (ln_xint s) = 0) /\
    line_at Rn s (Rsumn n (el x) / INR n) = Rsumn n (el y) / INR n /\
    Rsumn n (fun i => el y i - line_at Rn s (el x i)) = 0 /\
    Rsumn n (fun i => (el y i - line_at Rn s (el x i)) * el x i) = 0.
Proof.
  intros x y n Hx Hy D. assert (Hn : (1 <= n)%nat) by (destruct D as (i & _ & Hi & _); lia).
  exists (fit n (el x) (el y)). split; [apply regr_xy_fit; auto|]. split; [apply fit_xint; auto|]. split; [apply fit_mean|].
  split; [apply resid0|apply resid1]; auto.
Qed.
Print Assumptions C59_xint.

(** C59: the constructor for a uniform grid returns what the general one returns for x_i = x0 + dx i *)
Theorem C59_grid : forall (y : list R) (n : nat) (x0 dx : R), (1 <= n)%nat -> (Z.of_nat n <= INT_MAX)%Z -> (n <= length y)%nat ->
  regr_grid Rn y (Z.of_nat n) x0 dx = regr_xy Rn (map (fun i => x0 + dx * INR i) (seq 0 n)) y (Z.of_nat n).
Proof.
  intros y n x0 dx Hn Hm Hy. rewrite regr_grid_fit, regr_xy_fit by (auto; rewrite map_length, seq_length; lia).
  f_equal. apply fit_ext. intros i Hi. unfold el. rewrite (nth_indep _ 0 ((fun i => x0 + dx * INR i) O)) by (rewrite map_length, seq_length; lia).
  rewrite (map_nth (fun i => x0 + dx * INR i)), seq_nth by lia. reflexivity.
Qed.
Print Assumptions C59_grid.

(** four points that are on no line: 0.9 x - 0.1 *)
Example C59_example : exists s, regr_xy Rn [0; 1; 2; 3] [0; 1; 1; 3] 4 = Ok s /\ ln_slope s = 9 / 10 /\ ln_yint s = - 1 / 10 /\ ln_xint s = 1 / 9 /\
  regr_grid Rn [0; 1; 1; 3] 4 0 1 = Ok s.
Proof.
  exists (fit 4 (el [0; 1; 2; 3]) (el [0; 1; 1; 3])).
  split; [apply (regr_xy_fit _ _ 4); cbn; lia|]. unfold fit, varx, covxy, mean, el. cbn [ln_slope ln_yint ln_xint Rsumn nth INR].
  repeat (split; [field|]). pose proof (regr_grid_fit [0; 1; 1; 3] 4 0 1) as G. cbn [Z.of_nat Pos.of_succ_nat Pos.succ] in G. rewrite G by (unfold INT_MAX; cbn; lia). f_equal.
  unfold fit, varx, covxy, mean, el. cbn [Rsumn nth INR]. f_equal; field.
Qed.
Example C59_collinear_example : exists s, regr_xy Rn [1; 2; 5] [5; 7; 13] 3 = Ok s /\ ln_yint s = 3 /\ ln_slope s = 2 /\
  (forall t, line_at Rn s t = 3 + 2 * t) /\ (2 <> 0 -> ln_xint s = - 3 / 2).
Proof.
  apply (C59_collinear [1; 2; 5] [5; 7; 13] 3); cbn; try lia.
  - exists 0%nat, 1%nat. unfold el; cbn. split; [lia|]. split; [lia|lra].
  - intros [|[|[|i]]] H; unfold el; cbn; try lra; lia.
Qed.
