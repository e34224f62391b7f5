(* Properties C60, C61, C62: Theil-Sen and repeated median estimators *)
From Coq Require Import Reals ZArith List Lia Lra Bool Floats Psatz.
From Flocq Require Import Core.
From Verif Require Import Model.RobustLine Model.Num64 Spec.Sorting Spec.LeastSquares Spec.RobustFit Proofs.BaseLemmas Proofs.RobustLineProofs Proofs.RobustFitProofs.
Import ListNotations.
Open Scope R_scope.

(** C60: with not all abscissas equal the slope has rank floor(count/2) among all pairwise slopes, the
    intercept has rank floor(LEN/2) among the residuals, whatever temp_ held before *)
Theorem C60_median : forall (LEN_MAX : Z) (s : tsen) (x y : list R) (n : nat),
  zlen (ts_temp s) = ts_size LEN_MAX -> (Z.of_nat n <= LEN_MAX)%Z -> (n <= length x)%nat -> (n <= length y)%nat ->
  (exists i j, (i < n)%nat /\ (j < n)%nat /\ el x i <> el x j) ->
  exists s', ts_compute Rn LEN_MAX s x y (Z.of_nat n) = Ok s' /\ zlen (ts_temp s') = ts_size LEN_MAX /\
    kth_smallest Rlt_bool (length (pair_slopes n (el x) (el y)) / 2) (pair_slopes n (el x) (el y)) (ln_slope (ts_line s')) /\
    kth_smallest Rlt_bool (n / 2) (residuals n (el x) (el y) (ln_slope (ts_line s'))) (ln_yint (ts_line s')) /\
    ln_xint (ts_line s') = - ln_yint (ts_line s') / ln_slope (ts_line s').
Proof.
  intros LM s x y n Ht Hm Hx Hy (i & j & Hi & Hj & N).
  assert (H2 : (2 <= n)%nat) by (destruct (Nat.eq_dec i j) as [->|]; [contradiction|lia]).
  assert (Sz : (Z.of_nat n * (Z.of_nat n - 1) <= 2 * ts_size LM)%Z /\ (1 <= ts_size LM)%Z /\ (n = 2%nat /\ LM = 2%Z \/ Z.of_nat n <= ts_size LM)%Z).
  { unfold ts_size. assert (E : ((LM - 1) * LM = 2 * ((LM - 1) * LM / 2))%Z).
    { apply Z_div_exact_full_2; [lia|]. rewrite Zmult_mod, Zminus_mod. pose proof (Z.mod_pos_bound LM 2 ltac:(lia)).
      assert (Q : (LM mod 2 = 0 \/ LM mod 2 = 1)%Z) by lia. destruct Q as [-> | ->]; reflexivity. }
    split; [nia|]. split; [apply Z.div_le_lower_bound; nia|]. destruct (Z.eq_dec LM 2); [left; lia|right; apply Z.div_le_lower_bound; nia]. }
  destruct Sz as (S1 & S2 & S3).
  assert (PL : (Z.of_nat (length (pair_slopes n (el x) (el y))) <= ts_size LM)%Z).
  { pose proof (pair_slopes_len (el x) (el y) n). nia. }
  destruct (ts_compute_ok Rn Rlt_irr x y n (ts_size LM) Hx Hy ltac:(lia) LM s eq_refl Ht S2) as (s' & E & L & (K & I1 & I2 & Xi)).
  { rewrite pair_eq. apply (pair_slopes_nonempty _ _ n i j); auto. }
  exists s'. split; [exact E|]. split; [exact L|]. destruct (K Rlt_swo) as (K1 & K2). rewrite pair_eq in K1, I1.
  split; [apply K1; exact PL|]. split; [|exact Xi]. change (map _ _) with (residuals n (el x) (el y) (ln_slope (ts_line s'))) in I2, K2.
  destruct S3 as [(-> & ->)|S3]; [|apply K2; exact S3].
  assert (RR : residuals 2 (el x) (el y) (ln_slope (ts_line s')) = [ln_yint (ts_line s'); ln_yint (ts_line s')]).
  { unfold residuals in *. cbn [seq map] in *. unfold pair_slopes in I1. cbn in I1. destruct (Req_EM_T (el x 1) (el x 0)) as [Q|Q]; [contradiction|].
    cbn in I1. destruct I1 as [I1|[]]. rewrite <- I1 in *.
    assert (A : el y 1 - (el y 1 - el y 0) / (el x 1 - el x 0) * el x 1 = el y 0 - (el y 1 - el y 0) / (el x 1 - el x 0) * el x 0) by (field; lra).
    cbn in I2. rewrite A in *. destruct I2 as [I2|[I2|[]]]; rewrite I2; reflexivity. }
  rewrite RR. set (v := ln_yint (ts_line s')). assert (V : Rlt_bool v v = false) by (apply Rlt_bool_false; lra).
  unfold kth_smallest. cbn [filter]. rewrite V. cbn. auto.
Qed.
Print Assumptions C60_median.

(** C60: a slope shared by more than half of the pairs is returned exactly *)
Theorem C60_exact_slope : forall (LEN_MAX : Z) (s : tsen) (x y : list R) (n : nat) (b : R),
  zlen (ts_temp s) = ts_size LEN_MAX -> (Z.of_nat n <= LEN_MAX)%Z -> (n <= length x)%nat -> (n <= length y)%nat ->
  (length (pair_slopes n (el x) (el y)) < 2 * times b (pair_slopes n (el x) (el y)))%nat ->
  exists s', ts_compute Rn LEN_MAX s x y (Z.of_nat n) = Ok s' /\ ln_slope (ts_line s') = b.
Proof.
  intros LM s x y n b Ht Hm Hx Hy Maj.
  assert (D : exists i j, (i < n)%nat /\ (j < n)%nat /\ el x i <> el x j).
  { destruct (pair_slopes n (el x) (el y)) as [|h t] eqn:E; [cbn in Maj; lia|]. assert (I : In h (pair_slopes n (el x) (el y))) by (rewrite E; left; reflexivity).
    apply in_flat_map in I. destruct I as (i & Hi & I). apply in_flat_map in I. destruct I as (j & Hj & I). apply in_seq in Hi, Hj.
    destruct (Req_EM_T (el x j) (el x i)); [contradiction|]. exists j, i. split; [lia|]. split; [lia|auto]. }
  destruct (C60_median LM s x y n Ht Hm Hx Hy D) as (s' & E & _ & K & _). exists s'. split; [exact E|].
  eapply majority_half; eauto.
Qed.
Print Assumptions C60_exact_slope.

(** C60: breakdown point.  With m of n points (distinct abscissas) on one line and 2 m (m-1) > n (n-1), which
    holds when less than about 29% of the points are off the line, slope and intercept are those of the line *)
Theorem C60_breakdown : forall (LEN_MAX : Z) (s : tsen) (x y : list R) (n : nat) (good : nat -> bool) (a b : R),
  zlen (ts_temp s) = ts_size LEN_MAX -> (Z.of_nat n <= LEN_MAX)%Z -> (n <= length x)%nat -> (n <= length y)%nat ->
  (forall i j, (i < n)%nat -> (j < n)%nat -> i <> j -> el x i <> el x j) ->
  (forall i, (i < n)%nat -> good i = true -> el y i = a + b * el x i) ->
  (n * (n - 1) < 2 * many n good * (many n good - 1))%nat ->
  exists s', ts_compute Rn LEN_MAX s x y (Z.of_nat n) = Ok s' /\ ln_slope (ts_line s') = b /\ ln_yint (ts_line s') = a.
Proof.
  intros LM s x y n good a b Ht Hm Hx Hy D L M. pose proof (many_le n good) as Ml.
  pose proof (pairs_count (el x) (el y) n good a b D L n (le_n n)) as P. rewrite Nat.sub_diag in P. change (flat_map _ _) with (pair_slopes n (el x) (el y)) in P. fold (many n good) in P.
  pose proof (pair_slopes_len (el x) (el y) n) as PL.
  destruct (C60_exact_slope LM s x y n b Ht Hm Hx Hy) as (s' & E & Es); [nia|]. exists s'. split; [exact E|]. split; [exact Es|].
  destruct (C60_median LM s x y n Ht Hm Hx Hy) as (s2 & E2 & _ & _ & K & _).
  { exists 0%nat, 1%nat. assert (2 <= n)%nat by nia. split; [lia|]. split; [lia|]. apply D; lia. }
  rewrite E in E2. injection E2 as <-. rewrite Es in K. rewrite <- (residuals_len n (el x) (el y) b) in K at 1. apply (majority_half _ _ _ K).
  rewrite residuals_len. pose proof (residual_times n (el x) (el y) good a b L). nia.
Qed.
Print Assumptions C60_breakdown.

(** C60: whatever the arithmetic (NaN included) and LEN, compute either finishes or hits the assertion in
    quick_select; no array is overrun and nothing else undefined happens *)
Theorem C60_safe : forall (T : Type) (M : num T), (forall v, nltb M v v = false) ->
  forall (LEN_MAX LEN : Z) (s : tsen) (x y : list T), (1 <= LEN_MAX)%Z -> zlen (ts_temp s) = ts_size LEN_MAX ->
  (LEN <= zlen x)%Z -> (LEN <= zlen y)%Z ->
  ts_compute M LEN_MAX s x y LEN = AssertFail \/
  exists s', ts_compute M LEN_MAX s x y LEN = Ok s' /\ zlen (ts_temp s') = ts_size LEN_MAX.
Proof.
  intros T M irr LM LEN s x y H1 Ht Hx Hy.
  assert (S0 : (0 <= ts_size LM)%Z) by (unfold ts_size; apply Z.div_pos; nia).
  assert (E : ts_compute M LM s x y LEN = ts_compute M LM s x y (Z.of_nat (Z.to_nat LEN))).
  { destruct (Z_le_gt_dec 0 LEN); [rewrite Z2Nat.id by lia; reflexivity|].
    unfold ts_compute, ts_slopes, ts_icepts. replace (Z.to_nat LEN) with O by lia. reflexivity. }
  rewrite E. assert (Lx : (Z.to_nat LEN <= length x)%nat) by (unfold zlen in Hx; lia). assert (Ly : (Z.to_nat LEN <= length y)%nat) by (unfold zlen in Hy; lia).
  destruct (pairL M x y (Z.to_nat LEN)) eqn:P.
  - left. eapply ts_compute_assert; eauto.
  - destruct (Z.eq_dec (ts_size LM) 0); [left; eapply ts_compute_assert; eauto|right].
    destruct (ts_compute_ok M irr x y (Z.to_nat LEN) (ts_size LM) Lx Ly S0 LM s eq_refl Ht) as (s' & Es & L & _); [lia|rewrite P; cbn; lia|]. eauto.
Qed.
Print Assumptions C60_safe.

(** five points, four of them on 2 x + 1 *)
Example C60_example : exists s', ts_compute Rn 5 (mkTsen (repeat 0 10) (line_new Rn)) [0; 1; 2; 3; 4] [1; 3; 100; 7; 9] 5 = Ok s' /\ ln_slope (ts_line s') = 2 /\ ln_yint (ts_line s') = 1.
Proof.
  apply (C60_breakdown 5 _ [0; 1; 2; 3; 4] [1; 3; 100; 7; 9] 5 (fun i => negb (Nat.eqb i 2)) 1 2); try reflexivity; try (cbn; lia).
  - intros [|[|[|[|[|i]]]]] [|[|[|[|[|j]]]]] Hi Hj N; unfold el; cbn; try lra; lia.
  - intros [|[|[|[|[|i]]]]] Hi G; unfold el; cbn in *; try lra; try discriminate; lia.
Qed.
(** run in double precision *)
Example C60_double : exists s', ts_compute Dn 5 (mkTsen (repeat nan 10) (line_new Dn)) [0; 1; 2; 3; 4]%float [1; 3; 100; 7; 9]%float 5 = Ok s' /\ ts_line s' = mkLine (-0.5)%float 1%float 2%float.
Proof. eexists. split; [vm_compute; reflexivity|reflexivity]. Qed.
Example C60_assert : ts_compute Dn 5 (mkTsen (repeat nan 10) (line_new Dn)) [1; 1; 1]%float [1; 3; 100]%float 3 = AssertFail.
Proof. vm_compute. reflexivity. Qed.

(** C61: what both estimators compute: slope (and intercept) of rank floor(LEN/2) of the list whose i-th
    element has rank floor(count/2) among the slopes (intercepts) of the lines through point i *)
Definition row_medians (L : list R) (n : nat) (at_ : nat -> list R) : Prop :=
  length L = n /\ forall i, (i < n)%nat -> kth_smallest Rlt_bool (length (at_ i) / 2) (at_ i) (el L i).
Theorem C61_medians : forall (SIZE : Z) (s : rmed) (x y : list R) (n : nat),
  zlen (rm_inner s) = (SIZE - 1)%Z -> zlen (rm_outer s) = SIZE -> (Z.of_nat n <= SIZE)%Z -> (n <= length x)%nat -> (n <= length y)%nat ->
  (exists i j, (i < n)%nat /\ (j < n)%nat /\ el x i <> el x j) ->
  (exists s' Ls Li, rm_compute Rn SIZE s x y (Z.of_nat n) = Ok s' /\
     row_medians Ls n (slopes_at n (el x) (el y)) /\ row_medians Li n (icepts_at n (el x) (el y)) /\
     kth_smallest Rlt_bool (n / 2) Ls (ln_slope (rm_line s')) /\ kth_smallest Rlt_bool (n / 2) Li (ln_yint (rm_line s')) /\
     ln_xint (rm_line s') = - ln_yint (rm_line s') / ln_slope (rm_line s')) /\
  (exists s' Ls, rm2_compute Rn SIZE s x y (Z.of_nat n) = Ok s' /\
     row_medians Ls n (slopes_at n (el x) (el y)) /\
     kth_smallest Rlt_bool (n / 2) Ls (ln_slope (rm_line s')) /\
     kth_smallest Rlt_bool (n / 2) (residuals n (el x) (el y) (ln_slope (rm_line s'))) (ln_yint (rm_line s')) /\
     ln_xint (rm_line s') = - ln_yint (rm_line s') / ln_slope (rm_line s')).
Proof.
  intros SIZE s x y n Hi Ho Hn Hx Hy (i & j & Li & Lj & N).
  destruct (compute_ok Rn Rlt_irr x y n Hx Hy SIZE (Z.of_nat n) s) as ((s1 & E1 & _ & (Ls & Lc & (A1 & A2) & (B1 & B2) & K & Xi)) & (s2 & E2 & _ & (Ls' & (A1' & A2') & K' & Xi'))).
  - split; auto.
  - lia.
  - lia.
  - intros k Hk. cbn [neqb Rn]. apply Req_bool_true. reflexivity.
  - lia.
  - intros k Hk. cbn [neqb Rn]. change (eln Rn x) with (el x). destruct (Req_dec (el x i) (el x k)) as [Q|Q].
    + exists j. split; [auto|]. apply Req_bool_false. change (el x j <> el x k). congruence.
    + exists i. split; [auto|]. apply Req_bool_false. exact Q.
  - split.
    + exists s1, Ls, Lc. destruct (K Rlt_swo) as (K1 & K2). split; [exact E1|]. split; [|split; [|auto]].
      * split; [exact A1|]. intros k Hk. destruct (A2 k Hk) as (_ & R). specialize (R Rlt_swo). rewrite col_slope in R. exact R.
      * split; [exact B1|]. intros k Hk. destruct (B2 k Hk) as (_ & R). specialize (R Rlt_swo). rewrite col_icept in R. exact R.
    + exists s2, Ls'. destruct (K' Rlt_swo) as (K1 & K2). split; [exact E2|]. split; [|auto].
      split; [exact A1'|]. intros k Hk. destruct (A2' k Hk) as (_ & R). specialize (R Rlt_swo). rewrite col_slope in R. exact R.
Qed.
Print Assumptions C61_medians.

(** C61: with distinct abscissas and 2 m > n + 1 of the n points on a line both return that line, wherever the
    other points are *)
Theorem C61_breakdown : forall (SIZE : Z) (s : rmed) (x y : list R) (n : nat) (good : nat -> bool) (a b : R),
  zlen (rm_inner s) = (SIZE - 1)%Z -> zlen (rm_outer s) = SIZE -> (Z.of_nat n <= SIZE)%Z -> (n <= length x)%nat -> (n <= length y)%nat ->
  (forall i j, (i < n)%nat -> (j < n)%nat -> i <> j -> el x i <> el x j) ->
  (forall i, (i < n)%nat -> good i = true -> el y i = a + b * el x i) ->
  (n + 1 < 2 * many n good)%nat ->
  (exists s', rm_compute Rn SIZE s x y (Z.of_nat n) = Ok s' /\ ln_slope (rm_line s') = b /\ ln_yint (rm_line s') = a) /\
  (exists s', rm2_compute Rn SIZE s x y (Z.of_nat n) = Ok s' /\ ln_slope (rm_line s') = b /\ ln_yint (rm_line s') = a).
Proof.
  intros SIZE s x y n good a b Hi Ho Hn Hx Hy D L M. pose proof (many_le n good) as Ml.
  destruct (C61_medians SIZE s x y n Hi Ho Hn Hx Hy) as ((s1 & Ls & Lc & E1 & (A1 & A2) & (B1 & B2) & K1 & K2 & _) & (s2 & Ls' & E2 & (A1' & A2') & K1' & K2' & _)).
  { exists 0%nat, 1%nat. split; [lia|]. split; [lia|]. apply D; lia. }
  assert (RS : forall Q, length Q = n -> (forall i, (i < n)%nat -> kth_smallest Rlt_bool (length (slopes_at n (el x) (el y) i) / 2) (slopes_at n (el x) (el y) i) (el Q i)) ->
    forall v, kth_smallest Rlt_bool (n / 2) Q v -> v = b).
  { intros Q LQ RQ v Kv. rewrite <- LQ in Kv. apply (majority_half _ _ _ Kv). rewrite LQ.
    assert (many n good <= times b Q)%nat; [|lia]. apply times_map; auto. intros k Hk G. apply (majority_half _ _ _ (RQ k Hk)).
    change (slopes_at n (el x) (el y) k) with (flat_map (cell (el x) (slp (el x) (el y)) k) (seq 0 n)).
    rewrite full_len by auto. pose proof (full_times (el x) n good D (slp (el x) (el y)) k b Hk G). assert (T : (many n good - 1 <= times b (flat_map (cell (el x) (slp (el x) (el y)) k) (seq 0 n)))%nat); [|lia].
    apply H. intros j Hj Nj Gj. apply (slope_good (el x) (el y) n good a b); auto. }
  assert (RI : ln_yint (rm_line s1) = a).
  { rewrite <- B1 in K2. apply (majority_half _ _ _ K2). rewrite B1.
    assert (many n good <= times a Lc)%nat; [|lia]. apply times_map; auto. intros k Hk G. apply (majority_half _ _ _ (B2 k Hk)).
    set (g := fun i j : nat => ((el x j * el y i - el x i * el y j) / (el x j - el x i))%R).
    change (icepts_at n (el x) (el y) k) with (flat_map (cell (el x) g k) (seq 0 n)).
    rewrite full_len by auto. pose proof (full_times (el x) n good D g k a Hk G). assert (T : (many n good - 1 <= times a (flat_map (cell (el x) g k) (seq 0 n)))%nat); [|lia].
    apply H. intros j Hj Nj Gj. apply (icept_good (el x) (el y) n good a b); auto. }
  split.
  - exists s1. split; [exact E1|]. split; [apply (RS Ls); auto|exact RI].
  - exists s2. split; [exact E2|]. assert (Eb : ln_slope (rm_line s2) = b) by (apply (RS Ls'); auto). split; [exact Eb|].
    rewrite Eb in K2'. rewrite <- (residuals_len n (el x) (el y) b) in K2' at 1. apply (majority_half _ _ _ K2').
    rewrite residuals_len. pose proof (residual_times n (el x) (el y) good a b L). lia.
Qed.
Print Assumptions C61_breakdown.

(** six points, four of them on 2 x + 1 *)
Example C61_example : (exists s', rm_compute Rn 6 (mkRmed (repeat 0 5) (repeat 0 6) (line_new Rn)) [0; 1; 2; 3; 4; 5] [1; 3; 100; 7; 9; - 1000] 6 = Ok s' /\ ln_slope (rm_line s') = 2 /\ ln_yint (rm_line s') = 1) /\
  (exists s', rm2_compute Rn 6 (mkRmed (repeat 0 5) (repeat 0 6) (line_new Rn)) [0; 1; 2; 3; 4; 5] [1; 3; 100; 7; 9; - 1000] 6 = Ok s' /\ ln_slope (rm_line s') = 2 /\ ln_yint (rm_line s') = 1).
Proof.
  apply (C61_breakdown 6 _ [0; 1; 2; 3; 4; 5] [1; 3; 100; 7; 9; - 1000] 6 (fun i => negb (Nat.eqb i 2 || Nat.eqb i 5)) 1 2); try reflexivity; try (cbn; lia).
  - intros [|[|[|[|[|[|i]]]]]] [|[|[|[|[|[|j]]]]]] Hi Hj N; unfold el; cbn; try lra; lia.
  - intros [|[|[|[|[|[|i]]]]]] Hi G; unfold el; cbn in *; try lra; try discriminate; lia.
Qed.
(** the bound is sharp: with 2 m = n + 1 an outlier can move the result (5 points, 3 of them on y = 0) *)
Example C61_sharp : exists s', rm2_compute Dn 5 (mkRmed (repeat nan 4) (repeat nan 5) (line_new Dn)) [0; 1; 2; 3; 4]%float [0; 0; 0; 100; 1000]%float 5 = Ok s' /\ ln_slope (rm_line s') = 100%float.
Proof. eexists. split; [vm_compute; reflexivity|reflexivity]. Qed.

(** C62: when no abscissa differs from itself compute stays within inner_, outer_, x and y for all data, all
    LEN and any arithmetic; it finishes or hits the assertion in quick_select *)
Theorem C62_safe_without_nan : forall (T : Type) (M : num T), (forall v, nltb M v v = false) ->
  forall (SIZE LEN : Z) (s : rmed) (x y : list T), (1 <= SIZE)%Z -> zlen (rm_inner s) = (SIZE - 1)%Z -> zlen (rm_outer s) = SIZE ->
  (LEN <= zlen x)%Z -> (LEN <= zlen y)%Z -> (forall v, In v x -> neqb M v v = true) ->
  (rm_compute M SIZE s x y LEN = AssertFail \/ exists s', rm_compute M SIZE s x y LEN = Ok s' /\ zlen (rm_inner s') = (SIZE - 1)%Z /\ zlen (rm_outer s') = SIZE) /\
  (rm2_compute M SIZE s x y LEN = AssertFail \/ exists s', rm2_compute M SIZE s x y LEN = Ok s' /\ zlen (rm_inner s') = (SIZE - 1)%Z /\ zlen (rm_outer s') = SIZE).
Proof.
  intros T M irr SIZE LEN s x y H1 Hi Ho Hx Hy R. set (n := Z.to_nat (Z.min LEN SIZE)).
  assert (Lx : (n <= length x)%nat) by (unfold zlen, n in *; lia). assert (Ly : (n <= length y)%nat) by (unfold zlen, n in *; lia).
  apply (compute_safe M irr x y n Lx Ly SIZE LEN s); auto.
  - split; auto.
  - unfold n. lia.
  - intros i Hi'. apply R. apply nth_In. lia.
Qed.
Print Assumptions C62_safe_without_nan.

(** C62 does not hold in general: in a full-size data set an abscissa that is unequal to everything including
    itself, as NaN is, makes both estimators write past the end of inner_ *)
Theorem C62_refuted : forall (T : Type) (M : num T), (forall v, nltb M v v = false) ->
  forall (SIZE LEN : Z) (s : rmed) (x y : list T) (nan : T), zlen (rm_inner s) = (SIZE - 1)%Z -> zlen (rm_outer s) = SIZE ->
  (1 <= SIZE <= LEN)%Z -> (LEN <= zlen x)%Z -> (LEN <= zlen y)%Z ->
  (forall v, neqb M nan v = false /\ neqb M v nan = false) -> In nan (firstn (Z.to_nat SIZE) x) ->
  rm_compute M SIZE s x y LEN = Undefined /\ rm2_compute M SIZE s x y LEN = Undefined.
Proof.
  intros T M irr SIZE LEN s x y nan Hi Ho HS Hx Hy N I. apply (In_nth _ _ (n0 M)) in I. destruct I as (i & Li & Ei). rewrite firstn_length in Li.
  assert (Ex : eln M x i = nan).
  { unfold eln. rewrite <- Ei. rewrite <- (firstn_skipn (Z.to_nat SIZE) x) at 1. apply app_nth1. rewrite firstn_length. lia. }
  apply (compute_overrun M irr x y (Z.to_nat SIZE)) with i; try (unfold zlen in *; lia).
  - split; auto.
  - intros j Hj. rewrite Ex. destruct (N (eln M x j)). auto.
Qed.
Print Assumptions C62_refuted.

(** double precision: three points, SIZE = 3, one abscissa NaN *)
Example C62_nan : rm_compute Dn 3 (mkRmed (repeat nan 2) (repeat nan 3) (line_new Dn)) [0; nan; 2]%float [1; 2; 3]%float 3 = Undefined /\
  rm2_compute Dn 3 (mkRmed (repeat nan 2) (repeat nan 3) (line_new Dn)) [0; nan; 2]%float [1; 2; 3]%float 3 = Undefined.
Proof. split; vm_compute; reflexivity. Qed.
(** a NaN ordinate is harmless *)
Example C62_nan_y : exists s', rm_compute Dn 3 (mkRmed (repeat nan 2) (repeat nan 3) (line_new Dn)) [0; 1; 2]%float [1; nan; 3]%float 3 = Ok s'.
Proof. eexists. vm_compute. reflexivity. Qed.
