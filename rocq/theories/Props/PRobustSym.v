(* Property C86: Theil-Sen and repeated median: order of the points, change of coordinates *)
From Coq Require Import Reals ZArith List Lia Lra Bool Floats Psatz Permutation.
From Flocq Require Import Core.
From Verif Require Import Model.RobustLine Model.Num64 Spec.Sorting Spec.LeastSquares Spec.RobustFit Proofs.BaseLemmas Proofs.RobustLineProofs Proofs.RobustFitProofs Proofs.RobustEquiv Props.PRobustLine.
Import ListNotations.
Open Scope R_scope.

(** arithmetic on the reals, exact or with a rounding that respects signs after every operation *)
Definition sign_symmetric (M : num R) : Prop := M = Rn \/ exists rnd : R -> R, M = Fn rnd /\ forall v, rnd (- v) = - rnd v.
Lemma sym_ord M : sign_symmetric M -> nltb M = Rlt_bool /\ neqb M = Req_bool /\ n0 M = 0.
Proof. intros [->|(rnd & -> & _)]; auto. Qed.
Lemma Rdiv_neg u v : - u / - v = u / v.
Proof. unfold Rdiv. rewrite Rinv_opp. ring. Qed.
Lemma sym_slope M : sign_symmetric M -> forall a b c d, slope_of M a b c d = slope_of M c d a b.
Proof.
  intros [->|(rnd & -> & O)] a b c d; unfold slope_of; cbn [nsub ndiv Rn Fn].
  - rewrite <- Rdiv_neg. f_equal; ring.
  - replace (d - b) with (- (b - d)) by ring. replace (c - a) with (- (a - c)) by ring. rewrite !O, Rdiv_neg. auto.
Qed.
Lemma sym_icept M : sign_symmetric M -> forall a b c d, icept_of M a b c d = icept_of M c d a b.
Proof.
  intros [->|(rnd & -> & O)] a b c d; unfold icept_of; cbn [nsub ndiv nmul Rn Fn].
  - rewrite <- Rdiv_neg. f_equal; ring.
  - replace (rnd (c * b) - rnd (a * d)) with (- (rnd (a * d) - rnd (c * b))) by ring. replace (c - a) with (- (a - c)) by ring. rewrite !O, Rdiv_neg. auto.
Qed.
Lemma points_combine M x y n : n0 M = 0 -> length x = n -> length y = n -> points M x y n = combine x y.
Proof.
  intros Z Lx Ly. apply nth_ext with (0, 0) (0, 0).
  - unfold points. rewrite map_length, seq_length, combine_length. lia.
  - intros i Hi. unfold points in *. rewrite map_length, seq_length in Hi. rewrite combine_nth by lia.
    rewrite (nth_indep _ (0, 0) ((fun i => (eln M x i, eln M y i)) 0%nat)) by (rewrite map_length, seq_length; lia). rewrite (map_nth (fun i => (eln M x i, eln M y i))). rewrite seq_nth by lia. unfold eln. rewrite Z. auto.
Qed.

(** the points do not all share one abscissa *)
Definition spread (P : list (R * R)) : Prop := exists p q, In p P /\ In q P /\ fst p <> fst q.
Lemma spread_perm P P' : Permutation P P' -> spread P -> spread P'.
Proof. intros H (p & q & A & B & D). exists p, q. split; [eapply Permutation_in; eauto|]. split; [eapply Permutation_in; eauto|auto]. Qed.

Lemma ts_run M : sign_symmetric M -> forall LM (s : tsen) x y n, zlen (ts_temp s) = ts_size LM -> (3 <= LM)%Z -> (Z.of_nat n <= LM)%Z -> length x = n -> length y = n -> spread (combine x y) ->
  exists s', ts_compute M LM s x y (Z.of_nat n) = Ok s' /\ zlen (ts_temp s') = ts_size LM /\
    kth_smallest Rlt_bool (length (pairsp M (combine x y)) / 2) (pairsp M (combine x y)) (ln_slope (ts_line s')) /\
    kth_smallest Rlt_bool (n / 2) (map (fun p => nsub M (snd p) (nmul M (ln_slope (ts_line s')) (fst p))) (combine x y)) (ln_yint (ts_line s')) /\
    ln_xint (ts_line s') = ndiv M (nopp M (ln_yint (ts_line s'))) (ln_slope (ts_line s')).
Proof.
  intros HM LM s x y n Ht H3 Hm Lx Ly Sp. destruct (sym_ord M HM) as (HL & HE & Z0). rewrite <- (points_combine M x y n) in * by auto.
  assert (E2 : ((LM - 1) * LM = 2 * ((LM - 1) * LM / 2))%Z).
  { apply Z_div_exact_full_2; [lia|]. rewrite Zmult_mod, Zminus_mod. pose proof (Z.mod_pos_bound LM 2 ltac:(lia)).
    assert (Q : (LM mod 2 = 0 \/ LM mod 2 = 1)%Z) by lia. destruct Q as [-> | ->]; reflexivity. }
  assert (S1 : (Z.of_nat n <= ts_size LM)%Z) by (unfold ts_size; nia).
  assert (NE : (1 <= length (pairL M x y n))%nat) by (apply pairs_some; auto; apply (nonempty_points M x y n); exact Sp).
  destruct (ts_compute_ok M (irrM M HL) x y n (ts_size LM) ltac:(lia) ltac:(lia) ltac:(lia) LM s eq_refl Ht) as (s' & E & L & (K & _ & _ & Xi)); [unfold ts_size; nia|auto|].
  exists s'. split; [exact E|]. split; [exact L|]. destruct (K (swoM M HL)) as (K1 & K2). rewrite HL in *. rewrite (pair_points M HE) in K1. rewrite resid_points in K2. split; [|split; [apply K2; exact S1|exact Xi]].
  apply K1. rewrite <- (pair_points M HE). assert (PB : (2 * length (pairL M x y n) <= n * (n - 1))%nat).
  { unfold pairL. clear. enough (G : forall k s, (s + k = n)%nat -> (2 * length (flat_map (fun i => flat_map (pt M x y (slope_of M) i) (seq (S i) (n - S i))) (seq s k)) <= k * (k - 1))%nat) by (apply (G n 0%nat); lia).
    induction k as [|k IH]; intros s Hs; cbn [seq flat_map]; [cbn; lia|]. rewrite app_length. specialize (IH (S s) ltac:(lia)).
    assert (C : forall l, (length (flat_map (pt M x y (slope_of M) s) l) <= length l)%nat).
    { induction l as [|h t I]; cbn [flat_map length]; [lia|]. rewrite app_length. unfold pt at 1. destruct (neqb M _ _); cbn [length]; lia. }
    specialize (C (seq (S s) (n - S s))). rewrite seq_length in C. destruct k; [cbn in *; lia|]. nia. }
  unfold zlen, ts_size. nia.
Qed.

(** C86: the line Theil-Sen reports depends only on the collection of points: not on their order, on LEN_MAX,
    on what the scratch array held or on earlier fits; in exact arithmetic and with every sign symmetric rounding *)
Theorem C86_theil_sen_order : forall (M : num R) (LM LM' : Z) (s s' : tsen) (x y x' y' : list R) (n : nat),
  sign_symmetric M -> zlen (ts_temp s) = ts_size LM -> zlen (ts_temp s') = ts_size LM' ->
  (3 <= LM)%Z -> (3 <= LM')%Z -> (Z.of_nat n <= LM)%Z -> (Z.of_nat n <= LM')%Z ->
  length x = n -> length y = n -> length x' = n -> length y' = n ->
  spread (combine x y) -> Permutation (combine x y) (combine x' y') ->
  exists r r', ts_compute M LM s x y (Z.of_nat n) = Ok r /\ ts_compute M LM' s' x' y' (Z.of_nat n) = Ok r' /\ ts_line r = ts_line r'.
Proof.
  intros M LM LM' s s' x y x' y' n HM Ht Ht' H3 H3' Hn Hn' Lx Ly Lx' Ly' Sp HP.
  destruct (ts_run M HM LM s x y n Ht H3 Hn Lx Ly Sp) as (r & E & _ & A & B & C).
  destruct (ts_run M HM LM' s' x' y' n Ht' H3' Hn' Lx' Ly' (spread_perm _ _ HP Sp)) as (r' & E' & _ & A' & B' & C').
  exists r, r'. split; [exact E|]. split; [exact E'|].
  assert (PS : Permutation (pairsp M (combine x y)) (pairsp M (combine x' y'))) by (apply pairs_perm; auto; apply sym_slope; auto).
  assert (S : ln_slope (ts_line r) = ln_slope (ts_line r')).
  { apply (kth_unique _ _ _ _ (kth_perm _ _ _ _ PS A)). rewrite (Permutation_length PS). exact A'. }
  assert (Y : ln_yint (ts_line r) = ln_yint (ts_line r')).
  { rewrite S in B. eapply kth_unique; [|exact B']. eapply kth_perm; [|exact B]. apply Permutation_map. auto. }
  destruct (ts_line r), (ts_line r'). cbn in *. congruence.
Qed.
Print Assumptions C86_theil_sen_order.

Lemma rm_run M : sign_symmetric M -> forall SIZE (s : rmed) x y n, zlen (rm_inner s) = (SIZE - 1)%Z -> zlen (rm_outer s) = SIZE -> (Z.of_nat n <= SIZE)%Z -> length x = n -> length y = n -> spread (combine x y) ->
  (exists s' Ls Li, rm_compute M SIZE s x y (Z.of_nat n) = Ok s' /\ Forall2 (rowm (slope_of M) (combine x y)) (combine x y) Ls /\ Forall2 (rowm (icept_of M) (combine x y)) (combine x y) Li /\
    kth_smallest Rlt_bool (n / 2) Ls (ln_slope (rm_line s')) /\ kth_smallest Rlt_bool (n / 2) Li (ln_yint (rm_line s')) /\
    ln_xint (rm_line s') = ndiv M (nopp M (ln_yint (rm_line s'))) (ln_slope (rm_line s'))) /\
  (exists s' Ls, rm2_compute M SIZE s x y (Z.of_nat n) = Ok s' /\ Forall2 (rowm (slope_of M) (combine x y)) (combine x y) Ls /\
    kth_smallest Rlt_bool (n / 2) Ls (ln_slope (rm_line s')) /\
    kth_smallest Rlt_bool (n / 2) (map (fun p => nsub M (snd p) (nmul M (ln_slope (rm_line s')) (fst p))) (combine x y)) (ln_yint (rm_line s')) /\
    ln_xint (rm_line s') = ndiv M (nopp M (ln_yint (rm_line s'))) (ln_slope (rm_line s'))).
Proof.
  intros HM SIZE s x y n Hi Ho Hn Lx Ly Sp. destruct (sym_ord M HM) as (HL & HE & Z0). rewrite <- (points_combine M x y n) in * by auto.
  apply (nonempty_points M x y n) in Sp. destruct Sp as (i & j & Ii & Ij & D).
  destruct (compute_ok M (irrM M HL) x y n ltac:(lia) ltac:(lia) SIZE (Z.of_nat n) s) as ((s1 & E1 & _ & (Ls & Lc & (A1 & A2) & (B1 & B2) & K & Xi)) & (s2 & E2 & _ & (Ls' & (A1' & A2') & K' & Xi'))).
  - split; auto.
  - lia.
  - lia.
  - intros k Hk. rewrite HE. apply Req_bool_true. reflexivity.
  - lia.
  - intros k Hk. rewrite HE. destruct (Req_dec (eln M x i) (eln M x k)) as [Q|Q].
    + exists j. split; [auto|]. apply Req_bool_false. congruence.
    + exists i. split; [auto|]. apply Req_bool_false. exact Q.
  - pose proof (swoM M HL) as W. split.
    + destruct (K W) as (K1 & K2). rewrite HL in K1, K2. exists s1, Ls, Lc. split; [exact E1|]. split; [apply rows_forall; auto; intros k Hk; rewrite <- HL; exact (proj2 (A2 k Hk) W)|].
      split; [apply rows_forall; auto; intros k Hk; rewrite <- HL; exact (proj2 (B2 k Hk) W)|auto].
    + destruct (K' W) as (K1 & K2). rewrite HL in K1, K2. rewrite resid_points in K2. exists s2, Ls'. split; [exact E2|]. split; [apply rows_forall; auto; intros k Hk; rewrite <- HL; exact (proj2 (A2' k Hk) W)|auto].
Qed.

(** C86: the same for both repeated median estimators *)
Theorem C86_repeated_median_order : forall (M : num R) (SIZE SIZE' : Z) (s s' : rmed) (x y x' y' : list R) (n : nat),
  sign_symmetric M -> zlen (rm_inner s) = (SIZE - 1)%Z -> zlen (rm_outer s) = SIZE -> zlen (rm_inner s') = (SIZE' - 1)%Z -> zlen (rm_outer s') = SIZE' ->
  (Z.of_nat n <= SIZE)%Z -> (Z.of_nat n <= SIZE')%Z ->
  length x = n -> length y = n -> length x' = n -> length y' = n ->
  spread (combine x y) -> Permutation (combine x y) (combine x' y') ->
  (exists r r', rm_compute M SIZE s x y (Z.of_nat n) = Ok r /\ rm_compute M SIZE' s' x' y' (Z.of_nat n) = Ok r' /\ rm_line r = rm_line r') /\
  (exists r r', rm2_compute M SIZE s x y (Z.of_nat n) = Ok r /\ rm2_compute M SIZE' s' x' y' (Z.of_nat n) = Ok r' /\ rm_line r = rm_line r').
Proof.
  intros M SIZE SIZE' s s' x y x' y' n HM Hi Ho Hi' Ho' Hn Hn' Lx Ly Lx' Ly' Sp HP.
  destruct (rm_run M HM SIZE s x y n Hi Ho Hn Lx Ly Sp) as ((r & Ls & Li & E & F1 & F2 & A & B & C) & (r2 & Ls2 & E2 & G1 & A2 & B2 & C2)).
  destruct (rm_run M HM SIZE' s' x' y' n Hi' Ho' Hn' Lx' Ly' (spread_perm _ _ HP Sp)) as ((r' & Ls' & Li' & E' & F1' & F2' & A' & B' & C') & (r2' & Ls2' & E2' & G1' & A2' & B2' & C2')).
  split.
  - exists r, r'. split; [exact E|]. split; [exact E'|].
    assert (S : ln_slope (rm_line r) = ln_slope (rm_line r')) by (eapply kth_unique; [|exact A']; eapply kth_perm; [|exact A]; eapply rows_perm; eauto).
    assert (Y : ln_yint (rm_line r) = ln_yint (rm_line r')) by (eapply kth_unique; [|exact B']; eapply kth_perm; [|exact B]; eapply rows_perm; eauto).
    destruct (rm_line r), (rm_line r'). cbn in *. congruence.
  - exists r2, r2'. split; [exact E2|]. split; [exact E2'|].
    assert (S : ln_slope (rm_line r2) = ln_slope (rm_line r2')) by (eapply kth_unique; [|exact A2']; eapply kth_perm; [|exact A2]; eapply rows_perm; eauto).
    assert (Y : ln_yint (rm_line r2) = ln_yint (rm_line r2')) by (rewrite S in B2; eapply kth_unique; [|exact B2']; eapply kth_perm; [|exact B2]; apply Permutation_map; auto).
    destruct (rm_line r2), (rm_line r2'). cbn in *. congruence.
Qed.
Print Assumptions C86_repeated_median_order.

(** IEEE rounding to nearest even is sign symmetric *)
Theorem C86_ieee_symmetric : sign_symmetric (Fn (round radix2 (FLT_exp (-149) 24) ZnearestE)) /\ sign_symmetric (Fn (round radix2 (FLT_exp (-1074) 53) ZnearestE)).
Proof. split; right; eexists; split; try reflexivity; intros; apply round_NE_opp. Qed.
Print Assumptions C86_ieee_symmetric.

(** C86: LEN_MAX = 2 is different: temp_ has room for one value, so the intercept is the one through the first
    point, and rounded it depends on which point comes first *)
Definition first_point (x y : list PrimFloat.float) : outcome (line PrimFloat.float) :=
  s <- ts_compute Dn 2 (mkTsen [nan] (line_new Dn)) x y 2 ;; Ok (ts_line s).
Theorem C86_two_points_refuted : exists a b c d : PrimFloat.float,
  exists l l', first_point [a; c] [b; d] = Ok l /\ first_point [c; a] [d; b] = Ok l' /\ ln_slope l = ln_slope l' /\ ln_yint l <> ln_yint l'.
Proof.
  exists 1%float, 0%float, 4%float, 1%float. eexists. eexists. split; [vm_compute; reflexivity|]. split; [vm_compute; reflexivity|]. split; [reflexivity|].
  cbn. intros H. apply (f_equal (fun v => PrimFloat.eqb v (0 - 1 / 3)%float)) in H. revert H. vm_compute. discriminate.
Qed.
Print Assumptions C86_two_points_refuted.

(** C86: with x scaled by p > 0 and shifted by q, and y scaled by a > 0 and an affine function of x added, the
    line reported is the transformed line *)
Definition changed (x y x' y' : list R) (n : nat) (p q a b c : R) : Prop :=
  forall i, (i < n)%nat -> el x' i = p * el x i + q /\ el y' i = a * el y i + b * el x i + c.
Theorem C86_theil_sen_affine : forall (LM : Z) (s s2 : tsen) (x y x' y' : list R) (n : nat) (p q a b c : R),
  zlen (ts_temp s) = ts_size LM -> zlen (ts_temp s2) = ts_size LM -> (Z.of_nat n <= LM)%Z ->
  (n <= length x)%nat -> (n <= length y)%nat -> (n <= length x')%nat -> (n <= length y')%nat ->
  (exists i j, (i < n)%nat /\ (j < n)%nat /\ el x i <> el x j) ->
  0 < p -> 0 < a -> changed x y x' y' n p q a b c ->
  exists r r', ts_compute Rn LM s x y (Z.of_nat n) = Ok r /\ ts_compute Rn LM s2 x' y' (Z.of_nat n) = Ok r' /\
    ln_slope (ts_line r') = (a * ln_slope (ts_line r) + b) / p /\
    ln_yint (ts_line r') = a * ln_yint (ts_line r) + c - ln_slope (ts_line r') * q.
Proof.
  intros LM s s2 x y x' y' n p q a b c Ht Ht2 Hn Lx Ly Lx' Ly' (i & j & Hi & Hj & D) Hp Ha HC.
  assert (HX : forall k, (k < n)%nat -> el x' k = p * el x k + q) by (intros; apply HC; auto).
  assert (HY : forall k, (k < n)%nat -> el y' k = a * el y k + b * el x k + c) by (intros; apply HC; auto).
  destruct (C60_median LM s x y n Ht Hn Lx Ly) as (r & E & _ & A & B & _); [exists i, j; auto|].
  destruct (C60_median LM s2 x' y' n Ht2 Hn Lx' Ly') as (r' & E' & _ & A' & B' & _); [exists i, j; split; [auto|split; [auto|]]; rewrite !HX by auto; intros Q; apply D; nra|].
  exists r, r'. split; [exact E|]. split; [exact E'|].
  assert (S : ln_slope (ts_line r') = fslope p a b (ln_slope (ts_line r))).
  { rewrite (pair_slopes_affine _ _ _ _ n p q a b c Hp HX HY), map_length in A'. eapply kth_unique; [exact A'|]. apply kth_map; [intros; apply fslope_mono; auto|exact A]. }
  split; [exact S|]. rewrite S in *. rewrite (residuals_affine _ _ _ _ n p q a b c Hp HX HY) in B'. eapply kth_unique; [exact B'|].
  apply (kth_map (fun v => a * v + c - fslope p a b (ln_slope (ts_line r)) * q)); [intros; split; intros; nra|exact B].
Qed.
Print Assumptions C86_theil_sen_affine.

Theorem C86_repeated_median_affine : forall (SIZE : Z) (s s2 : rmed) (x y x' y' : list R) (n : nat) (p q a b c : R),
  zlen (rm_inner s) = (SIZE - 1)%Z -> zlen (rm_outer s) = SIZE -> zlen (rm_inner s2) = (SIZE - 1)%Z -> zlen (rm_outer s2) = SIZE -> (Z.of_nat n <= SIZE)%Z ->
  (n <= length x)%nat -> (n <= length y)%nat -> (n <= length x')%nat -> (n <= length y')%nat ->
  (exists i j, (i < n)%nat /\ (j < n)%nat /\ el x i <> el x j) ->
  0 < p -> 0 < a -> changed x y x' y' n p q a b c ->
  (exists r r', rm_compute Rn SIZE s x y (Z.of_nat n) = Ok r /\ rm_compute Rn SIZE s2 x' y' (Z.of_nat n) = Ok r' /\
    ln_slope (rm_line r') = (a * ln_slope (rm_line r) + b) / p /\
    (q = 0 -> ln_yint (rm_line r') = a * ln_yint (rm_line r) + c)) /\
  (exists r r', rm2_compute Rn SIZE s x y (Z.of_nat n) = Ok r /\ rm2_compute Rn SIZE s2 x' y' (Z.of_nat n) = Ok r' /\
    ln_slope (rm_line r') = (a * ln_slope (rm_line r) + b) / p /\
    ln_yint (rm_line r') = a * ln_yint (rm_line r) + c - ln_slope (rm_line r') * q).
Proof.
  intros SIZE s s2 x y x' y' n p q a b c Hi Ho Hi2 Ho2 Hn Lx Ly Lx' Ly' (i & j & Ii & Ij & D) Hp Ha HC.
  assert (HX : forall k, (k < n)%nat -> el x' k = p * el x k + q) by (intros; apply HC; auto).
  assert (HY : forall k, (k < n)%nat -> el y' k = a * el y k + b * el x k + c) by (intros; apply HC; auto).
  assert (SL : forall L L', row_medians L n (slopes_at n (el x) (el y)) -> row_medians L' n (slopes_at n (el x') (el y')) -> L' = map (fslope p a b) L).
  { intros L L' (N1 & R1) (N2 & R2). eapply rows_map; [intros; apply fslope_mono; auto|intros k Hk; apply (slopes_at_affine _ _ _ _ n p q a b c Hp HX HY k Hk)|exact N1|exact N2|exact R1|exact R2]. }
  destruct (C61_medians SIZE s x y n Hi Ho Hn Lx Ly) as ((r & Ls & Li & E & R1 & R2 & A & B & _) & (t & Lt & F & T1 & TA & TB & _)); [exists i, j; auto|].
  destruct (C61_medians SIZE s2 x' y' n Hi2 Ho2 Hn Lx' Ly') as ((r' & Ls' & Li' & E' & R1' & R2' & A' & B' & _) & (t' & Lt' & F' & T1' & TA' & TB' & _)); [exists i, j; split; [auto|split; [auto|]]; rewrite !HX by auto; intros Q; apply D; nra|].
  split.
  - exists r, r'. split; [exact E|]. split; [exact E'|]. split.
    + rewrite (SL _ _ R1 R1') in A'. eapply kth_unique; [exact A'|]. apply (kth_map (fslope p a b)); [intros; apply fslope_mono; auto|exact A].
    + intros Q. assert (LI : Li' = map (fun v => a * v + c) Li).
      { destruct R2 as (N1 & R2), R2' as (N2 & R2'). eapply rows_map; [intros; split; intros; nra|intros k Hk; apply (icepts_at_affine _ _ _ _ n p q a b c Hp HX HY k Q Hk)|exact N1|exact N2|exact R2|exact R2']. }
      rewrite LI in B'. eapply kth_unique; [exact B'|]. apply (kth_map (fun v => a * v + c)); [intros; split; intros; nra|exact B].
  - exists t, t'. split; [exact F|]. split; [exact F'|].
    assert (S : ln_slope (rm_line t') = fslope p a b (ln_slope (rm_line t))).
    { rewrite (SL _ _ T1 T1') in TA'. eapply kth_unique; [exact TA'|]. apply (kth_map (fslope p a b)); [intros; apply fslope_mono; auto|exact TA]. }
    split; [exact S|]. rewrite S in *. rewrite (residuals_affine _ _ _ _ n p q a b c Hp HX HY) in TB'. eapply kth_unique; [exact TB'|].
    apply (kth_map (fun v => a * v + c - fslope p a b (ln_slope (rm_line t)) * q)); [intros; split; intros; nra|exact TB].
Qed.
Print Assumptions C86_repeated_median_affine.

(** C86: RepeatedMedianEstimator depends on where x = 0 is: moving three points one unit to the right changes
    the line it reports from x + 9 to x + 15, not x + 8 *)
Theorem C86_shift_refuted : exists x y r r',
  rm_compute Dn 3 (mkRmed [nan; nan] [nan; nan; nan] (line_new Dn)) x y 3 = Ok r /\
  rm_compute Dn 3 (mkRmed [nan; nan] [nan; nan; nan] (line_new Dn)) (map (fun v => v + 1)%float x) y 3 = Ok r' /\
  ln_slope (rm_line r) = 1%float /\ ln_yint (rm_line r) = 9%float /\ ln_slope (rm_line r') = 1%float /\ ln_yint (rm_line r') = 15%float.
Proof.
  exists [1; 3; 2]%float, [3; -2; -3]%float. eexists. eexists. split; [vm_compute; reflexivity|]. split; [vm_compute; reflexivity|]. repeat (split; [reflexivity|]). reflexivity.
Qed.
Print Assumptions C86_shift_refuted.

(** C86: a > 0 is needed: the median of an even number of values is the upper one, so turning the points upside
    down does not negate the slope *)
Theorem C86_flip_refuted : exists x y r r',
  ts_compute Dn 4 (mkTsen (repeat nan 6) (line_new Dn)) x y 4 = Ok r /\
  ts_compute Dn 4 (mkTsen (repeat nan 6) (line_new Dn)) x (map PrimFloat.opp y) 4 = Ok r' /\
  ln_slope (ts_line r) = 1%float /\ ln_slope (ts_line r') = 0.25%float.
Proof.
  exists [2; 1; -1; -2]%float, [2; 0; -2; 3]%float. eexists. eexists. split; [vm_compute; reflexivity|]. split; [vm_compute; reflexivity|]. split; reflexivity.
Qed.
Print Assumptions C86_flip_refuted.

Example C86_applies : spread (combine [0; 1; 2] [5; 7; 1]) /\ Permutation (combine [0; 1; 2] [5; 7; 1]) (combine [2; 0; 1] [1; 5; 7]) /\
  changed [0; 1; 2] [5; 7; 1] [3; 5; 7] [16; 23; 6] 3 2 3 3 1 1.
Proof.
  split; [exists (0, 5), (1, 7); cbn; split; [auto|split; [auto|lra]]|]. split; [cbn; apply (Permutation_app_comm [(0,5);(1,7)] [(2,1)])|].
  intros [|[|[|i]]] Hi; unfold el; cbn; [lra..|lia].
Qed.
