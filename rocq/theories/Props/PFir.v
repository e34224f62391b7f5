(* Theorems about the FIR prototypes (filter.hh) and coefficient tables (coeffs.hh) *)
From Coq Require Import Reals ZArith Lia Lra List.
From Flocq Require Import Core.
From Interval Require Import Tactic.
From Verif Require Import Proofs.BaseLemmas Model.WinFun Model.FirFun Model.Coeffs Spec.ExactConst Proofs.ConstProofs Proofs.FirProofs Proofs.UnitCircleProofs.
Import ListNotations.
Open Scope R_scope.

(** C57  LowPass2(num, den) is LowPass(num/den) and HighPass2(num, den) is HighPass(num/den), with exact constants and
    trigonometry; UnitCircle is only asked inside its domain (the results are [Ok]).  The hypotheses say that 2 num,
    16 den, and num times the distance from the middle are ints. *)
Theorem C57_ratio (num den n N : Z) : num <> 0%Z -> (1 <= den)%Z -> (16 * den <= INT_MAX)%Z -> (2 * Z.abs num <= INT_MAX)%Z ->
  (Z.abs num * Z.abs (2 * n - (N - 1)) <= INT_MAX)%Z -> (0 <= n < N)%Z -> (2 * N <= INT_MAX)%Z ->
  (exists v, lowpass2 Rc exact_ptrig num den n N = Ok v /\ lowpass Rc sin (IZR num / IZR den) n N = Ok v) /\
  (exists v, highpass2 Rc exact_ptrig num den n N = Ok v /\ highpass Rc sin (IZR num / IZR den) n N = Ok v).
Proof.
  intros. assert (F : fdom n N) by (split; auto). assert (R : rdom num den n N) by (repeat split; auto).
  split; eexists; [rewrite lowpass2_eq, lowpass_eq by auto|rewrite highpass2_eq, highpass_eq by auto]; split; reflexivity.
Qed.
Print Assumptions C57_ratio.
(** C57  the ideal low-pass response: 2 c sinc(2 c x), x the distance from the middle *)
Theorem C57_formula (c : R) (n N : Z) : (0 <= n < N)%Z -> (2 * N <= INT_MAX)%Z ->
  let x := IZR n - IZR (N - 1) / 2 in
  lowpass Rc sin c n N = Ok (2 * c * rsinc (2 * c * x)) /\ highpass Rc sin c n N = Ok (rsinc x - 2 * c * rsinc (2 * c * x)).
Proof. intros. split; [apply lowpass_eq|apply highpass_eq]; split; auto. Qed.
Print Assumptions C57_formula.
(** C57  With the library's own UnitCircle and constants LowPass2 is within 2e-17 of the exact response. *)
Theorem C57_unit_circle (num den n N : Z) : num <> 0%Z -> (1 <= den)%Z -> (16 * den <= INT_MAX)%Z -> (2 * Z.abs num <= INT_MAX)%Z ->
  (Z.abs num * Z.abs (2 * n - (N - 1)) <= INT_MAX)%Z -> (0 <= n < N)%Z -> (2 * N <= INT_MAX)%Z ->
  exists v w, lowpass2 Rn (uc_ptrig Rn) num den n N = Ok v /\ lowpass Rc sin (IZR num / IZR den) n N = Ok w /\ Rabs (v - w) <= 2e-17.
Proof.
  intros R1 R2 R3 R4 R5 F1 F2. assert (F : fdom n N) by (split; auto). assert (R : rdom num den n N) by (repeat split; auto).
  rewrite <- (proj1 (conj (eq_trans (lowpass2_eq num den n N F R) (eq_sym (lowpass_eq _ n N F))) I)).
  unfold lowpass2. assert (Fa : forall M, (forall a b, ndiv M a b = a / b) -> (forall z, nofZ M z = IZR z) -> fir_fac M num den = Ok (2 * (IZR num / IZR den))).
  { intros M D Z. unfold fir_fac, INT_MAX in *. rewrite ichk_ok by (unfold INT_MIN, INT_MAX; lia). cbn [bind]. rewrite D, !Z, mult_IZR. f_equal. unfold Rdiv. ring. }
  rewrite (Fa Rn), (Fa Rc) by reflexivity. rewrite fir_twox_eq by auto. cbn [bind]. set (tw := (2 * n - (N - 1))%Z) in *.
  destruct (Z.eqb_spec tw 0) as [Z|Z]; [do 2 eexists; split; [reflexivity|split; [reflexivity|]]; rewrite Rminus_diag_eq, Rabs_R0 by auto; lra|].
  unfold fir_sin, INT_MAX in *. assert (Ha : (Z.abs (tw * num) <= 2147483647)%Z) by (rewrite Z.abs_mul, Z.mul_comm; auto).
  rewrite !ichk_ok by (unfold INT_MIN, INT_MAX; lia). cbn [bind]. unfold irem. rewrite (proj2 (Z.eqb_neq (2 * den) 0)) by lia. cbn [bind].
  pose proof (rem_abs (tw * num) (2 * den) ltac:(lia)) as Re. rewrite psin_ok by (unfold INT_MAX; lia).
  destruct (uc_acc (Z.rem (tw * num) (2 * den)) (2 * den)) as (_ & s & _ & Es & _ & A); try (unfold INT_MAX; lia).
  cbn [psin uc_ptrig]. rewrite Es. cbn [bind]. do 2 eexists. split; [reflexivity|]. split; [reflexivity|]. rewrite halfpi_rc. cbn [nmul ndiv nofZ Rn Rc].
  set (e := sin _) in *. assert (Be : Rabs e <= 1) by (unfold e; apply Rabs_le; apply SIN_bound).
  assert (Nf : 2 * (IZR num / IZR den) <> 0).
  { apply Rmult_integral_contrapositive; split; [lra|apply Rmult_integral_contrapositive; split; [apply not_0_IZR; auto|apply Rinv_neq_0_compat, not_0_IZR; lia]]. }
  set (f := 2 * (IZR num / IZR den)) in *. assert (Nt : IZR tw <> 0) by (apply not_0_IZR; auto).
  assert (Bt : 1 <= Rabs (IZR tw)) by (rewrite <- abs_IZR; apply IZR_le; lia).
  assert (Hp : Rabs (/ HalfPi Rn - / (PI / 2)) <= 1e-60 /\ 0 < / HalfPi Rn <= 0.64) by (unfold HalfPi, HalfPi_lit; cbn [nlit Rn]; split; [interval with (i_prec 300)|split; interval]).
  destruct Hp as [Hp1 Hp2]. assert (Nh : HalfPi Rn <> 0) by (intros E; rewrite E, Rinv_0 in Hp2; lra). pose proof PI_RGT_0 as PP.
  replace (f * s / (HalfPi Rn * f * IZR tw) - f * e / (PI / 2 * f * IZR tw)) with (((s - e) * / HalfPi Rn + e * (/ HalfPi Rn - / (PI / 2))) * / IZR tw) by (field; repeat split; auto; lra).
  rewrite Rabs_mult, Rabs_inv. assert (It : 0 < / Rabs (IZR tw) <= 1) by (split; [apply Rinv_0_lt_compat; lra|rewrite <- Rinv_1; apply Rinv_le_contravar; lra]).
  assert (B : Rabs ((s - e) * / HalfPi Rn + e * (/ HalfPi Rn - / (PI / 2))) <= 2e-17).
  { eapply Rle_trans; [apply Rabs_triang|]. rewrite !Rabs_mult, (Rabs_pos_eq (/ HalfPi Rn)) by lra.
    assert (Rabs (s - e) * / HalfPi Rn <= 3e-17 * 0.64) by (apply Rmult_le_compat; try apply Rabs_pos; lra).
    assert (Rabs e * Rabs (/ HalfPi Rn - / (PI / 2)) <= 1 * 1e-60) by (apply Rmult_le_compat; try apply Rabs_pos; lra). lra. }
  pose proof (Rabs_pos ((s - e) * / HalfPi Rn + e * (/ HalfPi Rn - / (PI / 2)))). apply Rle_trans with (2e-17 * 1); [apply Rmult_le_compat; lra|lra].
Qed.
Print Assumptions C57_unit_circle.
Example C57_applies : (Z.abs 1 * Z.abs (2 * 3 - (65 - 1)) <= INT_MAX)%Z /\ (16 * 4 <= INT_MAX)%Z. Proof. unfold INT_MAX. lia. Qed.

(** C58  The prototypes are symmetric about (N-1)/2 for all cutoffs (linear phase) ... *)
Theorem C58_symmetric (c0 c1 : R) (n N : Z) : (0 <= n < N)%Z -> (2 * N <= INT_MAX)%Z ->
  exists l h b, lowpass Rc sin c0 n N = Ok l /\ lowpass Rc sin c0 (N - 1 - n) N = Ok l /\
  highpass Rc sin c0 n N = Ok h /\ highpass Rc sin c0 (N - 1 - n) N = Ok h /\
  bandpass Rc sin c0 c1 n N = Ok b /\ bandpass Rc sin c0 c1 (N - 1 - n) N = Ok b.
Proof.
  intros H1 H2. assert (F : fdom n N) by (split; auto). assert (G : fdom (N - 1 - n) N) by (split; auto; lia). do 3 eexists.
  rewrite !lowpass_eq, !highpass_eq, !bandpass_eq by auto. rewrite fx_sym, !(Rmult_comm _ (- fx n N)), !Ropp_mult_distr_l_reverse, !rsinc_opp, !(Rmult_comm (fx n N)).
  repeat split; reflexivity.
Qed.
Print Assumptions C58_symmetric.
Theorem C58_symmetric2 (num den n N : Z) : num <> 0%Z -> (1 <= den)%Z -> (16 * den <= INT_MAX)%Z -> (2 * Z.abs num <= INT_MAX)%Z ->
  (Z.abs num * Z.abs (2 * n - (N - 1)) <= INT_MAX)%Z -> (0 <= n < N)%Z -> (2 * N <= INT_MAX)%Z ->
  exists l h, lowpass2 Rc exact_ptrig num den n N = Ok l /\ lowpass2 Rc exact_ptrig num den (N - 1 - n) N = Ok l /\
  highpass2 Rc exact_ptrig num den n N = Ok h /\ highpass2 Rc exact_ptrig num den (N - 1 - n) N = Ok h.
Proof.
  intros R1 R2 R3 R4 R5 H1 H2. destruct (C57_ratio num den n N) as [(l & L1 & L2) (h & G1 & G2)]; auto.
  assert (R5' : (Z.abs num * Z.abs (2 * (N - 1 - n) - (N - 1)) <= INT_MAX)%Z) by (replace (2 * (N - 1 - n) - (N - 1))%Z with (- (2 * n - (N - 1)))%Z by ring; rewrite Z.abs_opp; auto).
  destruct (C57_ratio num den (N - 1 - n) N) as [(l' & L1' & L2') (h' & G1' & G2')]; auto; [lia|].
  destruct (C58_symmetric (IZR num / IZR den) 0 n N H1 H2) as (l0 & h0 & b & A1 & A2 & A3 & A4 & _).
  exists l, h. rewrite L1, L1', G1, G1'. rewrite L2 in A1. rewrite L2' in A2. rewrite G2 in A3. rewrite G2' in A4. injection A1 as ->. injection A2 as ->. injection A3 as ->. injection A4 as ->. auto.
Qed.
Print Assumptions C58_symmetric2.
(** ... HilbertTransform is antisymmetric, for odd and even N. *)
Theorem C58_hilbert (n N : Z) : (0 <= n < N)%Z -> (2 * N <= INT_MAX)%Z ->
  exists v, hilbert_transform Rc n N = Ok v /\ hilbert_transform Rc (N - 1 - n) N = Ok (- v).
Proof.
  intros H1 H2. unfold hilbert_transform. pose proof PI_RGT_0. unfold INT_MAX in *. destruct (Z.odd N) eqn:O.
  - rewrite ichk_ok by (unfold INT_MIN, INT_MAX; lia). cbn [bind]. rewrite Z.odd_spec in O. destruct O as [k ->].
    replace (Z.quot (2 * k + 1 - 1) 2) with k by (rewrite Z.quot_div_nonneg by lia; replace (2 * k + 1 - 1)%Z with (k * 2)%Z by ring; rewrite Z.div_mul; lia).
    rewrite !ichk_ok by (unfold INT_MIN, INT_MAX; lia). cbn [bind]. replace (2 * k + 1 - 1 - n - k)%Z with (- (n - k))%Z by ring. rewrite Z.odd_opp.
    eexists. split; [reflexivity|]. destruct (Z.odd (n - k)) eqn:E; f_equal; [|cbn; ring]. rewrite pi_rc. cbn [ndiv nmul nofZ Rc]. rewrite opp_IZR. field.
    split; [|lra]. apply not_0_IZR. intros Z. rewrite Z in E. discriminate.
  - assert (F : fdom n N) by (split; unfold INT_MAX; auto). assert (G : fdom (N - 1 - n) N) by (split; unfold INT_MAX; lia). rewrite !fir_x_eq by auto. cbn [bind]. rewrite pi_rc, fx_sym.
    eexists. split; [reflexivity|]. cbn [ndiv nmul n1 Rc]. f_equal. field. split; [|lra]. rewrite fx_twox. unfold Rdiv. apply Rmult_integral_contrapositive. split; [|lra].
    apply not_0_IZR. intros E. rewrite <- Z.negb_even in O. apply negb_false_iff in O. apply Z.even_spec in O. destruct O as [k ->]. lia.
Qed.
Print Assumptions C58_hilbert.
(** C58  Complementarity *)
Theorem C58_complementary (c0 c1 : R) (n N : Z) : (0 <= n < N)%Z -> (2 * N <= INT_MAX)%Z ->
  exists l0 l1, lowpass Rc sin c0 n N = Ok l0 /\ lowpass Rc sin c1 n N = Ok l1 /\ bandpass Rc sin c0 c1 n N = Ok (l1 - l0) /\
  (Z.odd N = true -> highpass Rc sin c0 n N = Ok ((if (2 * n =? N - 1)%Z then 1 else 0) - l0)).
Proof.
  intros H1 H2. assert (F : fdom n N) by (split; auto). do 2 eexists. rewrite !lowpass_eq, bandpass_eq, highpass_eq by auto. split; [reflexivity|]. split; [reflexivity|]. split; [reflexivity|].
  intros O. do 2 f_equal. rewrite Z.odd_spec in O. destruct O as [k ->]. unfold fx. replace (2 * k + 1 - 1)%Z with (2 * k)%Z by ring.
  replace (IZR n - IZR (2 * k) / 2) with (IZR (n - k)) by (rewrite mult_IZR, minus_IZR; field). destruct (Z.eqb_spec (2 * n) (2 * k)) as [E|E].
  - replace (n - k)%Z with 0%Z by lia. apply rsinc_0.
  - apply rsinc_int. lia.
Qed.
Print Assumptions C58_complementary.
Example C58_hilbert_example : hilbert_transform Rc 1 5 = Ok (2 / (PI * -1)) /\ hilbert_transform Rc 0 5 = Ok 0.
Proof. unfold hilbert_transform. rewrite pi_rc. split; reflexivity. Qed.

(** C55  The table holds the function values (or products), reading outside gives zero. *)
Lemma fill_spec {T} (f : Z -> Z -> outcome T) TAPS : forall k n w, coeffs_fill f TAPS k n = Ok w ->
  length w = k /\ forall i, (i < k)%nat -> exists v, nth_error w i = Some v /\ f (n + Z.of_nat i)%Z TAPS = Ok v.
Proof.
  induction k as [|k IH]; intros n w H.
  - injection H as <-. split; [reflexivity|]. intros i Hi. lia.
  - cbn [coeffs_fill] in H. destruct (f n TAPS) as [v| | |] eqn:E; try discriminate. cbn [bind] in H.
    destruct (coeffs_fill f TAPS k (n + 1)) as [r| | |] eqn:Er; try discriminate. injection H as <-. destruct (IH _ _ Er) as [L Q].
    split; [cbn; lia|]. intros [|i] Hi; [exists v; split; auto; rewrite Z.add_0_r; auto|]. destruct (Q i ltac:(lia)) as (u & U1 & U2). exists u. split; auto. rewrite <- U2. f_equal. lia.
Qed.
Theorem C55_table {T : Type} (M : num T) (TAPS : nat) (f : Z -> Z -> outcome T) (w : list T) (n : Z) : coeffs_new M false TAPS f = Ok w ->
  (~ (0 <= n < Z.of_nat TAPS)%Z -> coeffs_at M w n = Ok (n0 M)) /\ ((0 <= n < Z.of_nat TAPS)%Z -> coeffs_at M w n = f n (Z.of_nat TAPS)).
Proof.
  unfold coeffs_new. intros H. destruct (coeffs_fill f (Z.of_nat TAPS) TAPS 0) as [r| | |] eqn:E; try discriminate. injection H as <-. destruct (fill_spec _ _ _ _ _ E) as [L Q].
  unfold coeffs_at, zlen. rewrite L. split; intros H.
  - destruct (Z.leb_spec 0 n), (Z.ltb_spec n (Z.of_nat TAPS)); cbn [andb]; auto; lia.
  - rewrite (proj2 (Z.leb_le 0 n)), (proj2 (Z.ltb_lt n (Z.of_nat TAPS))) by lia. cbn [andb]. unfold get, znth. rewrite (proj2 (Z.ltb_ge n 0)) by lia.
    destruct (Q (Z.to_nat n) ltac:(lia)) as (v & V1 & V2). rewrite V1, <- V2. f_equal. lia.
Qed.
Print Assumptions C55_table.
Theorem C55_product {T : Type} (M : num T) (TAPS : nat) (f g : Z -> Z -> outcome T) (w : list T) (n : Z) : coeffs_new2 M false TAPS f g = Ok w -> (0 <= n < Z.of_nat TAPS)%Z ->
  exists a b, f n (Z.of_nat TAPS) = Ok a /\ g n (Z.of_nat TAPS) = Ok b /\ coeffs_at M w n = Ok (nmul M a b).
Proof.
  unfold coeffs_new2. intros H Hn. destruct (C55_table _ _ _ _ n H) as [_ Q]. specialize (Q Hn). rewrite Q.
  unfold coeffs_new in H. destruct (coeffs_fill _ (Z.of_nat TAPS) TAPS 0) as [r| | |] eqn:E; try discriminate. destruct (fill_spec _ _ _ _ _ E) as [_ F].
  destruct (F (Z.to_nat n) ltac:(lia)) as (v & _ & V). replace (0 + Z.of_nat (Z.to_nat n))%Z with n in V by lia.
  destruct (f n (Z.of_nat TAPS)) as [a| | |]; try discriminate. cbn [bind] in *. destruct (g n (Z.of_nat TAPS)) as [b| | |]; try discriminate. cbn [bind] in *. exists a, b. auto.
Qed.
Print Assumptions C55_product.
(** C55  normalize(d) makes the absolute value of the sum 1/|d| and keeps all ratios. *)
Lemma fold_sum_div : forall (w : list R) (k a : R), fold_left Rplus (map (fun v => v / k) w) (a / k) = fold_left Rplus w a / k.
Proof.
  induction w as [|v w IH]; intros k a; [reflexivity|]. cbn. rewrite <- IH. f_equal. unfold Rdiv. ring.
Qed.
Theorem C55_normalize (w : list R) (d : R) : let sum l := fold_left Rplus l 0 in d <> 0 -> sum w <> 0 ->
  let w' := coeffs_normalize Rn w d in
  Rabs (sum w') = 1 / Rabs d /\ length w' = length w /\ (forall i j, nth i w' 0 * nth j w 0 = nth j w' 0 * nth i w 0) /\ (0 < sum w -> sum w' = 1 / d).
Proof.
  intros sum D S w'. unfold w', coeffs_normalize. cbn [ndiv nmul nabs nadd n0 Rn]. fold (sum w). set (s := sum w) in *.
  assert (E : sum (map (fun v => v / (d * Rabs s)) w) = s / (d * Rabs s)).
  { change s with (fold_left Rplus w 0) at 2. rewrite <- (fold_sum_div w (d * Rabs s) 0). unfold sum. f_equal. unfold Rdiv. ring. }
  assert (A : Rabs s <> 0) by (apply Rabs_no_R0; auto). split; [|split; [apply map_length|split]].
  - rewrite E. unfold Rdiv. rewrite Rabs_mult, Rabs_inv, Rabs_mult, Rabs_Rabsolu. field. split; auto. apply Rabs_no_R0; auto.
  - intros i j. assert (Q : forall k, nth k (map (fun v => v / (d * Rabs s)) w) 0 = nth k w 0 / (d * Rabs s)).
    { intros k. rewrite <- (map_nth (fun v => v / (d * Rabs s)) w 0 k). f_equal. unfold Rdiv. ring. }
    rewrite !Q. unfold Rdiv. ring.
  - intros P. rewrite E. rewrite Rabs_pos_eq by lra. field. split; auto.
Qed.
Print Assumptions C55_normalize.
(** C55  NORMALIZE = true applies normalize() after tabulating. *)
Theorem C55_constructor (TAPS : nat) (f : Z -> Z -> outcome R) (w : list R) : coeffs_new Rn false TAPS f = Ok w -> fold_left Rplus w 0 > 0 ->
  exists w', coeffs_new Rn true TAPS f = Ok w' /\ fold_left Rplus w' 0 = 1.
Proof.
  unfold coeffs_new. intros H P. destruct (coeffs_fill f (Z.of_nat TAPS) TAPS 0) as [r| | |]; try discriminate. cbn [bind] in *. injection H as ->. eexists. split; [reflexivity|].
  destruct (C55_normalize w 1) as (_ & _ & _ & E); try lra. cbv zeta in E. change (n1 Rn) with 1. rewrite E by lra. field.
Qed.
Print Assumptions C55_constructor.
Example C55_example : coeffs_normalize Rn [1; 3; 4] 1 = [1 / (1 * Rabs (0 + 1 + 3 + 4)); 3 / (1 * Rabs (0 + 1 + 3 + 4)); 4 / (1 * Rabs (0 + 1 + 3 + 4))]. Proof. reflexivity. Qed.
