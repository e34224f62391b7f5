(* Property C89: the LMS filters converge *)
From Coq Require Import Reals ZArith Lia Lra List Psatz.
From Coquelicot Require Import Coquelicot.
From Verif Require Import Model.Lms Spec.Dft Spec.Fir Spec.Norm Proofs.BaseLemmas Proofs.ContainerProofs Proofs.FftAlg Proofs.CdcProofs Proofs.LmsProofs Proofs.FftL2 Proofs.LmsConv Props.PLms.
Import ListNotations.
Open Scope R_scope.

(** persistent excitation: over any L consecutive samples, every direction v is seen by the (normalised) windows with
    energy at least dl.  A window of zeros contributes 0/0, which is 0 in Coq's reals. *)
Definition excites_R (n : nat) (x : nat -> R) (L : nat) (dl : R) : Prop := forall (t : nat) (v : nat -> R),
  dl * Rsumn n (fun i => v i ^ 2) <= Rsumn L (fun k => (Rsumn n (fun i => v i * rwin n x (t + k) i)) ^ 2 / Rsumn n (fun i => rwin n x (t + k) i ^ 2)).
Definition excites_C (n : nat) (x : nat -> C) (L : nat) (dl : R) : Prop := forall (t : nat) (v : nat -> C),
  dl * Rsumn n (fun i => Cmod (v i) ^ 2) <= Rsumn L (fun k => Cmod (Csum n (fun i => v i * cwin n x (t + k) i)%C) ^ 2 / Rsumn n (fun i => Cmod (cwin n x (t + k) i) ^ 2)).
(** distance of two filters *)
Definition dist_R (n : nat) (f : list R) (g : nat -> R) : R := sqrt (Rsumn n (fun i => (nth i f 0 - g i) ^ 2)).
Definition dist_C (n : nat) (f : list C) (g : nat -> C) : R := l2 n (fun i => nth i f (RtoC 0) - g i)%C.

Lemma corr_sq_C n (w : nat -> nat -> C) t v : corr n w t v ^ 2 = Cmod (ip n w t v) ^ 2 / pw n w t.
Proof.
  unfold corr. unfold Rdiv. rewrite Rpow_mult_distr, <- (pw_sq n w t). destruct (Req_dec (cn n (w t)) 0) as [E|E]; [rewrite E, pow_i by lia; rewrite Rinv_0; ring|]. rewrite pow_inv. reflexivity.
Qed.
(** the recursion of the error of the filter, with the disturbance the noise causes *)
Lemma noise_step n (f f' g w : nat -> C) (mu be : R) (nz e : C) : let P := Rsumn n (fun i => Cmod (w i) ^ 2) in
  0 <= be -> 0 <= mu -> e = (Csum n (fun i => g i * w i) + nz - Csum n (fun i => f i * w i))%C -> (P <> 0 -> mu * Cmod nz <= be * sqrt P) ->
  (P = 0 -> forall i, (i < n)%nat -> f' i = f i) -> (P <> 0 -> forall i, (i < n)%nat -> f' i = (f i + RtoC (mu / P) * e * Cconj (w i))%C) ->
  cn n (fun i => (f' i - g i) - stepv n (fun _ => w) (fun _ => mu) 0 (fun j => f j - g j) i)%C <= be.
Proof.
  intros P Hbe Hmu He Hnz H0 H1. assert (EP : sqrt P = cn n w) by reflexivity. assert (Psq : cn n w ^ 2 = P) by apply nr_sq.
  assert (Eip : ip n (fun _ => w) 0 (fun j => f j - g j)%C = (nz - e)%C).
  { unfold ip. rewrite (Csum_ext n _ (fun i => f i * w i - g i * w i)%C), Csum_minus by (intros; ring). rewrite He. ring. }
  destruct (Req_dec P 0) as [Z|Z].
  - rewrite (nr_ext n _ (fun k => Cmod (RtoC 0))). { rewrite (cn_zero n). auto. }
    intros i Hi. f_equal. rewrite H0 by auto. rewrite (stepv_same n (fun _ => w) (fun _ => mu) 0) by (auto; rewrite Z in Psq; apply Rsqr_0_uniq; unfold Rsqr; lra). ring.
  - rewrite (nr_ext n _ (fun k => Cmod ((RtoC (mu / P) * nz) * Cconj (w k))%C)).
    2:{ intros i Hi. f_equal. rewrite (H1 Z i Hi). unfold stepv. rewrite Eip. change (pw n (fun _ => w) 0) with P. ring. }
    pose proof (cn_scal n (RtoC (mu / P) * nz)%C (fun i => Cconj (w i))) as Q. cbv beta in Q. rewrite Q. rewrite (nr_ext n (fun k => Cmod (Cconj (w k))) (fun k => Cmod (w k))) by (intros; apply Cmod_conj).
    rewrite Cmod_mult, Cmod_R. assert (P0 : 0 < P). { pose proof (pow2_ge_0 (cn n w)). lra. }
    rewrite Rabs_pos_eq by (apply Rmult_le_pos; auto; apply Rlt_le, Rinv_0_lt_compat; auto). specialize (Hnz Z). rewrite EP in Hnz.
    set (h := cn n w) in *. assert (h0 : 0 < h). { assert (0 <= h) by apply nr_nn. destruct (Req_dec h 0) as [E|]; [rewrite E in Psq; lra|lra]. }
    rewrite <- Psq. replace (mu / h ^ 2 * Cmod nz * h) with (mu * Cmod nz / h) by (field; lra). apply Rmult_le_reg_r with h; auto. unfold Rdiv. rewrite Rmult_assoc, Rinv_l, Rmult_1_r by lra. auto.
Qed.

(** C89: the desired signal is the unknown filter g applied to the input, plus noise that is small relative to the
    power in the window.  With persistent excitation and step sizes away from 0 and 2 the coefficients approach g
    geometrically, down to a floor proportional to the noise.  Without noise (be = 0) they converge to g. *)
Theorem C89_nclms_converges (n L : nat) (x d g nz : nat -> C) (mu : nat -> R) (m dl be : R) :
  let kappa := m * dl / (8 * INR L ^ 2) in
  (1 <= n)%nat -> (1 <= L)%nat -> 0 < dl -> 0 < m <= 1 -> 0 <= be -> (forall t, m <= mu t <= 2 - m) -> excites_C n x L dl ->
  (forall t, d t = (Csum n (fun i => g i * cwin n x t i) + nz t)%C) ->
  (forall t, let P := Rsumn n (fun i => Cmod (cwin n x t i) ^ 2) in P <> 0 -> mu t * Cmod (nz t) <= be * sqrt P) ->
  0 < kappa <= 1 / 2 /\ forall t, exists s, ostate_at (nclms_step Rn (Z.of_nat n)) (Ok (nclms_new Rn (Z.of_nat n))) (fun k => (x k, d k, mu k)) t = Ok s /\
    dist_C n (lm_filter s) g <= (1 - kappa) ^ (t / L) * l2 n g + INR L * be / kappa + INR L * be.
Proof.
  intros kappa Hn HL Hdl Hm Hbe Hmu PE Hd Hnz.
  set (w := cwin n x).
  assert (PE' : forall t v, dl * cn n v ^ 2 <= Rsumn L (fun k => corr n w (t + k) v ^ 2)).
  { intros t v. rewrite nr_sq. eapply Rle_trans; [apply (PE t v)|]. apply Req_le, Rsumn_ext. intros k Hk. rewrite corr_sq_C. reflexivity. }
  split; [split; [apply kap_pos; auto|apply (kap_half n w mu m); auto]|].
  set (st := fun t => match ostate_at (nclms_step Rn (Z.of_nat n)) (Ok (nclms_new Rn (Z.of_nat n))) (fun k => (x k, d k, mu k)) t with Ok s => s | _ => nclms_new Rn (Z.of_nat n) end).
  set (u := fun t i => (nth i (lm_filter (st t)) (RtoC 0) - g i)%C).
  assert (Es : forall t, ostate_at (nclms_step Rn (Z.of_nat n)) (Ok (nclms_new Rn (Z.of_nat n))) (fun k => (x k, d k, mu k)) t = Ok (st t)). { intros t. destruct (nclms_states n x d mu t Hn) as (s & E & _). unfold st. rewrite E. auto. }
  assert (Hu : forall t, cn n (fun i => u (S t) i - stepv n w mu t (u t) i)%C <= be).
  { intros t. destruct (nclms_states n x d mu t Hn) as (s & E & Ls & I). destruct (nclms_call n x d mu t s Hn Ls I) as (s' & E' & L' & I' & H0 & H1).
    assert (S1 : st t = s) by (unfold st; rewrite E; auto). assert (S2 : st (S t) = s') by (unfold st; cbn [ostate_at]; rewrite E; cbn [bind]; rewrite E'; auto).
    unfold u. rewrite S1, S2. apply (noise_step n (fun i => nth i (lm_filter s) (RtoC 0)) (fun i => nth i (lm_filter s') (RtoC 0)) g (w t) (mu t) be (nz t) (d t - Csum n (fun i => nth i (lm_filter s) (RtoC 0) * w t i))%C); auto.
    - specialize (Hmu t). lra.
    - rewrite Hd. reflexivity.
    - intros Z i Hi. rewrite (H0 Z). auto. }
  intros t. exists (st t). split; [auto|].
  pose proof (noisy_all n w mu m Hn Hm Hmu L dl HL Hdl PE' u be Hbe Hu t) as Q.
  assert (Eg : cn n (u 0%nat) = l2 n g). { apply nr_ext. intros i Hi. unfold u, st, nclms_new. cbn [ostate_at lm_filter]. rewrite nth_repeat. cbn [n0 Rn]. change (cofr Rn 0) with (RtoC 0). rewrite <- Cmod_opp. f_equal. ring. }
  rewrite Eg in Q. exact Q.
Qed.
Print Assumptions C89_nclms_converges.

Lemma Csum_split n (v : nat -> C) (w : nat -> R) : Csum n (fun i => v i * RtoC (w i))%C = (Rsumn n (fun i => fst (v i) * w i), Rsumn n (fun i => snd (v i) * w i)).
Proof. induction n as [|n IH]; [reflexivity|]. cbn [Csum Rsumn]. rewrite IH. unfold Cplus, Cmult, RtoC. cbn [fst snd]. f_equal; ring. Qed.
Lemma Csum_real n (v w : nat -> R) : Csum n (fun i => RtoC (v i) * RtoC (w i))%C = RtoC (Rsumn n (fun i => v i * w i)).
Proof. induction n as [|n IH]; [reflexivity|]. cbn [Csum Rsumn]. rewrite IH, RtoC_plus, RtoC_mult. reflexivity. Qed.
Lemma Cmod2 (z : C) : Cmod z ^ 2 = fst z ^ 2 + snd z ^ 2.
Proof. unfold Cmod. rewrite pow2_sqrt; [reflexivity|]. pose proof (pow2_ge_0 (fst z)). pose proof (pow2_ge_0 (snd z)). lra. Qed.
Lemma Rabs_sq y : Rabs y ^ 2 = y ^ 2. Proof. rewrite <- !Rsqr_pow2. symmetry. apply Rsqr_abs. Qed.

Theorem C89_nlms_converges (n L : nat) (x d g nz : nat -> R) (mu : nat -> R) (m dl be : R) :
  let kappa := m * dl / (8 * INR L ^ 2) in
  (1 <= n)%nat -> (1 <= L)%nat -> 0 < dl -> 0 < m <= 1 -> 0 <= be -> (forall t, m <= mu t <= 2 - m) -> excites_R n x L dl ->
  (forall t, d t = Rsumn n (fun i => g i * rwin n x t i) + nz t) ->
  (forall t, let P := Rsumn n (fun i => rwin n x t i ^ 2) in P <> 0 -> mu t * Rabs (nz t) <= be * sqrt P) ->
  0 < kappa <= 1 / 2 /\ forall t, exists s, ostate_at (nlms_step Rn (Z.of_nat n)) (Ok (nlms_new Rn (Z.of_nat n))) (fun k => (x k, d k, mu k)) t = Ok s /\
    dist_R n (lm_filter s) g <= (1 - kappa) ^ (t / L) * sqrt (Rsumn n (fun i => g i ^ 2)) + INR L * be / kappa + INR L * be.
Proof.
  intros kappa Hn HL Hdl Hm Hbe Hmu PE Hd Hnz.
  set (w := fun t i => RtoC (rwin n x t i)).
  assert (Ew : forall t, Rsumn n (fun i => Cmod (w t i) ^ 2) = Rsumn n (fun i => rwin n x t i ^ 2)) by (intros; apply Rsumn_ext; intros; unfold w; rewrite Cmod_R, Rabs_sq; auto).
  assert (PE' : forall t v, dl * cn n v ^ 2 <= Rsumn L (fun k => corr n w (t + k) v ^ 2)).
  { intros t v. rewrite nr_sq. rewrite (Rsumn_ext n _ (fun i => fst (v i) ^ 2 + snd (v i) ^ 2)) by (intros; apply Cmod2). rewrite Rsumn_plus.
    pose proof (PE t (fun i => fst (v i))) as P1. pose proof (PE t (fun i => snd (v i))) as P2. cbv beta in P1, P2. rewrite Rmult_plus_distr_l.
    eapply Rle_trans; [apply Rplus_le_compat; [exact P1|exact P2]|]. rewrite <- Rsumn_plus. apply Req_le, Rsumn_ext. intros k Hk. rewrite corr_sq_C. unfold ip, w at 1. rewrite Csum_split, Cmod2. cbn [fst snd]. unfold pw. rewrite Ew. unfold Rdiv. ring. }
  split; [split; [apply kap_pos; auto|apply (kap_half n w mu m); auto]|].
  set (st := fun t => match ostate_at (nlms_step Rn (Z.of_nat n)) (Ok (nlms_new Rn (Z.of_nat n))) (fun k => (x k, d k, mu k)) t with Ok s => s | _ => nlms_new Rn (Z.of_nat n) end).
  set (u := fun t i => (RtoC (nth i (lm_filter (st t)) 0) - RtoC (g i))%C).
  assert (Es : forall t, ostate_at (nlms_step Rn (Z.of_nat n)) (Ok (nlms_new Rn (Z.of_nat n))) (fun k => (x k, d k, mu k)) t = Ok (st t)). { intros t. destruct (nlms_states n x d mu t Hn) as (s & E & _). unfold st. rewrite E. auto. }
  assert (Hu : forall t, cn n (fun i => u (S t) i - stepv n w mu t (u t) i)%C <= be).
  { intros t. destruct (nlms_states n x d mu t Hn) as (s & E & Ls & I). destruct (nlms_call n x d mu t s Hn Ls I) as (s' & E' & L' & I' & H0 & H1).
    assert (S1 : st t = s) by (unfold st; rewrite E; auto). assert (S2 : st (S t) = s') by (unfold st; cbn [ostate_at]; rewrite E; cbn [bind]; rewrite E'; auto).
    assert (EP : Rsumn n (fun i => rwin n x t i ^ 2) = Rsumn n (fun i => rwin n x t i * rwin n x t i)) by (apply Rsumn_ext; intros; ring).
    unfold u. rewrite S1, S2. apply (noise_step n (fun i => RtoC (nth i (lm_filter s) 0)) (fun i => RtoC (nth i (lm_filter s') 0)) (fun i => RtoC (g i)) (w t) (mu t) be (RtoC (nz t)) (RtoC (d t - Rsumn n (fun i => nth i (lm_filter s) 0 * rwin n x t i)))); auto.
    - specialize (Hmu t). lra.
    - unfold w. rewrite !Csum_real. rewrite Hd, RtoC_minus, RtoC_plus. reflexivity.
    - rewrite Ew. intros Z. rewrite Cmod_R. apply Hnz. exact Z.
    - rewrite Ew, EP. intros Z i Hi. rewrite (H0 Z). auto.
    - rewrite Ew, EP. intros Z i Hi. rewrite (H1 Z i Hi). rewrite RtoC_plus, !RtoC_mult. change (wat 0 (Z.of_nat n) x t (Z.of_nat i)) with (rwin n x t i). unfold w, Cconj, RtoC. cbn [fst snd]. rewrite Ropp_0. reflexivity. }
  assert (Ec : forall f : list R, cn n (fun i => RtoC (nth i f 0) - RtoC (g i))%C = dist_R n f g). { intros f. unfold dist_R, nr. f_equal. apply Rsumn_ext. intros. rewrite <- RtoC_minus, Cmod_R, Rabs_sq. auto. }
  intros t. exists (st t). split; [auto|].
  pose proof (noisy_all n w mu m Hn Hm Hmu L dl HL Hdl PE' u be Hbe Hu t) as Q.
  assert (Eg : cn n (u 0%nat) = sqrt (Rsumn n (fun i => g i ^ 2))). { unfold u. rewrite Ec. unfold dist_R. f_equal. apply Rsumn_ext. intros i Hi. unfold st, nlms_new. cbn [ostate_at lm_filter]. rewrite nth_repeat. cbn [n0 Rn]. ring. }
  rewrite Eg in Q. unfold u in Q. rewrite Ec in Q. exact Q.
Qed.
Print Assumptions C89_nlms_converges.

(** C89: even without persistent excitation the errors die out: without noise and with window power at most Pmax, the
    sum of all squared errors is at most Pmax |g|^2 / m *)
Theorem C89_error_energy (n : nat) (x d mu g : nat -> R) (m Pmax : R) : (1 <= n)%nat -> 0 < m <= 1 -> (forall t, m <= mu t <= 2 - m) ->
  (forall t, d t = Rsumn n (fun i => g i * rwin n x t i)) -> (forall t, Rsumn n (fun i => rwin n x t i ^ 2) <= Pmax) ->
  exists e, (forall t, oout (nlms_step Rn (Z.of_nat n)) (Ok (nlms_new Rn (Z.of_nat n))) (fun k => (x k, d k, mu k)) t = Ok (e t)) /\
    forall t, Rsumn t (fun k => e k ^ 2) <= Pmax / m * Rsumn n (fun i => g i ^ 2).
Proof.
  intros Hn Hm Hmu Hd HP. destruct (C67_history n x d mu g Hn ltac:(intros t; specialize (Hmu t); lra) Hd) as (e & O & H). exists e. split; auto.
  intros t. destruct (H t) as (s & E & Q).
  set (P := fun k => Rsumn n (fun i => rwin n x k i * rwin n x k i)) in *.
  assert (EP : forall k, P k = Rsumn n (fun i => rwin n x k i ^ 2)) by (intros; apply Rsumn_ext; intros; ring).
  assert (P0 : forall k, 0 <= P k) by (intros k; rewrite EP; apply Rsumn_nonneg; intros; apply pow2_ge_0).
  assert (D0 : 0 <= Rsumn n (fun i => (nth i (lm_filter s) 0 - g i) ^ 2)) by (apply Rsumn_nonneg; intros; apply pow2_ge_0).
  assert (T1 : forall k, m / Pmax * e k ^ 2 <= mu k * (2 - mu k) * (e k ^ 2 / P k) \/ e k = 0).
  { intros k. destruct (Req_dec (P k) 0) as [Z|Z].
    - right. destruct (C67_call n x d mu k Hn) as (s1 & s2 & E1 & _ & _ & _ & O1 & _). rewrite O in O1. injection O1 as ->. rewrite Hd.
      assert (W : forall i, (i < n)%nat -> rwin n x k i = 0). { intros i Hi. rewrite EP in Z. pose proof (LmsProofs.Rsumn_zero n _ ltac:(intros; apply pow2_ge_0) Z i Hi) as W. cbv beta in W. apply Rsqr_0_uniq. unfold Rsqr. lra. }
      rewrite (Rsumn_ext n (fun i => g i * rwin n x k i) (fun i => nth i (lm_filter s1) 0 * rwin n x k i)) by (intros; rewrite W by auto; ring). ring.
    - left. specialize (P0 k). specialize (HP k). rewrite <- EP in HP. specialize (Hmu k). unfold Rdiv.
      assert (/ Pmax <= / P k) by (apply Rinv_le_contravar; lra). assert (0 < / Pmax) by (apply Rinv_0_lt_compat; lra). assert (m <= mu k * (2 - mu k)) by nra. pose proof (pow2_ge_0 (e k)).
      assert (m * / Pmax <= mu k * (2 - mu k) * / P k) by (apply Rmult_le_compat; lra). nra. }
  assert (PP : 0 <= Pmax) by (eapply Rle_trans; [apply (P0 0%nat)|]; rewrite EP; apply HP).
  assert (T2 : m / Pmax * Rsumn t (fun k => e k ^ 2) <= Rsumn n (fun i => g i ^ 2) \/ Rsumn t (fun k => e k ^ 2) = 0).
  { destruct (Req_dec Pmax 0) as [Z|Z].
    - right. assert (Ez : forall k, e k = 0). { intros k. destruct (T1 k) as [_|]; auto. destruct (C67_call n x d mu k Hn) as (s1 & s2 & E1 & _ & _ & _ & O1 & _). rewrite O in O1. injection O1 as ->. rewrite Hd.
        assert (Zk : Rsumn n (fun i => rwin n x k i ^ 2) = 0). { apply Rle_antisym; [rewrite <- Z; apply HP|]. rewrite <- EP. auto. }
        rewrite (Rsumn_ext n (fun i => g i * rwin n x k i) (fun i => nth i (lm_filter s1) 0 * rwin n x k i)); [ring|]. intros i Hi. pose proof (LmsProofs.Rsumn_zero n _ ltac:(intros; apply pow2_ge_0) Zk i Hi) as W. cbv beta in W. assert (rwin n x k i = 0) by (apply Rsqr_0_uniq; unfold Rsqr; lra). rewrite H0. ring. }
      rewrite (Rsumn_ext t _ (fun _ => 0 * 0)) by (intros; rewrite Ez; ring). rewrite Rsumn_scal. ring.
    - left. rewrite <- Q. rewrite <- Rsumn_scal. apply Rle_trans with (Rsumn t (fun k => mu k * (2 - mu k) * (e k ^ 2 / P k))); [|unfold P; lra].
      apply LmsConv.Rsumn_le. intros k _. destruct (T1 k) as [T|T]; auto. rewrite T. unfold Rdiv. rewrite !pow_i, Rmult_0_l by lia. lra. }
  assert (G0 : 0 <= Rsumn n (fun i => g i ^ 2)) by (apply Rsumn_nonneg; intros; apply pow2_ge_0).
  destruct T2 as [T2|T2].
  - destruct (Req_dec Pmax 0) as [Z|Z].
    + destruct (Req_dec (Rsumn t (fun k => e k ^ 2)) 0) as [ZZ|ZZ]; [rewrite ZZ; apply Rmult_le_pos; auto; apply Rmult_le_pos; auto; apply Rlt_le, Rinv_0_lt_compat; lra|].
      exfalso. apply ZZ. rewrite (Rsumn_ext t _ (fun _ => 0 * 0)); [rewrite Rsumn_scal; ring|]. intros k _.
      destruct (C67_call n x d mu k Hn) as (s1 & s2 & E1 & _ & _ & _ & O1 & _). rewrite O in O1. injection O1 as ->. rewrite Hd.
      assert (Zk : Rsumn n (fun i => rwin n x k i ^ 2) = 0). { apply Rle_antisym; [rewrite <- Z; apply HP|]. rewrite <- EP. auto. }
      rewrite (Rsumn_ext n (fun i => g i * rwin n x k i) (fun i => nth i (lm_filter s1) 0 * rwin n x k i)); [ring|]. intros i Hi. pose proof (LmsProofs.Rsumn_zero n _ ltac:(intros; apply pow2_ge_0) Zk i Hi) as W. cbv beta in W. assert (W0 : rwin n x k i = 0) by (apply Rsqr_0_uniq; unfold Rsqr; lra). rewrite W0. ring.
    + assert (0 < Pmax) by lra. apply Rmult_le_reg_l with (m / Pmax); [apply Rmult_lt_0_compat; [lra|apply Rinv_0_lt_compat; auto]|]. replace (m / Pmax * (Pmax / m * Rsumn n (fun i => g i ^ 2))) with (Rsumn n (fun i => g i ^ 2)) by (field; lra). auto.
  - rewrite T2. apply Rmult_le_pos; auto. apply Rmult_le_pos; auto. apply Rlt_le, Rinv_0_lt_compat. lra.
Qed.
Print Assumptions C89_error_energy.

(** C89: without persistent excitation the coefficients need not converge to g: with a constant input and g = (1, 0)
    the two coefficients stay equal for ever, whatever the step sizes *)
Theorem C89_unexcited_refuted (mu : nat -> R) (t : nat) :
  exists s, ostate_at (nlms_step Rn 2) (Ok (nlms_new Rn 2)) (fun k => (1, if (k =? 0)%nat then 0 else 1, mu k)) t = Ok s /\ nth 0 (lm_filter s) 0 = nth 1 (lm_filter s) 0 /\ 1 / 2 <= Rsumn 2 (fun i => (nth i (lm_filter s) 0 - (if (i =? 0)%nat then 1 else 0)) ^ 2).
Proof.
  set (d := fun k : nat => if (k =? 0)%nat then 0 else 1).
  assert (H : forall t, exists s, ostate_at (nlms_step Rn 2) (Ok (nlms_new Rn 2)) (fun k => (1, d k, mu k)) t = Ok s /\ length (lm_filter s) = 2%nat /\ bip_inv 2 0 (map (fun _ => 1) (seq 0 t)) (lm_history s) /\ nth 0 (lm_filter s) 0 = nth 1 (lm_filter s) 0 /\ (t = O -> nth 1 (lm_filter s) 0 = 0)).
  { clear t. intros t. induction t as [|t (s & E & L & I & F & F0)].
    - destruct (nlms_states 2 (fun _ => 1) d mu 0 ltac:(lia)) as (s & E & L & I). exists s. cbn [ostate_at] in E. injection E as <-. split; [reflexivity|]. split; [exact L|]. split; [exact I|]. split; reflexivity.
    - destruct (nlms_call 2 (fun _ => 1) d mu t s ltac:(lia) L I) as (s' & E' & L' & I' & H0 & H1). exists s'. cbn [ostate_at]. rewrite E. cbn [bind].
      change (Z.of_nat 2) with 2%Z in E', I'. rewrite E'. split; [reflexivity|]. split; [auto|]. split; [auto|]. split; [|discriminate].
      destruct (Req_dec (Rsumn 2 (fun i => wat 0 (Z.of_nat 2) (fun _ => 1) t (Z.of_nat i) * wat 0 (Z.of_nat 2) (fun _ => 1) t (Z.of_nat i))) 0) as [Z|Z]; [rewrite (H0 Z); auto|].
      rewrite (H1 Z 0%nat ltac:(lia)), (H1 Z 1%nat ltac:(lia)). rewrite F. f_equal. destruct t as [|t].
      + cbn [Rsumn]. rewrite (F0 eq_refl), F, (F0 eq_refl). unfold d. cbn [Nat.eqb]. ring.
      + f_equal. change (rwin 2 (fun _ => 1) (S t) 0 = rwin 2 (fun _ => 1) (S t) 1). unfold rwin. destruct (Z.ltb_spec (Z.of_nat (S t) - (Z.of_nat 2 - 1) + Z.of_nat 0) 0); [lia|]. destruct (Z.ltb_spec (Z.of_nat (S t) - (Z.of_nat 2 - 1) + Z.of_nat 1) 0); [lia|]. auto. }
  destruct (H t) as (s & E & _ & _ & F & _). exists s. split; [exact E|]. split; [exact F|]. cbn [Rsumn Nat.eqb]. rewrite F. pose proof (pow2_ge_0 (2 * nth 1 (lm_filter s) 0 - 1)). nra.
Qed.
Print Assumptions C89_unexcited_refuted.
(** C89: mu = 2 is too much: the distance to g stays what it was at the start *)
Theorem C89_mu_two_refuted (n : nat) (x d g : nat -> R) : (1 <= n)%nat -> (forall t, d t = Rsumn n (fun i => g i * rwin n x t i)) ->
  forall t, exists s, ostate_at (nlms_step Rn (Z.of_nat n)) (Ok (nlms_new Rn (Z.of_nat n))) (fun k => (x k, d k, 2)) t = Ok s /\ Rsumn n (fun i => (nth i (lm_filter s) 0 - g i) ^ 2) = Rsumn n (fun i => g i ^ 2).
Proof.
  intros Hn Hd t. destruct (C67_history n x d (fun _ => 2) g Hn ltac:(intros; lra) Hd) as (e & _ & H). destruct (H t) as (s & E & Q). exists s. split; auto. rewrite <- Q.
  rewrite (Rsumn_ext t _ (fun _ => 0 * 0)) by (intros; ring). rewrite Rsumn_scal. ring.
Qed.
Print Assumptions C89_mu_two_refuted.

(** two coefficients, the input 1 0 1 0 ... *)
Example C89_example : excites_R 2 (fun t => if Nat.even t then 1 else 0) 2 1.
Proof.
  intros t v. set (x := fun t => if Nat.even t then 1 else 0).
  assert (W : forall t, rwin 2 x t 0 = (if Nat.even t then 0 else 1) /\ rwin 2 x t 1 = (if Nat.even t then 1 else 0)).
  { clear t. intros t. unfold rwin. split.
    - destruct (Z.ltb_spec (Z.of_nat t - (Z.of_nat 2 - 1) + Z.of_nat 0) 0) as [H|H]; [replace t with 0%nat by lia; reflexivity|]. destruct t as [|t]; [lia|]. replace (Z.to_nat _) with t by lia. unfold x. rewrite Nat.even_succ, <- Nat.negb_even. destruct (Nat.even t); reflexivity.
    - destruct (Z.ltb_spec (Z.of_nat t - (Z.of_nat 2 - 1) + Z.of_nat 1) 0) as [H|H]; [lia|]. replace (Z.to_nat _) with t by lia. reflexivity. }
  cbn [Rsumn]. destruct (W (t + 0)%nat) as [A B]. destruct (W (t + 1)%nat) as [A' B']. rewrite A, B, A', B'. rewrite Nat.add_0_r, Nat.add_1_r, Nat.even_succ, <- Nat.negb_even. destruct (Nat.even t); cbn [negb]; apply Req_le; field.
Qed.
