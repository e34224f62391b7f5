(* Convergence of the normalised LMS recursion under persistent excitation *)
From Coq Require Import Reals ZArith Lia Lra List Psatz.
From Coquelicot Require Import Complex.
From Verif Require Import Spec.Dft Spec.Fir Proofs.BaseLemmas Proofs.FftAlg Proofs.LmsProofs Proofs.FftL2.
Open Scope R_scope.

Lemma CS_R n f g : Rsumn n (fun i => f i * g i) <= nr n f * nr n g.
Proof.
  induction n as [|n IH]; [unfold nr; cbn [Rsumn]; rewrite sqrt_0; lra|]. rewrite !nr_S. cbn [Rsumn]. unfold Cmod. cbn [fst snd].
  rewrite <- sqrt_mult by (match goal with |- 0 <= ?a ^ 2 + ?b ^ 2 => pose proof (pow2_ge_0 a); pose proof (pow2_ge_0 b); lra end).
  pose proof (nr_nn n f). pose proof (nr_nn n g). set (a := nr n f) in *. set (b := nr n g) in *.
  apply Rle_trans with (a * b + f n * g n); [lra|].
  destruct (Rle_dec (a * b + f n * g n) 0) as [L|L]; [apply Rle_trans with 0; auto; apply sqrt_pos|].
  rewrite <- (sqrt_pow2 (a * b + f n * g n)) by lra. apply sqrt_le_1_alt. pose proof (pow2_ge_0 (a * g n - b * f n)). nra.
Qed.
Lemma Rsumn_le n f g : (forall i, (i < n)%nat -> f i <= g i) -> Rsumn n f <= Rsumn n g.
Proof. induction n as [|n IH]; intros H; cbn [Rsumn]; [lra|]. pose proof (H n ltac:(lia)). specialize (IH ltac:(intros; apply H; lia)). lra. Qed.
Lemma Csum_Cmod n (f : nat -> C) : Cmod (Csum n f) <= Rsumn n (fun i => Cmod (f i)).
Proof. induction n as [|n IH]; cbn [Csum Rsumn]; [rewrite Cmod_0; lra|]. eapply Rle_trans; [apply Cmod_triangle|]. lra. Qed.
Lemma CS_C n (f g : nat -> C) : Cmod (Csum n (fun i => f i * g i)%C) <= cn n f * cn n g.
Proof. eapply Rle_trans; [apply Csum_Cmod|]. eapply Rle_trans; [|apply CS_R]. apply Rsumn_le. intros i Hi. rewrite Cmod_mult. lra. Qed.
Lemma cn_plus n (f g : nat -> C) : cn n (fun i => f i + g i)%C <= cn n f + cn n g.
Proof. eapply Rle_trans; [|apply nr_plus]. apply nr_le'. intros i Hi. split; [apply Cmod_ge_0|apply Cmod_triangle]. Qed.
Lemma cn_zero n : cn n (fun _ => RtoC 0) = 0.
Proof. transitivity (sqrt 0); [|apply sqrt_0]. unfold nr. f_equal. induction n as [|n IH]; cbn [Rsumn]; auto. rewrite IH, Cmod_0. ring. Qed.
Lemma Cmod_conj (z : C) : Cmod (Cconj z) = Cmod z. Proof. unfold Cmod, Cconj. cbn [fst snd]. f_equal. ring. Qed.
Lemma cn_scal n (c : C) (f : nat -> C) : cn n (fun i => c * f i)%C = Cmod c * cn n f.
Proof. rewrite <- nr_scal by apply Cmod_ge_0. apply nr_ext. intros. apply Cmod_mult. Qed.
Lemma Rsumn_sq_sum L (a : nat -> R) : (Rsumn L a) ^ 2 <= INR L * Rsumn L (fun j => a j ^ 2).
Proof.
  assert (Q : Rabs (Rsumn L a) <= sqrt (INR L) * nr L a).
  { destruct (Rle_dec 0 (Rsumn L a)).
    - rewrite Rabs_pos_eq by auto. pose proof (CS_R L (fun _ => 1) a) as E. rewrite nr_const in E by lra. rewrite (Rsumn_ext L _ a) in E by (intros; ring). lra.
    - rewrite Rabs_left by lra. pose proof (CS_R L (fun _ => 1) (fun j => - a j)) as E. rewrite nr_const in E by lra. rewrite (Rsumn_ext L (fun i => 1 * - a i) (fun j => (-1) * a j)), Rsumn_scal in E by (intros; ring).
      assert (E2 : nr L (fun j => - a j) = nr L a) by (unfold nr; f_equal; apply Rsumn_ext; intros; ring). rewrite E2 in E. lra. }
  rewrite <- nr_sq. rewrite <- (sqrt_sqrt (INR L)) by apply pos_INR. pose proof (Rabs_pos (Rsumn L a)). rewrite <- Rsqr_pow2, Rsqr_abs, Rsqr_pow2. pose proof (sqrt_pos (INR L)). pose proof (nr_nn L a). nra.
Qed.

Section Nlms.
Context (n : nat) (w : nat -> nat -> C) (mu : nat -> R) (m : R).
Hypothesis Hn : (1 <= n)%nat.
Hypothesis Hm : 0 < m <= 1.
Hypothesis Hmu : forall t, m <= mu t <= 2 - m.
Definition pw t := Rsumn n (fun i => Cmod (w t i) ^ 2).
Definition ip t (v : nat -> C) : C := Csum n (fun i => v i * w t i)%C.
Definition corr t v := Cmod (ip t v) / cn n (w t).
Definition stepv t (v : nat -> C) (i : nat) : C := (v i - RtoC (mu t / pw t) * ip t v * Cconj (w t i))%C.

Lemma pw_sq t : cn n (w t) ^ 2 = pw t. Proof. apply nr_sq. Qed.
Lemma pw_0 t : cn n (w t) = 0 -> forall i, (i < n)%nat -> w t i = RtoC 0.
Proof. intros E i Hi. pose proof (nr_ge n (fun k => Cmod (w t k)) i Hi) as Q. rewrite E in Q. cbv beta in Q. rewrite Rabs_pos_eq in Q by apply Cmod_ge_0. apply Cmod_eq_0. pose proof (Cmod_ge_0 (w t i)). lra. Qed.
Lemma ip_0 t v : cn n (w t) = 0 -> ip t v = RtoC 0.
Proof. intros E. apply Cmod_eq_0. apply Rle_antisym; [|apply Cmod_ge_0]. eapply Rle_trans; [apply (CS_C n v (w t))|]. rewrite E. lra. Qed.
Lemma corr_nn t v : 0 <= corr t v.
Proof. unfold corr. destruct (Req_dec (cn n (w t)) 0) as [E|E]; [rewrite (ip_0 t v E), Cmod_0; lra|]. apply Rmult_le_pos; [apply Cmod_ge_0|]. apply Rlt_le, Rinv_0_lt_compat. pose proof (nr_nn n (fun k => Cmod (w t k))). lra. Qed.
Lemma ip_plus t u v : ip t (fun i => u i + v i)%C = (ip t u + ip t v)%C.
Proof. unfold ip. rewrite <- Csum_plus. apply Csum_ext. intros. ring. Qed.
Lemma corr_le t v : corr t v <= cn n v.
Proof.
  unfold corr. destruct (Req_dec (cn n (w t)) 0) as [E|E]; [rewrite (ip_0 t v E), Cmod_0; unfold Rdiv; rewrite Rmult_0_l; apply nr_nn|].
  pose proof (nr_nn n (fun k => Cmod (w t k))). apply Rmult_le_reg_r with (cn n (w t)); [lra|]. unfold Rdiv. rewrite Rmult_assoc, Rinv_l, Rmult_1_r by auto. apply (CS_C n v (w t)).
Qed.
Lemma corr_lip t u v : corr t (fun i => u i + v i)%C <= corr t u + cn n v.
Proof.
  apply Rle_trans with (corr t u + corr t v); [|pose proof (corr_le t v); lra]. unfold corr. rewrite ip_plus. destruct (Req_dec (cn n (w t)) 0) as [E|E].
  - rewrite !(ip_0 t _ E), Cplus_0_r, Cmod_0. lra.
  - pose proof (nr_nn n (fun k => Cmod (w t k))). unfold Rdiv. rewrite <- Rmult_plus_distr_r. apply Rmult_le_compat_r; [apply Rlt_le, Rinv_0_lt_compat; lra|apply Cmod_triangle].
Qed.
Lemma corr_sq t v : cn n (w t) <> 0 -> Cmod (ip t v) ^ 2 = corr t v ^ 2 * pw t.
Proof. intros E. unfold corr. rewrite <- pw_sq. field. auto. Qed.
Lemma stepv_same t v : cn n (w t) = 0 -> forall i, (i < n)%nat -> stepv t v i = v i.
Proof. intros E i Hi. unfold stepv. rewrite (ip_0 t v E). ring. Qed.
Lemma stepv_energy t v : cn n (stepv t v) ^ 2 = cn n v ^ 2 - mu t * (2 - mu t) * corr t v ^ 2.
Proof.
  destruct (Req_dec (cn n (w t)) 0) as [E|E].
  - rewrite (nr_ext n _ (fun k => Cmod (v k))) by (intros; now rewrite stepv_same). unfold corr. rewrite (ip_0 t v E), Cmod_0. unfold Rdiv. rewrite Rmult_0_l. ring.
  - rewrite !nr_sq. pose proof (nclms_distance n v (fun _ => RtoC 0) (w t) (mu t / pw t) (- ip t v)%C) as Q.
    rewrite (Rsumn_ext n _ (fun i => Cmod (stepv t v i) ^ 2)) in Q by (intros; do 2 f_equal; unfold stepv; ring).
    rewrite Q; [|unfold ip; rewrite (Csum_ext n (fun i => 0 * w t i)%C (fun _ => RtoC 0)), Csum_zero by (intros; ring); ring].
    rewrite (Rsumn_ext n (fun i => Cmod (v i - 0)%C ^ 2) (fun i => Cmod (v i) ^ 2)) by (intros; do 2 f_equal; ring). fold (pw t). rewrite Cmod_opp, corr_sq by auto.
    assert (pw t <> 0) by (rewrite <- pw_sq; apply pow_nonzero; auto). field. auto.
Qed.
Lemma mu2 t : m <= mu t * (2 - mu t) /\ 0 <= mu t <= 2. Proof. specialize (Hmu t). split; [nra|lra]. Qed.
Lemma stepv_nonexp t v : cn n (stepv t v) <= cn n v.
Proof.
  pose proof (stepv_energy t v) as E. destruct (mu2 t) as [M _]. pose proof (pow2_ge_0 (corr t v)).
  apply Rsqr_incr_0_var; [|apply nr_nn]. unfold Rsqr. nra.
Qed.
Lemma stepv_move t v : cn n (fun i => stepv t v i - v i)%C <= 2 * corr t v.
Proof.
  destruct (Req_dec (cn n (w t)) 0) as [E|E].
  - rewrite (nr_ext n _ (fun k => Cmod (RtoC 0))) by (intros; rewrite stepv_same by auto; f_equal; ring). rewrite (cn_zero n). pose proof (corr_nn t v). lra.
  - rewrite (nr_ext n _ (fun i => Cmod ((RtoC (mu t / pw t) * ip t v) * Cconj (w t i))%C)).
    2:{ intros i Hi. rewrite <- Cmod_opp. f_equal. unfold stepv. ring. }
    pose proof (cn_scal n (RtoC (mu t / pw t) * ip t v)%C (fun i => Cconj (w t i))) as Q. cbv beta in Q. rewrite Q. rewrite (nr_ext n (fun k => Cmod (Cconj (w t k))) (fun k => Cmod (w t k))) by (intros; apply Cmod_conj).
    rewrite Cmod_mult, Cmod_R. pose proof (nr_nn n (fun k => Cmod (w t k))) as N0. destruct (mu2 t) as [_ M].
    assert (P0 : 0 < pw t) by (rewrite <- pw_sq; nra). rewrite Rabs_pos_eq by (apply Rmult_le_pos; [lra|]; apply Rlt_le, Rinv_0_lt_compat; auto).
    replace (mu t / pw t * Cmod (ip t v) * cn n (w t)) with (mu t * corr t v).
    + apply Rmult_le_compat_r; [apply corr_nn|lra].
    + unfold corr. rewrite <- pw_sq. field. auto.
Qed.
Lemma stepv_lin t u v i : stepv t (fun k => u k + v k)%C i = (stepv t u i + stepv t v i)%C.
Proof. unfold stepv. rewrite ip_plus. ring. Qed.
Lemma stepv_ext t u v : (forall i, (i < n)%nat -> u i = v i) -> forall i, (i < n)%nat -> stepv t u i = stepv t v i.
Proof. intros H i Hi. unfold stepv. rewrite H by auto. replace (ip t u) with (ip t v); auto. unfold ip. apply Csum_ext. intros j Hj. rewrite H; auto. Qed.

Fixpoint runv t (v : nat -> C) (k : nat) : nat -> C := match k with O => v | S k => stepv (t + k) (runv t v k) end.
Lemma run_energy t v k : cn n (runv t v k) ^ 2 <= cn n v ^ 2 - m * Rsumn k (fun j => corr (t + j) (runv t v j) ^ 2).
Proof.
  induction k as [|k IH]; cbn [runv Rsumn]; [lra|]. rewrite stepv_energy. destruct (mu2 (t + k)) as [M _]. pose proof (pow2_ge_0 (corr (t + k) (runv t v k))). nra.
Qed.
Lemma run_move t v k : cn n (fun i => runv t v k i - v i)%C <= 2 * Rsumn k (fun j => corr (t + j) (runv t v j)).
Proof.
  induction k as [|k IH]; cbn [runv Rsumn].
  - rewrite (nr_ext n _ (fun k => Cmod (RtoC 0))) by (intros; f_equal; ring). rewrite (cn_zero n). lra.
  - apply Rle_trans with (cn n (fun i => stepv (t + k) (runv t v k) i - runv t v k i)%C + cn n (fun i => runv t v k i - v i)%C).
    + eapply Rle_trans; [|apply (cn_plus n (fun i => stepv (t + k) (runv t v k) i - runv t v k i)%C (fun i => runv t v k i - v i)%C)]. apply Req_le, nr_ext. intros. f_equal. ring.
    + pose proof (stepv_move (t + k) (runv t v k)). lra.
Qed.
Lemma Rsumn_mono k L f : (k <= L)%nat -> (forall j, 0 <= f j) -> Rsumn k f <= Rsumn L f.
Proof. intros H F. induction H; [lra|]. cbn [Rsumn]. pose proof (F m0). lra. Qed.
(** the block estimate *)
Lemma block t v L : Rsumn L (fun k => corr (t + k) v ^ 2) <= 4 * INR L ^ 2 * Rsumn L (fun j => corr (t + j) (runv t v j) ^ 2).
Proof.
  set (a := fun j => corr (t + j) (runv t v j)).
  assert (A0 : forall j, 0 <= a j) by (intros; apply corr_nn).
  assert (K : forall k, (k < L)%nat -> corr (t + k) v ^ 2 <= 4 * INR L * Rsumn L (fun j => a j ^ 2)).
  { intros k Hk. assert (Q : corr (t + k) v <= 2 * Rsumn L a).
    { apply Rle_trans with (a k + 2 * Rsumn k a).
      - pose proof (corr_lip (t + k) (runv t v k) (fun i => v i - runv t v k i)%C) as Q.
        assert (E : corr (t + k) (fun i => runv t v k i + (v i - runv t v k i))%C = corr (t + k) v). { unfold corr, ip. do 2 f_equal. apply Csum_ext. intros. ring. }
        cbv beta in Q. rewrite E in Q. pose proof (run_move t v k) as M. rewrite (nr_ext n _ (fun i => Cmod (runv t v k i - v i)%C)) in Q. 2:{ intros. rewrite <- Cmod_opp. f_equal. ring. }
        unfold a at 1. fold a in M. change (fun j => corr (t + j) (runv t v j)) with a in M. lra.
      - pose proof (Rsumn_mono (S k) L a ltac:(lia) A0) as M. cbn [Rsumn] in M. pose proof (A0 k). lra. }
    pose proof (Rsumn_sq_sum L a). pose proof (corr_nn (t + k) v). nra. }
  eapply Rle_trans; [apply Rsumn_le; exact K|]. rewrite (Rsumn_ext L _ (fun _ => (4 * INR L * Rsumn L (fun j => a j ^ 2)) * 1)) by (intros; ring). rewrite Rsumn_scal.
  assert (E1 : Rsumn L (fun _ => 1) = INR L) by (clear; induction L as [|L IH]; [reflexivity|]; rewrite S_INR; cbn [Rsumn]; lra). rewrite E1. apply Req_le. change (fun j => corr (t + j) (runv t v j) ^ 2) with (fun j => a j ^ 2). ring.
Qed.

Context (L : nat) (dl : R).
Hypothesis HL : (1 <= L)%nat.
Hypothesis Hdl : 0 < dl.
(** persistent excitation: no direction is missed during L samples *)
Hypothesis PE : forall t v, dl * cn n v ^ 2 <= Rsumn L (fun k => corr (t + k) v ^ 2).
Definition kap := m * dl / (8 * INR L ^ 2).
Lemma L1 : 1 <= INR L. Proof. apply (le_INR 1). auto. Qed.
Lemma kap_pos : 0 < kap.
Proof. unfold kap. pose proof L1. apply Rmult_lt_0_compat; [nra|]. apply Rinv_0_lt_compat. nra. Qed.
Lemma contract_sq t v : cn n (runv t v L) ^ 2 <= (1 - 2 * kap) * cn n v ^ 2.
Proof.
  pose proof (run_energy t v L) as E. pose proof (block t v L) as B. pose proof (PE t v) as Q. pose proof L1. set (y := Rsumn L (fun j => corr (t + j) (runv t v j) ^ 2)) in *.
  assert (dl * cn n v ^ 2 <= 4 * INR L ^ 2 * y) by lra.
  assert (K : 2 * kap * cn n v ^ 2 <= m * y).
  { unfold kap. replace (2 * (m * dl / (8 * INR L ^ 2)) * cn n v ^ 2) with (m * (dl * cn n v ^ 2) / (4 * INR L ^ 2)) by (field; lra). apply Rmult_le_reg_r with (4 * INR L ^ 2); [nra|]. unfold Rdiv. rewrite Rmult_assoc, Rinv_l, Rmult_1_r by nra. nra. }
  lra.
Qed.
Lemma kap_half : kap <= 1 / 2.
Proof.
  pose proof (contract_sq 0 (fun i => if (i =? 0)%nat then RtoC 1 else RtoC 0)) as Q.
  set (e := fun i => if (i =? 0)%nat then RtoC 1 else RtoC 0) in *.
  assert (1 <= cn n e). { pose proof (nr_ge n (fun k => Cmod (e k)) 0 Hn) as G. cbn in G. rewrite Cmod_1, Rabs_R1 in G. exact G. }
  pose proof (pow2_ge_0 (cn n (runv 0 e L))) as Z0. set (c := cn n e) in *. set (z := cn n (runv 0 e L) ^ 2) in *. clearbody c z. generalize dependent kap. intros k Q. destruct (Rle_dec k (1 / 2)); auto. exfalso. assert (1 <= c ^ 2) by nra. nra.
Qed.
Lemma contract t v : cn n (runv t v L) <= (1 - kap) * cn n v.
Proof.
  pose proof (contract_sq t v) as Q. pose proof kap_half. pose proof kap_pos. pose proof (nr_nn n (fun k => Cmod (v k))). pose proof (nr_nn n (fun k => Cmod (runv t v L k))).
  apply Rsqr_incr_0_var; [|apply Rmult_le_pos; lra]. unfold Rsqr. nra.
Qed.

(** with disturbances of norm at most be per step *)
Context (u : nat -> nat -> C) (be : R).
Hypothesis Hbe : 0 <= be.
Hypothesis Hu : forall t, cn n (fun i => u (S t) i - stepv t (u t) i)%C <= be.
Lemma noisy_step t : cn n (u (S t)) <= cn n (u t) + be.
Proof.
  eapply Rle_trans; [|apply Rplus_le_compat; [apply (stepv_nonexp t)|apply (Hu t)]].
  eapply Rle_trans; [|apply (cn_plus n (stepv t (u t)) (fun i => u (S t) i - stepv t (u t) i)%C)]. apply Req_le, nr_ext. intros. f_equal. ring.
Qed.
Lemma noisy_run t k : cn n (fun i => u (t + k)%nat i - runv t (u t) k i)%C <= INR k * be.
Proof.
  induction k as [|k IH].
  - rewrite (nr_ext n _ (fun k => Cmod (RtoC 0))) by (intros; rewrite Nat.add_0_r; cbn [runv]; f_equal; ring). rewrite (cn_zero n). cbn. lra.
  - rewrite S_INR, Nat.add_succ_r. cbn [runv].
    apply Rle_trans with (cn n (stepv (t + k) (fun i => u (t + k)%nat i - runv t (u t) k i)%C) + be).
    + eapply Rle_trans; [|apply Rplus_le_compat_l, (Hu (t + k))].
      eapply Rle_trans; [|apply (cn_plus n (stepv (t + k) (fun i => u (t + k)%nat i - runv t (u t) k i)%C) (fun i => u (S (t + k)) i - stepv (t + k) (u (t + k)%nat) i)%C)].
      apply Req_le, nr_ext. intros i Hi. f_equal.
      rewrite (stepv_ext (t + k) (u (t + k)%nat) (fun j => (u (t + k)%nat j - runv t (u t) k j) + runv t (u t) k j)%C) by (auto; intros; ring). rewrite stepv_lin. ring.
    + pose proof (stepv_nonexp (t + k) (fun i => u (t + k)%nat i - runv t (u t) k i)%C) as Q. lra.
Qed.
Lemma noisy_block t : cn n (u (t + L)%nat) <= (1 - kap) * cn n (u t) + INR L * be.
Proof.
  eapply Rle_trans; [|apply Rplus_le_compat; [apply (contract t (u t))|apply (noisy_run t L)]].
  eapply Rle_trans; [|apply (cn_plus n (runv t (u t) L) (fun i => u (t + L)%nat i - runv t (u t) L i)%C)]. apply Req_le, nr_ext. intros. f_equal. ring.
Qed.
Lemma noisy_tail t i : cn n (u (t + i)%nat) <= cn n (u t) + INR i * be.
Proof. induction i as [|i IH]; [rewrite Nat.add_0_r; cbn; lra|]. rewrite Nat.add_succ_r, S_INR. pose proof (noisy_step (t + i)). lra. Qed.
Lemma noisy_all t : cn n (u t) <= (1 - kap) ^ (t / L) * cn n (u 0%nat) + INR L * be / kap + INR L * be.
Proof.
  pose proof kap_pos as K0. pose proof kap_half as K1. pose proof L1.
  assert (J : forall j, cn n (u (L * j)%nat) <= (1 - kap) ^ j * cn n (u 0%nat) + INR L * be / kap).
  { induction j as [|j IH]; [rewrite Nat.mul_0_r; cbn [pow]; assert (0 <= INR L * be / kap) by (apply Rmult_le_pos; [nra|]; apply Rlt_le, Rinv_0_lt_compat; auto); lra|].
    rewrite Nat.mul_succ_r. eapply Rle_trans; [apply noisy_block|]. cbn [pow].
    assert (Q : (1 - kap) * cn n (u (L * j)%nat) <= (1 - kap) * ((1 - kap) ^ j * cn n (u 0%nat) + INR L * be / kap)) by (apply Rmult_le_compat_l; lra).
    replace ((1 - kap) * (1 - kap) ^ j * cn n (u 0%nat) + INR L * be / kap) with ((1 - kap) * ((1 - kap) ^ j * cn n (u 0%nat) + INR L * be / kap) + INR L * be) by (field; lra). lra. }
  pose proof (noisy_tail (L * (t / L)) (t mod L)) as Q. rewrite <- Nat.div_mod in Q by lia. eapply Rle_trans; [exact Q|]. specialize (J (t / L)%nat).
  assert (INR (t mod L) * be <= INR L * be) by (apply Rmult_le_compat_r; auto; apply le_INR; pose proof (Nat.mod_upper_bound t L); lia). lra.
Qed.
End Nlms.
