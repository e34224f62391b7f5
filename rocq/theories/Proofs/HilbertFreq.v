(* Frequency response of the Hilbert transformer (hilbert.hh) and its relation to the Fs/4 down-converter (cdc.hh) *)
From Coq Require Import Reals ZArith Lia Lra List.
From Flocq Require Import Core.
From Coquelicot Require Import Coquelicot.
From Verif Require Import Model.Cdc Spec.Dft Spec.Fir Spec.ExactConst Proofs.BaseLemmas Proofs.ConstProofs Proofs.FftAlg Proofs.WinProofs Proofs.FirProofs Proofs.CdcProofs Props.PWinFun.
Import ListNotations.
Open Scope R_scope.

Lemma Rsumn_ext n f g : (forall j, (j < n)%nat -> f j = g j) -> Rsumn n f = Rsumn n g.
Proof. induction n as [|n IH]; intros H; cbn; auto. rewrite IH, H by (intros; auto with arith). reflexivity. Qed.
Lemma Rsumn_plus n f g : Rsumn n (fun j => f j + g j) = Rsumn n f + Rsumn n g.
Proof. induction n as [|n IH]; cbn; [ring|]. rewrite IH. ring. Qed.
Lemma Rsumn_scal n k f : Rsumn n (fun j => k * f j) = k * Rsumn n f.
Proof. induction n as [|n IH]; cbn; [ring|]. rewrite IH. ring. Qed.
Lemma Rsumn_head n f : Rsumn (S n) f = f 0%nat + Rsumn n (fun j => f (S j)).
Proof. induction n as [|n IH]; [cbn; ring|]. change (Rsumn (S (S n)) f) with (Rsumn (S n) f + f (S n)). rewrite IH. cbn. ring. Qed.
Lemma Rsumn_rev n : forall f, Rsumn n f = Rsumn n (fun j => f (n - 1 - j)%nat).
Proof.
  induction n as [|n IH]; intros f; auto. rewrite Rsumn_head. cbn [Rsumn]. rewrite (IH (fun j => f (S j))). rewrite Rplus_comm. f_equal.
  - apply Rsumn_ext. intros j Hj. f_equal. lia.
  - f_equal. lia.
Qed.
Lemma Rsumn_even n : forall f, Rsumn (2 * n) f = Rsumn n (fun j => f (2 * j)%nat + f (2 * j + 1)%nat).
Proof. induction n as [|n IH]; intros f; [reflexivity|]. replace (2 * S n)%nat with (S (S (2 * n))) by lia. cbn [Rsumn]. rewrite IH. replace (2 * n + 1)%nat with (S (2 * n)) by lia. ring. Qed.

(** kernels antisymmetric about the middle *)
Definition antisym (K : nat) (h : Z -> R) : Prop := forall d, (0 <= d <= 2 * Z.of_nat K)%Z -> h (2 * Z.of_nat K - d)%Z = - h (2 * Z.of_nat K + d)%Z.
Lemma antisym_all K h : antisym K h -> forall d, (- (2 * Z.of_nat K) <= d <= 2 * Z.of_nat K)%Z -> h (2 * Z.of_nat K - d)%Z = - h (2 * Z.of_nat K + d)%Z.
Proof. intros H d Hd. destruct (Z_le_gt_dec 0 d); [apply H; lia|]. pose proof (H (- d)%Z ltac:(lia)) as E. replace (2 * Z.of_nat K - - d)%Z with (2 * Z.of_nat K + d)%Z in E by lia. replace (2 * Z.of_nat K + - d)%Z with (2 * Z.of_nat K - d)%Z in E by lia. lra. Qed.
Definition amp (K : nat) (h : Z -> R) (w : R) : R := Rsumn (4 * K + 1) (fun j => h (Z.of_nat j) * sin (w * IZR (Z.of_nat j - 2 * Z.of_nat K))).
Lemma antisym_even K h (f : Z -> R) : antisym K h -> (forall d, f (- d)%Z = f d) -> Rsumn (4 * K + 1) (fun j => h (Z.of_nat j) * f (Z.of_nat j - 2 * Z.of_nat K)%Z) = 0.
Proof.
  intros H Hf. set (s := Rsumn _ _). assert (s = - s); [|lra]. unfold s at 1. rewrite Rsumn_rev. rewrite <- (Rmult_1_l s), Ropp_mult_distr_l. unfold s. rewrite <- Rsumn_scal. apply Rsumn_ext. intros j Hj.
  replace (Z.of_nat (4 * K + 1 - 1 - j)) with (2 * Z.of_nat K - (Z.of_nat j - 2 * Z.of_nat K))%Z by lia. rewrite (antisym_all K h H) by lia.
  replace (2 * Z.of_nat K + (Z.of_nat j - 2 * Z.of_nat K))%Z with (Z.of_nat j) by lia.
  replace (2 * Z.of_nat K - (Z.of_nat j - 2 * Z.of_nat K) - 2 * Z.of_nat K)%Z with (- (Z.of_nat j - 2 * Z.of_nat K))%Z by lia. rewrite Hf. ring.
Qed.
Lemma quad K h (x : Z -> R) w p m : antisym K h -> (forall j, (j < 4 * K + 1)%nat -> x (m - Z.of_nat j)%Z = cos (w * IZR (m - Z.of_nat j) + p)) ->
  rfir (4 * Z.of_nat K + 1) h x m = amp K h w * sin (w * IZR (m - 2 * Z.of_nat K) + p).
Proof.
  intros H Hx. unfold rfir. replace (Z.to_nat (4 * Z.of_nat K + 1)) with (4 * K + 1)%nat by lia. set (q := w * IZR (m - 2 * Z.of_nat K) + p).
  rewrite (Rsumn_ext _ _ (fun j => cos q * (h (Z.of_nat j) * cos (w * IZR (Z.of_nat j - 2 * Z.of_nat K))) + sin q * (h (Z.of_nat j) * sin (w * IZR (Z.of_nat j - 2 * Z.of_nat K))))).
  - rewrite Rsumn_plus, !Rsumn_scal. rewrite (antisym_even K h (fun d => cos (w * IZR d)) H).
    + unfold amp. ring.
    + intros d. rewrite opp_IZR. replace (w * - IZR d) with (- (w * IZR d)) by ring. apply cos_neg.
  - intros j Hj. rewrite Hx by auto. replace (w * IZR (m - Z.of_nat j) + p) with (q - w * IZR (Z.of_nat j - 2 * Z.of_nat K)) by (unfold q; rewrite !minus_IZR; ring). rewrite cos_minus. ring.
Qed.
(** only odd distances, in pairs *)
Lemma Rsumn_app n m f : Rsumn (n + m) f = Rsumn n f + Rsumn m (fun j => f (n + j)%nat).
Proof. induction m as [|m IH]; [rewrite Nat.add_0_r; cbn; ring|]. rewrite Nat.add_succ_r. cbn [Rsumn]. rewrite IH. ring. Qed.
Lemma amp_odd K h w : antisym K h -> (forall d, (0 <= d <= 4 * Z.of_nat K)%Z -> Z.even d = true -> h d = 0) ->
  amp K h w = 2 * Rsumn K (fun i => h (2 * Z.of_nat K + (2 * Z.of_nat i + 1))%Z * sin (w * IZR (2 * Z.of_nat i + 1))).
Proof.
  intros H E. unfold amp. set (g := fun d : Z => h (2 * Z.of_nat K + d)%Z * sin (w * IZR d)).
  assert (Hg : forall d, (0 <= d <= 2 * Z.of_nat K)%Z -> g (- d)%Z = g d). { intros d Hd. unfold g. rewrite Z.add_opp_r, H by auto. rewrite opp_IZR, <- Ropp_mult_distr_r, sin_neg. ring. }
  rewrite (Rsumn_ext _ _ (fun j => g (Z.of_nat j - 2 * Z.of_nat K)%Z)).
  2: { intros j Hj. unfold g. do 2 f_equal. lia. }
  replace (4 * K + 1)%nat with (2 * K + (1 + 2 * K))%nat by lia. rewrite Rsumn_app, Rsumn_app. cbn [Rsumn]. rewrite Rsumn_rev.
  set (P := Rsumn K _).
  assert (G0 : g (Z.of_nat (2 * K + 0) - 2 * Z.of_nat K)%Z = 0). { replace (Z.of_nat (2 * K + 0) - 2 * Z.of_nat K)%Z with 0%Z by lia. unfold g. rewrite Rmult_0_r, sin_0. ring. }
  assert (L : forall f, (forall j, (j < 2 * K)%nat -> f j = g (Z.of_nat j + 1)%Z) -> Rsumn (2 * K) f = P).
  { intros f Hf. rewrite Rsumn_even. unfold P. apply Rsumn_ext. intros i Hi. rewrite !Hf by lia. unfold g at 2. rewrite E.
    - unfold g. rewrite Rmult_0_l, Rplus_0_r. replace (Z.of_nat (2 * i) + 1)%Z with (2 * Z.of_nat i + 1)%Z by lia. reflexivity.
    - lia.
    - replace (2 * Z.of_nat K + (Z.of_nat (2 * i + 1) + 1))%Z with (2 * (Z.of_nat K + Z.of_nat i + 1))%Z by lia. rewrite Z.even_mul. reflexivity. }
  rewrite (L (fun j => g (Z.of_nat (2 * K - 1 - j) - 2 * Z.of_nat K)%Z)), (L (fun j => g (Z.of_nat (2 * K + (1 + j)) - 2 * Z.of_nat K)%Z)), G0; [ring| |].
  - intros j Hj. f_equal. lia.
  - intros j Hj. rewrite <- (Hg (Z.of_nat j + 1)%Z) by lia. f_equal. lia.
Qed.

(** i^d at odd and even distances *)
Lemma half_pi_odd k : cos (PI / 2 * IZR (2 * k + 1)) = 0.
Proof. apply cos_eq_0_1. exists k. rewrite plus_IZR, mult_IZR. field. Qed.
Lemma half_pi_even k : sin (PI / 2 * IZR (2 * k)) = 0.
Proof. rewrite mult_IZR. replace (PI / 2 * (2 * IZR k)) with (IZR k * PI) by field. apply sin_eq_0_1. exists k. reflexivity. Qed.
Definition hk (d : Z) : R := if Z.odd d then 2 / (PI * IZR d) else 0.
Definition lk (d : Z) : R := 2 * (1 / 4) * rsinc (2 * (1 / 4) * IZR d).
Lemma lk_cis d : (RtoC (lk d) * cis (PI / 2 * IZR d) = RtoC (/ 2) * (RtoC (if (d =? 0)%Z then 1 else 0) + Ci * RtoC (hk d)))%C.
Proof.
  unfold lk, hk, rsinc. destruct (Z.eqb_spec d 0) as [->|Nd].
  - rewrite Rmult_0_r, Req_bool_true by reflexivity. cbn [Z.odd]. rewrite Rmult_0_r, cis_0. unfold RtoC, Ci, Cmult, Cplus. cbn. f_equal; field.
  - assert (Nd' : IZR d <> 0) by (apply not_0_IZR; auto). rewrite Req_bool_false by lra. pose proof PI_RGT_0 as PP. destruct (Z.odd d) eqn:O.
    + apply Z.odd_spec in O. destruct O as [k Ek]. unfold cis. pose proof (half_pi_odd k) as C0. rewrite <- Ek in C0. rewrite C0.
      replace (PI * (2 * (1 / 4) * IZR d)) with (PI / 2 * IZR d) by field. pose proof (sin2_cos2 (PI / 2 * IZR d)) as S2. rewrite C0 in S2. unfold Rsqr in S2.
      set (s := sin (PI / 2 * IZR d)) in *. assert (S : s * s = 1) by lra. unfold RtoC, Ci, Cmult, Cplus. cbn [fst snd]. f_equal; [field; split; auto; lra|].
      replace (2 * (1 / 4) * (s / (PI / 2 * IZR d)) * s + 0 * 0) with (s * s / (PI * IZR d)) by (field; split; auto; lra). rewrite S. field. split; auto; lra.
    + assert (exists k, d = 2 * k)%Z as [k Ek]. { apply Z.even_spec. rewrite <- Z.negb_odd, O. reflexivity. }
      pose proof (half_pi_even k) as S0. rewrite <- Ek in S0. replace (PI * (2 * (1 / 4) * IZR d)) with (PI / 2 * IZR d) by field. rewrite S0.
      unfold RtoC, Ci, Cmult, Cplus, Rdiv. cbn [fst snd]. rewrite !Rmult_0_l, !Rmult_0_r, !Rmult_0_l. f_equal; ring.
Qed.
Lemma Csum_RtoC n f : Csum n (fun j => RtoC (f j)) = RtoC (Rsumn n f).
Proof. symmetry. apply RtoC_sum. Qed.
Lemma Rsumn_pick (n k : nat) (f : nat -> R) : (k < n)%nat -> (forall j, (j < n)%nat -> j <> k -> f j = 0) -> Rsumn n f = f k.
Proof.
  revert k. induction n as [|n IH]; intros k Hk H; [lia|]. cbn. destruct (Nat.eq_dec k n) as [->|N].
  - rewrite (Rsumn_ext n f (fun _ => 0 * 0)). { rewrite Rsumn_scal. ring. } intros j Hj. rewrite H by lia. ring.
  - rewrite (IH k), (H n) by (try lia; intros; apply H; lia). ring.
Qed.
Lemma mixed (K : nat) (wn h hh : Z -> R) (x : Z -> R) (m : Z) : (forall n, (0 <= n < 4 * Z.of_nat K + 1)%Z -> h n = wn n * lk (n - 2 * Z.of_nat K)) ->
  (forall n, (0 <= n < 4 * Z.of_nat K + 1)%Z -> hh n = wn n * hk (n - 2 * Z.of_nat K)) -> wn (2 * Z.of_nat K)%Z = 1 ->
  (cfir (4 * Z.of_nat K + 1) h (fun n => RtoC (x n) * cis (- (PI / 2) * IZR n)) m =
   RtoC (/ 2) * cis (- (PI / 2) * IZR (m - 2 * Z.of_nat K)) * (x (m - 2 * Z.of_nat K)%Z, rfir (4 * Z.of_nat K + 1) hh x m))%C.
Proof.
  intros Hh Hhh W. unfold cfir, rfir. replace (Z.to_nat (4 * Z.of_nat K + 1)) with (4 * K + 1)%nat by lia.
  set (c := cis (- (PI / 2) * IZR (m - 2 * Z.of_nat K))).
  set (xd := Rsumn (4 * K + 1) (fun j => (if (Z.of_nat j - 2 * Z.of_nat K =? 0)%Z then 1 else 0) * wn (Z.of_nat j) * x (m - Z.of_nat j)%Z)).
  assert (Xd : xd = x (m - 2 * Z.of_nat K)%Z).
  { unfold xd. rewrite (Rsumn_pick _ (2 * K)) by (try lia; intros j Hj Nj; rewrite (proj2 (Z.eqb_neq _ _)) by lia; ring).
    replace (Z.of_nat (2 * K)) with (2 * Z.of_nat K)%Z by lia. rewrite Z.sub_diag, W. cbn. ring. }
  rewrite <- Xd. match goal with |- context [(xd, ?r)] => replace (xd, r) with (RtoC xd + Ci * RtoC r)%C by (unfold RtoC, Ci, Cplus, Cmult; cbn; f_equal; ring) end.
  unfold xd. rewrite <- !Csum_RtoC. rewrite <- (Csum_scal _ Ci). rewrite <- Csum_plus. rewrite <- Csum_scal. apply Csum_ext. intros j Hj.
  rewrite Hh, Hhh by lia. set (d := (Z.of_nat j - 2 * Z.of_nat K)%Z).
  replace (- (PI / 2) * IZR (m - Z.of_nat j)) with (PI / 2 * IZR d + - (PI / 2) * IZR (m - 2 * Z.of_nat K)) by (unfold d; rewrite !minus_IZR; field).
  rewrite cis_plus. fold c. transitivity (RtoC (wn (Z.of_nat j)) * RtoC (x (m - Z.of_nat j)%Z) * c * (RtoC (lk d) * cis (PI / 2 * IZR d)))%C.
  { rewrite RtoC_mult. ring. }
  rewrite lk_cis. rewrite !RtoC_mult. ring.
Qed.
