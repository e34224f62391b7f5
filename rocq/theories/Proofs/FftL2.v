(* Rounding error of the transform in the Euclidean norm *)
From Coq Require Import Reals ZArith Lia Lra List Psatz.
From Coquelicot Require Import Complex.
From Verif Require Import Proofs.BaseLemmas Spec.Dft Spec.Rounding Spec.Fir Model.Fft Proofs.FftAlg Proofs.FftSplit Proofs.FftKernels Proofs.FftGen Proofs.FftProofs Proofs.FftInverse Proofs.FftRound.
Import ListNotations.
Open Scope R_scope.

(** ** Euclidean norms of finite sequences *)
Definition nr (n : nat) (f : nat -> R) : R := sqrt (Rsumn n (fun k => f k ^ 2)).
Lemma ss_nn n f : 0 <= Rsumn n (fun k => f k ^ 2).
Proof. induction n as [|n IH]; cbn [Rsumn]; [lra|]. pose proof (pow2_ge_0 (f n)). lra. Qed.
Lemma nr_nn n f : 0 <= nr n f. Proof. apply sqrt_pos. Qed.
Lemma nr_sq n f : nr n f ^ 2 = Rsumn n (fun k => f k ^ 2).
Proof. unfold nr. rewrite <- Rsqr_pow2. apply Rsqr_sqrt, ss_nn. Qed.
Lemma nr_S n f : nr (S n) f = Cmod (nr n f, f n).
Proof. unfold Cmod. cbn [fst snd]. rewrite nr_sq. reflexivity. Qed.
Lemma nr_ext n f g : (forall k, (k < n)%nat -> f k = g k) -> nr n f = nr n g.
Proof.
  intros H. unfold nr. f_equal. induction n as [|n IH]; cbn [Rsumn]; auto. rewrite IH by auto. rewrite H by lia. auto.
Qed.
Lemma nr_le n f g : (forall k, (k < n)%nat -> Rabs (f k) <= g k) -> nr n f <= nr n g.
Proof.
  induction n as [|n IH]; intros H; [unfold nr; cbn; lra|]. rewrite !nr_S. apply Cmod_comp; [|apply H; lia]. rewrite Rabs_pos_eq by apply nr_nn. apply IH. auto.
Qed.
Lemma nr_le' n f g : (forall k, (k < n)%nat -> 0 <= f k <= g k) -> nr n f <= nr n g.
Proof. intros H. apply nr_le. intros k Hk. rewrite Rabs_pos_eq; apply H; auto. Qed.
Lemma nr_plus n f g : nr n (fun k => f k + g k) <= nr n f + nr n g.
Proof.
  induction n as [|n IH]; [unfold nr; cbn [Rsumn]; rewrite sqrt_0; lra|]. rewrite !nr_S.
  eapply Rle_trans; [|apply (Cmod_triangle (nr n f, f n) (nr n g, g n))]. change (Cplus (nr n f, f n) (nr n g, g n)) with (nr n f + nr n g, f n + g n).
  rewrite <- (Cmod_abs (nr n f + nr n g)). apply Cmod_comp; [|apply Rle_refl]. rewrite !Rabs_pos_eq; auto; [pose proof (nr_nn n f); pose proof (nr_nn n g); lra|apply nr_nn].
Qed.
Lemma nr_scal n c f : 0 <= c -> nr n (fun k => c * f k) = c * nr n f.
Proof.
  intros Hc. unfold nr. assert (E : Rsumn n (fun k => (c * f k) ^ 2) = c ^ 2 * Rsumn n (fun k => f k ^ 2)).
  { induction n as [|n IH]; cbn [Rsumn]; [ring|]. rewrite IH. ring. }
  rewrite E, sqrt_mult by (apply pow2_ge_0 || apply ss_nn). rewrite sqrt_pow2 by auto. auto.
Qed.
Lemma nr_const n c : 0 <= c -> nr n (fun _ => c) = sqrt (INR n) * c.
Proof.
  intros Hc. unfold nr. assert (E : Rsumn n (fun _ => c ^ 2) = INR n * c ^ 2) by (induction n as [|n IH]; [cbn; ring|]; rewrite S_INR; cbn [Rsumn]; rewrite IH; ring).
  rewrite E, sqrt_mult by (apply pos_INR || apply pow2_ge_0). rewrite sqrt_pow2 by auto. auto.
Qed.
Lemma nr_ge n f k : (k < n)%nat -> Rabs (f k) <= nr n f.
Proof.
  induction n as [|n IH]; intros H; [lia|]. rewrite nr_S. destruct (Nat.eq_dec k n) as [->|]; [apply (Cmod_snd (nr n f, f n))|].
  eapply Rle_trans; [apply IH; lia|]. pose proof (Cmod_fst (nr n f, f n)) as Q. cbn [fst] in Q. rewrite Rabs_pos_eq in Q by apply nr_nn. auto.
Qed.
Lemma Rsumn_ext' n f g : (forall k, (k < n)%nat -> f k = g k) -> Rsumn n f = Rsumn n g.
Proof. induction n as [|n IH]; intros H; cbn [Rsumn]; auto. rewrite IH, H; auto. Qed.
Lemma Rsumn_plus' n f g : Rsumn n (fun k => f k + g k) = Rsumn n f + Rsumn n g.
Proof. induction n as [|n IH]; cbn [Rsumn]; [ring|rewrite IH; ring]. Qed.
Lemma Rsumn_zero n : Rsumn n (fun _ => 0) = 0.
Proof. induction n as [|n IH]; cbn [Rsumn]; [ring|rewrite IH; ring]. Qed.
Lemma Rsumn_swap n m f : Rsumn n (fun i => Rsumn m (fun j => f i j)) = Rsumn m (fun j => Rsumn n (fun i => f i j)).
Proof. induction n as [|n IH]; cbn [Rsumn]; [now rewrite Rsumn_zero|]. rewrite IH. now rewrite <- Rsumn_plus'. Qed.
Lemma Rsumn_add' n m f : Rsumn (n + m) f = Rsumn n f + Rsumn m (fun k => f (n + k)%nat).
Proof. induction m as [|m IH]; [rewrite Nat.add_0_r; cbn; ring|]. rewrite Nat.add_succ_r. cbn [Rsumn]. rewrite IH. ring. Qed.
Lemma Rsumn_mul a b f : Rsumn (a * b) f = Rsumn a (fun j => Rsumn b (fun q => f (a * q + j)%nat)).
Proof.
  induction b as [|b IH]; [rewrite Nat.mul_0_r; cbn; now rewrite Rsumn_zero|].
  rewrite Nat.mul_succ_r, Rsumn_add', IH, <- Rsumn_plus'. apply Rsumn_ext'. intros. reflexivity.
Qed.
Lemma nr_mul a b f : nr (a * b) f = nr a (fun j => nr b (fun q => f (a * q + j)%nat)).
Proof. unfold nr at 1 2. f_equal. rewrite Rsumn_mul. apply Rsumn_ext'. intros j Hj. now rewrite nr_sq. Qed.
Lemma nr_swap a b f : nr a (fun i => nr b (fun j => f i j)) = nr b (fun j => nr a (fun i => f i j)).
Proof.
  unfold nr at 1 3. f_equal. rewrite (Rsumn_ext' a _ (fun i => Rsumn b (fun j => f i j ^ 2))) by (intros; apply nr_sq). rewrite (Rsumn_ext' b _ (fun j => Rsumn a (fun i => f i j ^ 2))) by (intros; apply nr_sq). apply Rsumn_swap.
Qed.
(** norm of a sequence of complex numbers *)
Notation cn n f := (nr n (fun k => Cmod (f k))).
Lemma cn_parseval s N x : (s = 1 \/ s = -1)%Z -> (0 < N)%nat -> cn N (DFT s N x) = sqrt (INR N) * cn N x.
Proof.
  intros HS HN. pose proof (Parseval s N x HS HN) as E. unfold nr. rewrite <- sqrt_mult by (apply pos_INR || apply ss_nn). f_equal.
  assert (Q : forall f : nat -> C, Csum N (fun k => RtoC (norm2 (f k))) = RtoC (Rsumn N (fun k => Cmod (f k) ^ 2))).
  { intros f. clear. induction N as [|N IH]; cbn [Csum Rsumn]; auto. rewrite IH, RtoC_plus. f_equal. f_equal. unfold norm2, Cmod. rewrite <- Rsqr_pow2, Rsqr_sqrt by nra. ring. }
  rewrite (Q (DFT s N x)), (Q x) in E. rewrite <- RtoC_mult in E. now apply RtoC_inj in E.
Qed.

(** ** the computed bins as a function *)
Section L2.
Context (u e X h : R) (rnd : R -> R) (tr : trig R).
Hypothesis Hu : 0 <= u.
Hypothesis He : 0 <= e.
Hypothesis Hr : rounding u e rnd.
Hypothesis HX : 0 < X.
Hypothesis Hh : u + 2 * e / X <= h.
Context (Mx : Z).
Hypothesis HMx : (31 <= Mx)%Z.
Hypothesis Hcos : forall n M, (0 <= n < M)%Z -> (M <= Mx)%Z -> Rabs (tcos tr n M - tcos exact_trig n M) <= h.
Hypothesis Hsin : forall n M, (0 <= n < M)%Z -> (M <= Mx)%Z -> Rabs (tsin tr n M - tsin exact_trig n M) <= h.
Hypothesis Hrs2 : Rabs (trsqrt2 tr - trsqrt2 exact_trig) <= h.
Notation F := (Fn rnd).
Notation P := (P h).
Context (SIGN NT : Z) (HS : SIGN = 1%Z \/ SIGN = (-1)%Z) (inp z : list C).
Hypothesis Lz : zlen z = NT.
Hypothesis Vz : forall m w, znth z m = Some w -> Cmod (w - root SIGN NT m)%C <= P 3 - 1.
Notation D n s i k := (DFT SIGN (Z.to_nat n) (fun m => at_ inp (i + Z.of_nat m * s)) k).

Lemma hp : 0 <= h. Proof. exact (h0 u e X h Hu He HX Hh). Qed.
Lemma Pge d : 1 <= P d. Proof. exact (P_ge u e X h Hu He HX Hh d). Qed.
Lemma Padd d d' : P (d + d') = P d * P d'. Proof. exact (P_add h d d'). Qed.
Lemma Ple d d' : (d <= d')%nat -> P d <= P d'. Proof. exact (P_le u e X h Hu He HX Hh d d'). Qed.
Lemma P_mul R c : INR R * (P c - 1) <= P (R * c) - 1.
Proof.
  induction R as [|R IH]; [cbn; lra|]. rewrite S_INR. cbn [Nat.mul]. rewrite Padd. pose proof (Pge c). pose proof (Pge (R * c)). nra.
Qed.

Definition res (R : Z) (ins : list C) (l : Z) : C := match dft F tr SIGN R ins with Ok o => nth (Z.to_nat l) o (RtoC 0) | _ => RtoC 0 end.
Fixpoint G (fuel : nat) (n s i k : Z) : C :=
  match fuel with O => RtoC 0 | S f =>
    if (n =? 1)%Z then at_ inp i else
    if (n =? split n)%Z then res n (map (fun j => at_ inp (i + Z.of_nat j * s)) (seq 0 (Z.to_nat n))) k else
    let q := (n / split n)%Z in
    res (split n) (map (fun j => let c := G f q (split n * s) (i + Z.of_nat j * s) (k mod q) in
      if (j =? 0)%nat then c else cmul F (at_ z (Z.of_nat j * ((k mod q) * s))) c) (seq 0 (Z.to_nat (split n)))) (k / q)
  end.
Definition V (n s i k : Z) (v : C) : Prop := forall f, (n <= Z.of_nat f)%Z -> v = G f n s i k.

Lemma list_map_nth (l : list C) (g : nat -> C) n : length l = n -> (forall j, (j < n)%nat -> nth j l (RtoC 0) = g j) -> l = map g (seq 0 n).
Proof.
  intros L H. apply nth_ext with (RtoC 0) (RtoC 0); [rewrite map_length, seq_length; auto|]. intros j Hj. rewrite H by lia.
  rewrite (nth_indep _ (RtoC 0) (g 0%nat)) by (rewrite map_length, seq_length; lia). rewrite map_nth, seq_nth by lia. auto.
Qed.

Lemma dit_fun fuel n s (out : list (option C)) o i : (0 < n)%Z -> (0 < s)%Z -> (n * s = NT)%Z -> smooth31 n -> (n <= Z.of_nat fuel)%Z ->
  (0 <= o)%Z -> (o + n <= zlen out)%Z -> (0 <= i)%Z -> (i + (n - 1) * s < zlen inp)%Z ->
  exists out' : list (option C), dit F tr fuel SIGN (split n) n s out o inp i z = Ok out' /\ zlen out' = zlen out /\
    (forall m, ~ (o <= m < o + n)%Z -> znth out' m = znth out m) /\
    forall k, (0 <= k < n)%Z -> exists v, znth out' (o + k)%Z = Some (Some v) /\ V n s i k v.
Proof.
  intros Hn Hs HNT Hsm Hf Ho Hlo Hi Hli.
  destruct (dit_gen F tr SIGN NT inp z V) with (fuel := fuel) (n := n) (s := s) (out := out) (o := o) (i := i) as (out' & E & L & U & B); auto.
  - intros s' i' v Hv f Hf'. destruct f; [lia|]. cbn [G Z.eqb]. rewrite (at_znth _ _ _ Hv). reflexivity.
  - intros R s' i' ins IR SR Hs' HR Hi' Hl Lins Pins. cplxC. pose proof (radices_bound R IR) as BR.
    destruct (dft_len F tr SIGN R ins IR Lins) as (outs & E & LO). exists outs. splits; auto.
    intros l v Hl' f Hf'. pose proof (znth_Some_range _ _ _ Hl'). destruct f; [lia|]. cbn [G]. destruct (Z.eqb_spec R 1); [lia|]. rewrite SR, Z.eqb_refl. unfold res.
    rewrite <- (list_map_nth ins _ (Z.to_nat R)); [|unfold zlen in Lins; lia|].
    + rewrite E. rewrite znth_nonneg in Hl' by lia. symmetry. now apply nth_error_nth.
    + intros j Hj. rewrite <- at_nth. unfold at_. rewrite Pins by lia. auto.
  - intros R q s' i' k0 xs ins IR SR Hq Hs' HR Hi' Hl' Hk Lxs Vxs Lins I0 Ij. cplxC. pose proof (radices_bound R IR) as BR.
    destruct (dft_len F tr SIGN R ins IR Lins) as (outs & E & LO). exists outs. splits; auto.
    intros l v Hl f Hf'. pose proof (znth_Some_range _ _ _ Hl) as Rl. destruct f; [lia|]. cbn [G]. destruct (Z.eqb_spec (R * q) 1); [nia|]. rewrite SR.
    destruct (Z.eqb_spec (R * q) R) as [Q|Q]; [nia|].
    replace (R * q / R)%Z with q by (rewrite Z.mul_comm, Z.div_mul; lia).
    replace ((k0 + l * q) mod q)%Z with k0 by (rewrite Z.mod_add, Z.mod_small; lia). replace ((k0 + l * q) / q)%Z with l by (rewrite Z.div_add, Z.div_small; lia).
    unfold res. rewrite <- (list_map_nth ins _ (Z.to_nat R)); [|unfold zlen in Lins; lia|].
    + rewrite E. rewrite znth_nonneg in Hl by lia. symmetry. now apply nth_error_nth.
    + intros j Hj. destruct (znth_in_range xs (Z.of_nat j) ltac:(lia)) as (x & Hx). rewrite <- (Vxs _ _ Hx f) by nia. destruct (Nat.eqb_spec j 0) as [->|].
      * change (Z.of_nat 0) with 0%Z in *. rewrite <- I0 in Hx. rewrite <- at_nth. change (Z.of_nat 0) with 0%Z. apply at_znth. auto.
      * assert (IX : (0 <= Z.of_nat j * (k0 * s') < zlen z)%Z). { rewrite Lz, <- HR. assert (0 <= Z.of_nat j * k0 < R * q)%Z by nia. nia. }
        destruct (znth_in_range z _ IX) as (w & Hw). pose proof (Ij (Z.of_nat j) x w ltac:(lia) Hx Hw) as Hi''. rewrite <- at_nth, (at_znth _ _ _ Hi''), (at_znth _ _ _ Hw). auto.
  - exists out'. splits; auto.
Qed.

(** one radix with any inputs: every output is off by at most (P (cost R) - 1) R (X + norm of the inputs) *)
Lemma res_err R (ins : list C) : In R radices -> Z.of_nat (length ins) = R -> forall l, (l < Z.to_nat R)%nat ->
  Cmod (res R ins (Z.of_nat l) - DFT SIGN (Z.to_nat R) (fun j => nth j ins (RtoC 0)) l)%C <= (P (cost R) - 1) * (IZR R * (X + cn (Z.to_nat R) (fun j => nth j ins (RtoC 0)))).
Proof.
  intros IR L l Hl. pose proof (radices_bound R IR) as BR. set (Y := X + cn (Z.to_nat R) (fun j => nth j ins (RtoC 0))).
  pose proof (nr_nn (Z.to_nat R) (fun j => Cmod (nth j ins (RtoC 0)))) as N0.
  destruct (dft_round u e X h rnd tr Hu He Hr HX Hh Mx HMx Hcos Hsin Hrs2 SIGN R Y ins HS IR L) as (outs & E & LO & VV).
  - unfold Y. lra.
  - intros x I. apply (In_nth _ _ (RtoC 0)) in I as (j & Hj & <-). pose proof (nr_ge (Z.to_nat R) (fun j => Cmod (nth j ins (RtoC 0))) j ltac:(lia)) as Q. cbv beta in Q. rewrite Rabs_pos_eq in Q by apply Cmod_ge_0. unfold Y. lra.
  - unfold res. cplxC. rewrite E, Nat2Z.id. specialize (VV l ltac:(lia)). rewrite DFT_root by lia. rewrite Z2Nat.id by lia. replace (Z.to_nat R) with (length ins) by lia. exact VV.
Qed.
Lemma res_l2 R (ins : list C) : In R radices -> Z.of_nat (length ins) = R ->
  cn (Z.to_nat R) (fun l => res R ins (Z.of_nat l) - DFT SIGN (Z.to_nat R) (fun j => nth j ins (RtoC 0)) l)%C <=
  (P (Z.to_nat R * cost R) - 1) * (sqrt (IZR R) * (X + cn (Z.to_nat R) (fun j => nth j ins (RtoC 0)))).
Proof.
  intros IR L. pose proof (radices_bound R IR) as BR. set (Y := X + cn (Z.to_nat R) (fun j => nth j ins (RtoC 0))).
  assert (Y0 : 0 <= Y) by (unfold Y; pose proof (nr_nn (Z.to_nat R) (fun j => Cmod (nth j ins (RtoC 0)))); lra).
  assert (ER : INR (Z.to_nat R) = IZR R) by (rewrite INR_IZR_INZ, Z2Nat.id by lia; auto).
  assert (R1 : 0 <= IZR R) by (apply IZR_le; lia). pose proof (Pge (cost R)) as P1.
  eapply Rle_trans; [apply (nr_le' _ _ (fun _ => (P (cost R) - 1) * (IZR R * Y))); intros k Hk; split; [apply Cmod_ge_0|apply res_err; auto]|].
  rewrite nr_const by (apply Rmult_le_pos; [lra|apply Rmult_le_pos; auto]). rewrite ER.
  pose proof (P_mul (Z.to_nat R) (cost R)) as PM. rewrite ER in PM. pose proof (sqrt_pos (IZR R)) as S0.
  replace (sqrt (IZR R) * ((P (cost R) - 1) * (IZR R * Y))) with (IZR R * (P (cost R) - 1) * (sqrt (IZR R) * Y)) by ring.
  apply Rmult_le_compat_r; [apply Rmult_le_pos; auto|auto].
Qed.

(** multiplication with a twiddle factor *)
Lemma tw_err (a w c v : C) : Cmod (a - w)%C <= P 3 - 1 -> Cmod w = 1 -> Cmod (cmul F a c - w * v)%C <= (P 6 - 1) * (Cmod v + X) + P 6 * Cmod (c - v)%C.
Proof.
  intros Ha Hw. pose proof (Cmod_of_sub a w) as Sa. rewrite Hw in Sa. pose proof (Cmod_of_sub c v) as Sc. pose proof (Cmod_ge_0 a) as A0. pose proof (Cmod_ge_0 c) as C0. pose proof (Cmod_ge_0 v) as V0. pose proof (Cmod_ge_0 (c - v)%C) as D0. pose proof (Pge 3) as P3.
  assert (B1 : Cmod a * Cmod c <= X + P 3 * Cmod c) by (assert (Cmod a * Cmod c <= P 3 * Cmod c) by (apply Rmult_le_compat_r; lra); lra).
  pose proof (cmul_round u e X h rnd Hu He Hr HX Hh a c _ B1 ltac:(nra)) as R1.
  assert (R2 : Cmod (a * c - w * v)%C <= (P 3 - 1) * Cmod c + Cmod (c - v)%C).
  { replace (a * c - w * v)%C with ((a - w) * c + w * (c - v))%C by (apply C_eq; cbn; ring). eapply Rle_trans; [apply Cmod_triangle|]. rewrite !Cmod_mult, Hw.
    assert (Cmod (a - w)%C * Cmod c <= (P 3 - 1) * Cmod c) by (apply Rmult_le_compat_r; auto). lra. }
  pose proof (Cmod_sub_le (cmul F a c) (a * c)%C (w * v)%C) as R3.
  change 6%nat with (3 + 3)%nat. rewrite Padd. set (p := P 3) in *. clearbody p.
  assert ((p - 1) * (X + p * Cmod c) + ((p - 1) * Cmod c + Cmod (c - v)%C) <= (p * p - 1) * (Cmod v + X) + p * p * Cmod (c - v)%C); [|lra].
  assert (Q1 : (p * p - 1) * Cmod c <= (p * p - 1) * (Cmod (c - v)%C + Cmod v)) by (apply Rmult_le_compat_l; nra).
  assert (Q2 : (p - 1) * X <= (p * p - 1) * X) by (apply Rmult_le_compat_r; nra). lra.
Qed.

(** ** the bound for all block sizes *)
Definition xs_ (s i : Z) (m : nat) : C := at_ inp (i + Z.of_nat m * s).
Definition W (n s i : Z) : R := sqrt (IZR n) * cn (Z.to_nat n) (xs_ s i) + IZR n * X.
Context (dep : Z -> nat).
Hypothesis depR : forall n, (1 < n)%Z -> (n | NT)%Z -> smooth31 n -> (dep (n / split n) + 6 + Z.to_nat (split n) * cost (split n) <= dep n)%nat.

Lemma W_nn n s i : (0 <= n)%Z -> 0 <= W n s i.
Proof. intros H. unfold W. assert (0 <= IZR n) by (apply IZR_le; lia). pose proof (sqrt_pos (IZR n)). pose proof (nr_nn (Z.to_nat n) (fun k => Cmod (xs_ s i k))). nra. Qed.
Lemma sqrt_le_id x : 1 <= x -> sqrt x <= x.
Proof. intros H. rewrite <- (sqrt_pow2 x) at 2 by lra. apply sqrt_le_1_alt. nra. Qed.

Lemma G_l2 fuel : forall n s i, (0 < n)%Z -> (0 < s)%Z -> (n * s = NT)%Z -> smooth31 n -> (n <= Z.of_nat fuel)%Z ->
  cn (Z.to_nat n) (fun k => G fuel n s i (Z.of_nat k) - D n s i k)%C <= (P (dep n) - 1) * W n s i.
Proof.
  induction fuel as [|fuel IH]; intros n s i Hn Hs HNT Hsm Hf; [lia|].
  destruct (Z.eq_dec n 1) as [->|N1].
  { cbn [G Z.eqb]. change (Z.to_nat 1) with 1%nat. rewrite (nr_ext 1 _ (fun _ => 0)).
    - rewrite nr_const by lra. rewrite Rmult_0_r. apply Rmult_le_pos; [pose proof (Pge (dep 1)); lra|apply W_nn; lia].
    - intros k Hk. assert (k = 0)%nat by lia. subst k. unfold DFT. cbn [Csum]. replace (IZR SIGN * 2 * PI * (INR 0 * INR 0) / INR 1)%R with 0%R by (cbn; field). rewrite cis_0. change (Z.of_nat 0) with 0%Z. rewrite Z.mul_0_l, Z.add_0_r.
      match goal with |- Cmod ?x = _ => replace x with (RtoC 0) by (apply C_eq; cbn; ring) end. apply Cmod_0. }
  destruct (split_smooth n Hn Hsm) as [[? _]|[IR (q & Eq & Hq & HSq)]]; [lia|].
  pose proof (depR n ltac:(lia) ltac:(exists s; lia) Hsm) as DR. pose proof (radices_bound _ IR) as BR.
  assert (Q : (n / split n = q)%Z) by (rewrite Eq at 1; rewrite Z.mul_comm; apply Z.div_mul; lia). rewrite Q in DR.
  cbn [G]. destruct (Z.eqb_spec n 1); [lia|]. rewrite Q. set (R := split n) in *. clearbody R.
  assert (ER : INR (Z.to_nat R) = IZR R) by (rewrite INR_IZR_INZ, Z2Nat.id by lia; auto).
  assert (Rp : 1 <= IZR R) by (apply IZR_le; lia). pose proof (sqrt_pos (IZR R)) as SR0. assert (SR : sqrt (IZR R) * sqrt (IZR R) = IZR R) by (apply sqrt_sqrt; lra).
  destruct (Z.eqb_spec n R) as [E|NE].
  - clear Eq Q. subst n. set (ins := map (fun j : nat => at_ inp (i + Z.of_nat j * s)) (seq 0 (Z.to_nat R))).
    assert (LI : Z.of_nat (length ins) = R) by (unfold ins; rewrite map_length, seq_length; lia).
    assert (NI : forall j, (j < Z.to_nat R)%nat -> nth j ins (RtoC 0) = xs_ s i j).
    { intros j Hj. unfold ins. rewrite (nth_indep _ _ ((fun j : nat => at_ inp (i + Z.of_nat j * s)) 0%nat)) by (rewrite map_length, seq_length; lia). rewrite (map_nth (fun j : nat => at_ inp (i + Z.of_nat j * s))), seq_nth by lia. auto. }
    pose proof (res_l2 R ins IR LI) as B. cbv beta in B. rewrite (nr_ext (Z.to_nat R) (fun j => Cmod (nth j ins (RtoC 0))) (fun j => Cmod (xs_ s i j))) in B by (intros; rewrite NI; auto).
    rewrite (nr_ext _ _ (fun l => Cmod (res R ins (Z.of_nat l) - DFT SIGN (Z.to_nat R) (fun j => nth j ins (RtoC 0)) l)%C)).
    2:{ intros k Hk. cbv beta. rewrite (DFT_ext SIGN (Z.to_nat R) (fun j => nth j ins (RtoC 0)) (fun m => at_ inp (i + Z.of_nat m * s)) k); [reflexivity|]. intros m Hm. apply NI. auto. }
    eapply Rle_trans; [exact B|]. pose proof (Pge (Z.to_nat R * cost R)). pose proof (Ple (Z.to_nat R * cost R) (dep R) ltac:(lia)). pose proof (nr_nn (Z.to_nat R) (fun j => Cmod (xs_ s i j))) as N0.
    assert (W1 : sqrt (IZR R) * (X + cn (Z.to_nat R) (xs_ s i)) <= W R s i). { unfold W. pose proof (sqrt_le_id (IZR R) Rp). assert (sqrt (IZR R) * X <= IZR R * X) by (apply Rmult_le_compat_r; lra). lra. }
    apply Rmult_le_compat; try lra. apply Rmult_le_pos; lra.
  - assert (Qp : 1 <= IZR q) by (apply IZR_le; lia). assert (EQ : INR (Z.to_nat q) = IZR q) by (rewrite INR_IZR_INZ, Z2Nat.id by lia; auto).
    pose proof (sqrt_pos (IZR q)) as SQ0. pose proof (sqrt_le_id (IZR q) Qp) as SQ1.
    assert (EN : sqrt (IZR n) = sqrt (IZR R) * sqrt (IZR q)) by (rewrite Eq, mult_IZR, sqrt_mult by lra; auto).
    assert (ENn : Z.to_nat n = (Z.to_nat q * Z.to_nat R)%nat) by (rewrite Eq; nia).
    set (c := fun (j k : nat) => G fuel q (R * s) (i + Z.of_nat j * s) (Z.of_nat k)).
    set (v := fun (j k : nat) => D q (R * s) (i + Z.of_nat j * s) k).
    set (w := fun (j k : nat) => root SIGN n (Z.of_nat j * Z.of_nat k)).
    set (ins := fun (k : nat) => map (fun j => if (j =? 0)%nat then c j k else cmul F (at_ z (Z.of_nat j * (Z.of_nat k * s))) (c j k)) (seq 0 (Z.to_nat R))).
    assert (LI : forall k, Z.of_nat (length (ins k)) = R) by (intros; unfold ins; rewrite map_length, seq_length; lia).
    assert (NI : forall j k, (j < Z.to_nat R)%nat -> nth j (ins k) (RtoC 0) = if (j =? 0)%nat then c j k else cmul F (at_ z (Z.of_nat j * (Z.of_nat k * s))) (c j k)).
    { intros j k Hj. unfold ins. set (g := fun j : nat => if (j =? 0)%nat then _ else _). rewrite (nth_indep _ _ (g 0%nat)) by (rewrite map_length, seq_length; lia). rewrite map_nth, seq_nth by lia. auto. }
    set (dlt := fun k j => Cmod (nth j (ins k) (RtoC 0) - w j k * v j k)%C).
    assert (MW : forall j k, Cmod (w j k) = 1) by (intros; apply Cmod_root).
    pose proof (Pge 6) as P6. pose proof (Pge (dep q)) as PD.
    assert (DL : forall j k, (j < Z.to_nat R)%nat -> (k < Z.to_nat q)%nat -> dlt k j <= (P 6 - 1) * (Cmod (v j k) + X) + P 6 * Cmod (c j k - v j k)%C).
    { intros j k Hj Hk. unfold dlt. rewrite NI by auto. destruct (Nat.eqb_spec j 0) as [->|].
      - unfold w. change (Z.of_nat 0) with 0%Z. rewrite Z.mul_0_l, root_0, Cmult_1_l. pose proof (Cmod_ge_0 (c 0%nat k - v 0%nat k)%C). pose proof (Cmod_ge_0 (v 0%nat k)). nra.
      - apply tw_err; auto. assert (IX : (0 <= Z.of_nat j * (Z.of_nat k * s) < zlen z)%Z). { rewrite Lz, <- HNT, Eq. assert (0 <= Z.of_nat j * Z.of_nat k < R * q)%Z by nia. nia. }
        destruct (znth_in_range z _ IX) as (a & Ha). rewrite (at_znth _ _ _ Ha). pose proof (Vz _ _ Ha) as B. rewrite <- HNT in B. replace (Z.of_nat j * (Z.of_nat k * s))%Z with (s * (Z.of_nat j * Z.of_nat k))%Z in B by ring.
        rewrite (Z.mul_comm n s), root_scale in B by lia. exact B. }
    set (x := cn (Z.to_nat n) (xs_ s i)). assert (x0 : 0 <= x) by apply nr_nn.
    assert (XS : nr (Z.to_nat R) (fun j => cn (Z.to_nat q) (xs_ (R * s) (i + Z.of_nat j * s))) = x).
    { unfold x. rewrite ENn, Nat.mul_comm, nr_mul. apply nr_ext. intros j Hj. apply nr_ext. intros k Hk. unfold xs_. do 2 f_equal. nia. }
    set (p := P (6 + dep q)). assert (Ep : p = P 6 * P (dep q)) by apply Padd.
    assert (p1 : 1 <= p) by apply Pge.
    assert (D1 : forall j, (j < Z.to_nat R)%nat -> nr (Z.to_nat q) (fun k => dlt k j) <= (p - 1) * (sqrt (IZR q) * cn (Z.to_nat q) (xs_ (R * s) (i + Z.of_nat j * s)) + IZR q * X)).
    { intros j Hj. eapply Rle_trans; [apply nr_le'; intros k Hk; split; [apply Cmod_ge_0|apply DL; auto]|].
      eapply Rle_trans; [apply (nr_plus (Z.to_nat q) (fun k => (P 6 - 1) * (Cmod (v j k) + X)) (fun k => P 6 * Cmod (c j k - v j k)%C))|].
      rewrite !nr_scal by lra. pose proof (nr_plus (Z.to_nat q) (fun k => Cmod (v j k)) (fun _ => X)) as B1. rewrite nr_const in B1 by lra.
      unfold v in B1 at 2. rewrite (cn_parseval SIGN (Z.to_nat q) (fun m => at_ inp (i + Z.of_nat j * s + Z.of_nat m * (R * s)))) in B1 by (auto; lia). rewrite EQ in B1.
      pose proof (IH q (R * s)%Z (i + Z.of_nat j * s)%Z ltac:(lia) ltac:(nia) ltac:(nia) HSq ltac:(lia)) as B2. fold (c j) in B2. fold (v j) in B2. unfold W in B2.
      change (fun k : nat => Cmod (at_ inp (i + Z.of_nat j * s + Z.of_nat k * (R * s)))) with (fun k => Cmod (xs_ (R * s) (i + Z.of_nat j * s) k)) in B1.
      set (y := cn (Z.to_nat q) (xs_ (R * s) (i + Z.of_nat j * s))) in *. assert (y0 : 0 <= y) by apply nr_nn.
      change (nr (Z.to_nat q) (fun k : nat => Cmod (G fuel q (R * s) (i + Z.of_nat j * s) (Z.of_nat k) - D q (R * s) (i + Z.of_nat j * s) k)%C)) with (nr (Z.to_nat q) (fun k => Cmod (c j k - v j k)%C)) in B2.
      assert (Z1 : sqrt (IZR q) * X <= IZR q * X) by (apply Rmult_le_compat_r; lra).
      set (A := nr (Z.to_nat q) (fun k => Cmod (v j k) + X)) in *. set (B := nr (Z.to_nat q) (fun k => Cmod (c j k - v j k)%C)) in *.
      set (ww := sqrt (IZR q) * y + IZR q * X) in *. assert (Aw : A <= ww) by (unfold ww; lra).
      assert ((P 6 - 1) * A <= (P 6 - 1) * ww) by (apply Rmult_le_compat_l; lra). assert (P 6 * B <= P 6 * ((P (dep q) - 1) * ww)) by (apply Rmult_le_compat_l; lra). rewrite Ep. lra. }
    assert (DT : sqrt (IZR R) * nr (Z.to_nat q) (fun k => nr (Z.to_nat R) (fun j => dlt k j)) <= (p - 1) * W n s i).
    { rewrite (nr_swap (Z.to_nat q) (Z.to_nat R) dlt).
      assert (B : nr (Z.to_nat R) (fun j => nr (Z.to_nat q) (fun k => dlt k j)) <= (p - 1) * (sqrt (IZR q) * x + sqrt (IZR R) * (IZR q * X))).
      { eapply Rle_trans; [apply nr_le'; intros j Hj; split; [apply nr_nn|apply D1; auto]|]. rewrite nr_scal by lra. apply Rmult_le_compat_l; [lra|].
        eapply Rle_trans; [apply (nr_plus (Z.to_nat R) (fun j => sqrt (IZR q) * cn (Z.to_nat q) (xs_ (R * s) (i + Z.of_nat j * s))) (fun _ => IZR q * X))|].
        rewrite nr_scal, nr_const by nra. rewrite XS, ER. lra. }
      eapply Rle_trans; [apply Rmult_le_compat_l; [auto|exact B]|]. unfold W. fold x. rewrite EN. replace (IZR n) with (sqrt (IZR R) * sqrt (IZR R) * IZR q) by (rewrite SR, Eq, mult_IZR; auto).
      apply Req_le. ring. }
    set (Dt := nr (Z.to_nat q) (fun k => nr (Z.to_nat R) (fun j => dlt k j))) in *. assert (Dt0 : 0 <= Dt) by apply nr_nn.
    (* the inputs of the last stage *)
    assert (NIn : nr (Z.to_nat q) (fun k => cn (Z.to_nat R) (fun j => nth j (ins k) (RtoC 0))) <= sqrt (IZR q) * x + Dt).
    { eapply Rle_trans; [apply (nr_le' _ _ (fun k => nr (Z.to_nat R) (fun j => Cmod (v j k)) + nr (Z.to_nat R) (fun j => dlt k j)))|].
      - intros k Hk. split; [apply nr_nn|]. eapply Rle_trans; [|apply nr_plus]. apply nr_le'. intros j Hj. split; [apply Cmod_ge_0|]. unfold dlt.
        pose proof (Cmod_of_sub (nth j (ins k) (RtoC 0)) (w j k * v j k)%C) as B. rewrite Cmod_mult, MW, Rmult_1_l in B. lra.
      - eapply Rle_trans; [apply nr_plus|]. fold Dt. apply Rplus_le_compat_r. rewrite (nr_swap (Z.to_nat q) (Z.to_nat R) (fun k j => Cmod (v j k))).
        rewrite (nr_ext _ _ (fun j => sqrt (IZR q) * cn (Z.to_nat q) (xs_ (R * s) (i + Z.of_nat j * s)))).
        + rewrite nr_scal by auto. rewrite XS. lra.
        + intros j Hj. unfold v. rewrite (cn_parseval SIGN (Z.to_nat q) (fun m => at_ inp (i + Z.of_nat j * s + Z.of_nat m * (R * s)))) by (auto; lia). rewrite EQ. reflexivity. }
    (* split the index *)
    rewrite ENn, nr_mul.
    eapply Rle_trans.
    { apply (nr_le' _ _ (fun k => (P (Z.to_nat R * cost R) - 1) * (sqrt (IZR R) * (X + cn (Z.to_nat R) (fun j => nth j (ins k) (RtoC 0)))) + sqrt (IZR R) * nr (Z.to_nat R) (fun j => dlt k j))).
      intros k Hk. split; [apply nr_nn|].
      rewrite (nr_ext _ _ (fun l => Cmod ((res R (ins k) (Z.of_nat l) - DFT SIGN (Z.to_nat R) (fun j => nth j (ins k) (RtoC 0)) l) + DFT SIGN (Z.to_nat R) (fun j => nth j (ins k) (RtoC 0) - w j k * v j k) l)%C)).
      - eapply Rle_trans; [apply (nr_le' _ _ (fun l => Cmod (res R (ins k) (Z.of_nat l) - DFT SIGN (Z.to_nat R) (fun j => nth j (ins k) (RtoC 0)) l)%C + Cmod (DFT SIGN (Z.to_nat R) (fun j => nth j (ins k) (RtoC 0) - w j k * v j k)%C l))); intros l Hl; split; [apply Cmod_ge_0|apply Cmod_triangle]|].
        eapply Rle_trans; [apply nr_plus|]. apply Rplus_le_compat; [apply res_l2; auto|]. apply Req_le.
        rewrite (cn_parseval SIGN (Z.to_nat R) (fun j => nth j (ins k) (RtoC 0) - w j k * v j k)%C) by (auto; lia). rewrite ER. reflexivity.
      - intros l Hl. f_equal.
        replace (Z.of_nat (Z.to_nat q * l + k)) with (Z.of_nat k + Z.of_nat l * q)%Z by nia.
        replace ((Z.of_nat k + Z.of_nat l * q) mod q)%Z with (Z.of_nat k) by (rewrite Z.mod_add, Z.mod_small; lia). replace ((Z.of_nat k + Z.of_nat l * q) / q)%Z with (Z.of_nat l) by (rewrite Z.div_add, Z.div_small; lia).
        fold (ins k). replace (Z.to_nat q * l + k)%nat with (k + l * Z.to_nat q)%nat by lia.
        assert (DD : DFT SIGN (Z.to_nat q * Z.to_nat R) (fun m => at_ inp (i + Z.of_nat m * s)) (k + l * Z.to_nat q) = DFT SIGN (Z.to_nat R) (fun j => w j k * v j k)%C l).
        { rewrite Nat.mul_comm. rewrite DFT_decimate by lia. rewrite (DFT_root SIGN (Z.to_nat R)) by lia. apply Csum_ext. intros j Hj. f_equal. unfold w, v. rewrite Nat2Z.inj_mul, !Z2Nat.id by lia. rewrite <- Eq. f_equal. apply DFT_ext. intros m Hm. f_equal. nia. }
        rewrite DD. assert (DS : forall f g, DFT SIGN (Z.to_nat R) (fun j => f j - g j)%C l = (DFT SIGN (Z.to_nat R) f l - DFT SIGN (Z.to_nat R) g l)%C).
        { intros f g. unfold DFT. rewrite <- Csum_minus. apply Csum_ext. intros. ring. }
        rewrite (DS (fun j => nth j (ins k) (RtoC 0)) (fun j => w j k * v j k)%C). unfold ins, c. ring. }
    eapply Rle_trans; [apply nr_plus|]. pose proof (Pge (Z.to_nat R * cost R)) as PC.
    rewrite (nr_scal (Z.to_nat q) (sqrt (IZR R))) by auto. fold Dt.
    rewrite (nr_scal (Z.to_nat q) (P (Z.to_nat R * cost R) - 1)) by lra. rewrite (nr_scal (Z.to_nat q) (sqrt (IZR R))) by auto.
    pose proof (nr_plus (Z.to_nat q) (fun _ => X) (fun k => cn (Z.to_nat R) (fun j => nth j (ins k) (RtoC 0)))) as B. rewrite nr_const, EQ in B by lra.
    set (A := nr (Z.to_nat q) (fun k => X + cn (Z.to_nat R) (fun j => nth j (ins k) (RtoC 0)))) in *.
    assert (AB : sqrt (IZR R) * A <= p * W n s i).
    { assert (S1 : sqrt (IZR R) * A <= sqrt (IZR R) * (sqrt (IZR q) * X + (sqrt (IZR q) * x + Dt))) by (apply Rmult_le_compat_l; lra).
      assert (S2 : sqrt (IZR R) * (sqrt (IZR q) * X) <= IZR n * X).
      { rewrite <- Rmult_assoc, <- EN. apply Rmult_le_compat_r; [lra|]. apply sqrt_le_id. apply IZR_le. lia. }
      assert (S3 : W n s i = sqrt (IZR R) * sqrt (IZR q) * x + IZR n * X) by (unfold W; fold x; rewrite EN; ring). lra. }
    pose proof (W_nn n s i ltac:(lia)) as W0.
    assert ((P (Z.to_nat R * cost R) - 1) * (sqrt (IZR R) * A) <= (P (Z.to_nat R * cost R) - 1) * (p * W n s i)) by (apply Rmult_le_compat_l; lra).
    assert (LD : (P (Z.to_nat R * cost R) * p - 1) * W n s i <= (P (dep n) - 1) * W n s i).
    { apply Rmult_le_compat_r; auto. unfold p. rewrite <- Padd. apply Rplus_le_compat_r. apply Ple. lia. }
    lra.
Qed.
End L2.

Lemma fft_l2 u e t h X rnd tr BINS SIGN (out : list (option C)) (inp : list C) (dep : Z -> nat) :
  0 <= u -> 0 <= e -> rounding u e rnd -> rnd 1 = 1 -> rnd (-1) = -1 -> 0 < X ->
  (forall n M, (0 <= n < M)%Z -> (M <= Z.max 31 BINS)%Z -> Rabs (tcos tr n M - cos (2 * PI * IZR n / IZR M)) <= t /\ Rabs (tsin tr n M - sin (2 * PI * IZR n / IZR M)) <= t) ->
  Rabs (trsqrt2 tr - / sqrt 2) <= t -> t <= h -> u + 2 * e / X <= h -> u * (1 + t) + e <= h ->
  (0 < BINS)%Z -> smooth31 BINS -> SIGN = 1%Z \/ SIGN = (-1)%Z -> (BINS <= zlen out)%Z -> (BINS <= zlen inp)%Z ->
  (forall n, (1 < n)%Z -> (n | BINS)%Z -> smooth31 n -> (dep (n / split n)%Z + 6 + Z.to_nat (split n) * cost (split n) <= dep n)%nat) ->
  exists (out' : list (option C)) (v : nat -> C), fft (Fn rnd) tr BINS SIGN out inp = Ok out' /\ zlen out' = zlen out /\
    (forall k, (BINS <= k)%Z -> znth out' k = znth out k) /\
    (forall k, (k < Z.to_nat BINS)%nat -> znth out' (Z.of_nat k) = Some (Some (v k))) /\
    cn (Z.to_nat BINS) (fun k => v k - DFT SIGN (Z.to_nat BINS) (fun n => nth n inp (RtoC 0)) k)%C <=
      ((1 + h) ^ dep BINS - 1) * (sqrt (IZR BINS) * cn (Z.to_nat BINS) (fun n => nth n inp (RtoC 0)) + IZR BINS * X).
Proof.
  intros Hu He Hr R1 R2 HX HT HR2 Ht H1 H2 HB Hsm HS Lo Li HD.
  assert (Hh : 0 <= h). { assert (0 <= 2 * e / X). { apply Rmult_le_pos; [lra|]. apply Rlt_le, Rinv_0_lt_compat; auto. } lra. }
  assert (T0 : 0 <= t) by (eapply Rle_trans; [apply Rabs_pos|exact HR2]).
  unfold fft. set (z := fft_factors (Fn rnd) tr BINS SIGN).
  assert (Lz : zlen z = BINS). { unfold z, fft_factors, zlen. rewrite map_length, seq_length. lia. }
  destruct (dit_fun rnd tr (Z.max 31 BINS) ltac:(lia) SIGN BINS inp z Lz) with (fuel := Z.to_nat BINS) (n := BINS) (s := 1%Z) (out := out) (o := 0%Z) (i := 0%Z) as (out' & E & L & U & VV); auto; try lia.
  exists out', (fun k => G rnd tr SIGN inp z (Z.to_nat BINS) BINS 1 0 (Z.of_nat k)). splits; auto.
  - intros k Hk. apply U. lia.
  - intros k Hk. destruct (VV (Z.of_nat k) ltac:(lia)) as (v & Ev & Hv). rewrite Z.add_0_l in Ev. rewrite Ev. do 2 f_equal. apply Hv. lia.
  - pose proof (G_l2 u e X h rnd tr Hu He Hr HX H1 (Z.max 31 BINS) ltac:(lia)) as B.
    specialize (B ltac:(intros n M HnM HM; destruct (HT n M HnM HM); cbn; lra) ltac:(intros n M HnM HM; destruct (HT n M HnM HM); cbn; lra) ltac:(cbn; lra) SIGN BINS HS inp z Lz).
    specialize (B (factors_near u e t h rnd tr BINS SIGN Hu Hh T0 Hr R1 R2 HT Ht H2 HB HS) dep HD (Z.to_nat BINS) BINS 1%Z 0%Z HB ltac:(lia) ltac:(lia) Hsm ltac:(lia)).
    assert (EX : forall n, at_ inp (0 + Z.of_nat n * 1) = nth n inp (RtoC 0)) by (intros; rewrite Z.add_0_l, Z.mul_1_r; apply at_nth).
    unfold W in B. rewrite (nr_ext (Z.to_nat BINS) (fun k => Cmod (xs_ inp 1 0 k)) (fun n => Cmod (nth n inp (RtoC 0)))) in B by (intros; unfold xs_; rewrite EX; auto).
    eapply Rle_trans; [|exact B]. apply Req_le, nr_ext. intros k Hk. cbv beta. rewrite (DFT_ext SIGN (Z.to_nat BINS) (fun n => nth n inp (RtoC 0)) (fun m => at_ inp (0 + Z.of_nat m * 1)) k); [reflexivity|]. intros; symmetry; apply EX.
Qed.

Lemma log_step E R q c : (0 <= E)%Z -> (0 < R)%Z -> (0 < q)%Z -> (2 ^ Z.of_nat c <= R ^ E)%Z -> (Z.of_nat c + Z.log2 (q ^ E) <= Z.log2 ((R * q) ^ E))%Z.
Proof.
  intros HE HR Hq B. assert (Q0 : (0 < q ^ E)%Z) by (apply Z.pow_pos_nonneg; lia). pose proof (Z.log2_spec _ Q0) as [L _]. pose proof (Z.log2_nonneg (q ^ E)).
  apply Z.log2_le_pow2. { apply Z.pow_pos_nonneg; nia. }
  rewrite Z.pow_add_r, Z.pow_mul_l by lia. apply Z.mul_le_mono_nonneg; auto; apply Z.pow_nonneg; lia.
Qed.
Lemma dep_any R : In R radices -> (2 ^ Z.of_nat (6 + Z.to_nat R * cost R) <= R ^ 240)%Z.
Proof. unfold radices. cbn [In]. intros I. repeat (destruct I as [<-|I]; [vm_compute; discriminate|]). contradiction. Qed.
Definition dep240 (n : Z) : nat := Z.to_nat (Z.log2 (n ^ 240)).
Lemma dep240_ok n : (1 < n)%Z -> smooth31 n -> (dep240 (n / split n)%Z + 6 + Z.to_nat (split n) * cost (split n) <= dep240 n)%nat.
Proof.
  intros Hn Hsm. destruct (split_smooth n ltac:(lia) Hsm) as [[? _]|[IR (q & Eq & Hq & _)]]; [lia|]. pose proof (radices_bound _ IR) as BR. pose proof (dep_any _ IR) as B.
  assert (Q : (n / split n = q)%Z) by (rewrite Eq at 1; rewrite Z.mul_comm; apply Z.div_mul; lia). rewrite Q. set (R := split n) in *. clearbody R. rewrite Eq. unfold dep240.
  pose proof (log_step 240 R q _ ltac:(lia) ltac:(lia) ltac:(lia) B) as HH. clear B.
  set (a := Z.log2 (q ^ 240)) in *. set (b := Z.log2 ((R * q) ^ 240)) in *. assert (0 <= a)%Z by apply Z.log2_nonneg. clearbody a b. lia.
Qed.
Lemma dep240_le n m : (0 < n)%Z -> (n <= 2 ^ Z.of_nat m)%Z -> (dep240 n <= 240 * m)%nat.
Proof.
  intros Hn H. unfold dep240. assert (HH : (Z.log2 (n ^ 240) <= Z.of_nat (240 * m))%Z); [|set (a := Z.log2 (n ^ 240)) in *; clearbody a; lia].
  replace (Z.of_nat (240 * m)) with (Z.log2 (2 ^ Z.of_nat (240 * m))) by (apply Z.log2_pow2; lia). apply Z.log2_le_mono.
  replace (Z.of_nat (240 * m)) with (Z.of_nat m * 240)%Z by lia. rewrite Z.pow_mul_r by lia. apply Z.pow_le_mono_l. lia.
Qed.
(** powers of two only use radix 2, 4 and 8 *)
Definition dep34 (n : Z) : nat := (34 * Z.to_nat (Z.log2 n))%nat.
Lemma pow2_divisor a m : (0 < a)%Z -> (a | 2 ^ Z.of_nat m)%Z -> exists k, a = (2 ^ Z.of_nat k)%Z.
Proof.
  revert a. induction m as [|m IH]; intros a Ha H.
  - exists 0%nat. cbn in *. apply Z.divide_1_r_nonneg in H; lia.
  - destruct (Z.Even_or_Odd a) as [(b & ->)|Od].
    + destruct (IH b ltac:(lia)) as (k & ->).
      { rewrite Nat2Z.inj_succ, Z.pow_succ_r in H by lia. apply Z.mul_divide_cancel_l in H; auto; lia. }
      exists (S k). rewrite Nat2Z.inj_succ, Z.pow_succ_r by lia. auto.
    + apply IH; auto. rewrite Nat2Z.inj_succ, Z.pow_succ_r in H by lia. apply Z.gauss in H; auto.
      destruct Od as (b & ->). apply Z.bezout_1_gcd. exists 1%Z, (- b)%Z. ring.
Qed.
Lemma dep34_ok m n : (1 < n)%Z -> (n | 2 ^ Z.of_nat m)%Z -> smooth31 n -> (dep34 (n / split n)%Z + 6 + Z.to_nat (split n) * cost (split n) <= dep34 n)%nat.
Proof.
  intros Hn D Hsm. destruct (split_smooth n ltac:(lia) Hsm) as [[? _]|[IR (q & Eq & Hq & _)]]; [lia|]. pose proof (radices_bound _ IR) as BR.
  assert (Q : (n / split n = q)%Z) by (rewrite Eq at 1; rewrite Z.mul_comm; apply Z.div_mul; lia). rewrite Q. set (R := split n) in *. clearbody R.
  destruct (pow2_divisor R m ltac:(lia)) as (r & Er). { apply Z.divide_trans with n; [exists q; lia|exact D]. }
  destruct (pow2_divisor q m ltac:(lia)) as (k & Ek). { apply Z.divide_trans with n; [exists R; lia|exact D]. }
  unfold dep34. rewrite Eq, Er, Ek. rewrite <- Z.pow_add_r, !Z.log2_pow2 by lia.
  assert (Hr : (r <= 4)%nat). { destruct (le_lt_dec r 4); auto. assert (2 ^ 5 <= 2 ^ Z.of_nat r)%Z by (apply Z.pow_le_mono_r; lia). lia. }
  rewrite Er in IR. assert (C : (6 + Z.to_nat (2 ^ Z.of_nat r) * cost (2 ^ Z.of_nat r) <= 34 * r)%nat).
  { destruct r as [|[|[|[|[|r]]]]]; [| | | | |lia]; cbn in IR; try (exfalso; clear - IR; intuition discriminate); vm_compute; lia. }
  replace (Z.to_nat (Z.of_nat r + Z.of_nat k)) with (r + k)%nat by lia. rewrite Nat2Z.id. lia.
Qed.
