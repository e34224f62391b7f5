(* Proofs about the LMS filters *)
From Coq Require Import Reals ZArith Lia Lra List.
From Coquelicot Require Import Coquelicot.
From Flocq Require Import Core.
From Verif Require Import Model.Lms Spec.Containers Spec.Dft Spec.Fir Spec.ExactConst Proofs.BaseLemmas Proofs.ShiftProofs Proofs.ContainerProofs Proofs.FftAlg Proofs.CdcProofs.
Import ListNotations.

Section Any.
Context {V : Type} (z : V).
Local Open Scope Z_scope.
Definition hist_at (x : nat -> V) (n : Z) : V := if n <? 0 then z else x (Z.to_nat n).
(** what the window holds during call t, entry i *)
Definition wat (SIZE : Z) (x : nat -> V) (t : nat) (i : Z) : V := hist_at x (Z.of_nat t - (SIZE - 1) + i).
Lemma bip_call (SIZE : Z) (x : nat -> V) t b : 0 < SIZE -> bip_inv SIZE z (map x (seq 0 t)) b ->
  exists b', bip_push SIZE b (x t) = Ok (b', bip_ptr b') /\ bip_inv SIZE z (map x (seq 0 (S t))) b' /\
  forall i, 0 <= i < SIZE -> bip_read b' (bip_ptr b') i = Ok (wat SIZE x t i).
Proof.
  intros HS H. destruct (bip_push_inv SIZE HS z _ _ (x t) H) as (b' & E & I). exists b'. split; [auto|].
  assert (I' : bip_inv SIZE z (map x (seq 0 (S t))) b') by (rewrite seq_S, map_app; exact I). split; [auto|]. intros i Hi.
  unfold bip_read. apply get_Some. rewrite (bip_read_inv SIZE HS z _ _ I') by auto. rewrite znth_nonneg by lia. rewrite window_nth_full by lia. rewrite map_length, seq_length.
  unfold wat, hist_at. destruct (Nat.ltb_spec (S t + Z.to_nat i) (Z.to_nat SIZE)).
  - rewrite (proj2 (Z.ltb_lt _ 0)) by lia. reflexivity.
  - rewrite (proj2 (Z.ltb_ge _ 0)) by lia. rewrite nth_error_map, (nth_error_nth' _ O) by (rewrite seq_length; lia). rewrite seq_nth by lia. cbn [option_map]. do 2 f_equal. lia.
Qed.
Lemma upd_loop (rd : Z -> outcome V) (w : Z -> V) (g : V -> V -> V) (n : nat) (f : list V) :
  length f = n -> (forall i, 0 <= i < Z.of_nat n -> rd i = Ok (w i)) ->
  exists f', for_loop n 0 (fun i fl => v <- get fl i ;; h <- rd i ;; set fl i (g v h)) f = Ok f' /\ length f' = n /\
  forall i, (i < n)%nat -> nth i f' z = g (nth i f z) (w (Z.of_nat i)).
Proof.
  intros L R. destruct (for_loop_inv (fun k f' => zlen f' = Z.of_nat n /\ forall i, (i < n)%nat -> znth f' (Z.of_nat i) = Some (if Z.of_nat i <? k then g (nth i f z) (w (Z.of_nat i)) else nth i f z))
    (fun i fl => v <- get fl i ;; h <- rd i ;; set fl i (g v h)) n 0 f) as (f' & E & (L' & N')).
  - split; [unfold zlen; lia|]. intros i Hi. destruct (Z.ltb_spec (Z.of_nat i) 0); [lia|]. rewrite znth_nth_error. apply nth_error_nth'. lia.
  - intros j f' Hj [L' N']. pose proof (N' (Z.to_nat j) ltac:(lia)) as Q. rewrite Z2Nat.id in Q by lia. rewrite (proj2 (Z.ltb_ge j j)) in Q by lia.
    rewrite (get_Some _ _ _ Q). cbn [bind]. rewrite R by lia. cbn [bind]. rewrite set_in_range by lia. eexists. split; [reflexivity|]. split; [rewrite zlen_zupd; auto|].
    intros i Hi. rewrite znth_zupd by lia. destruct (Z.eqb_spec (Z.of_nat i) j) as [Eq|Ne].
    + subst j. rewrite (proj2 (Z.ltb_lt _ _)) by lia. rewrite Nat2Z.id. reflexivity.
    + rewrite N' by auto. destruct (Z.ltb_spec (Z.of_nat i) j), (Z.ltb_spec (Z.of_nat i) (j + 1)); auto; lia.
  - exists f'. split; [auto|]. split; [unfold zlen in L'; lia|]. intros i Hi. specialize (N' i Hi). rewrite (proj2 (Z.ltb_lt _ _)) in N' by lia.
    rewrite znth_nth_error in N'. apply (nth_error_nth _ _ z) in N'. auto.
Qed.
Lemma list_get (f : list V) n i : length f = n -> 0 <= i < Z.of_nat n -> get f i = Ok (nth (Z.to_nat i) f z).
Proof. intros L H. apply get_Some. rewrite znth_nonneg by lia. apply nth_error_nth'. lia. Qed.
End Any.

Open Scope R_scope.
Lemma Rsumn_ext n f g : (forall i, (i < n)%nat -> f i = g i) -> Rsumn n f = Rsumn n g.
Proof. induction n as [|n IH]; intros H; [reflexivity|]. cbn [Rsumn]. rewrite IH, H by (auto; intros; apply H; lia). reflexivity. Qed.
Lemma Rsumn_plus n f g : Rsumn n (fun i => f i + g i) = Rsumn n f + Rsumn n g.
Proof. induction n as [|n IH]; cbn [Rsumn]; [ring|rewrite IH; ring]. Qed.
Lemma Rsumn_scal n c f : Rsumn n (fun i => c * f i) = c * Rsumn n f.
Proof. induction n as [|n IH]; cbn [Rsumn]; [ring|rewrite IH; ring]. Qed.
Lemma Rsumn_nonneg n f : (forall i, (i < n)%nat -> 0 <= f i) -> 0 <= Rsumn n f.
Proof. induction n as [|n IH]; intros H; cbn [Rsumn]; [lra|]. pose proof (H n ltac:(lia)). specialize (IH ltac:(intros; apply H; lia)). lra. Qed.
Lemma Rsumn_zero n f : (forall i, (i < n)%nat -> 0 <= f i) -> Rsumn n f = 0 -> forall i, (i < n)%nat -> f i = 0.
Proof.
  induction n as [|n IH]; intros H E i Hi; [lia|]. cbn [Rsumn] in E. pose proof (H n ltac:(lia)). pose proof (Rsumn_nonneg n f ltac:(intros; apply H; lia)).
  destruct (Nat.eq_dec i n) as [->|]; [lra|]. apply IH; try lia; [intros; apply H; lia|lra].
Qed.
Lemma loop_Rsum n (body : Z -> R -> outcome R) (g : nat -> R) : (forall i s, (i < n)%nat -> body (Z.of_nat i) s = Ok (s + g i)) -> for_loop n 0 body 0 = Ok (Rsumn n g).
Proof.
  intros H. rewrite (for_loop_fold _ _ _ (fun s j => s + g (Z.to_nat j))) by (intros j s Hj; rewrite <- (Z2Nat.id j) at 1 by lia; apply H; lia). f_equal.
  clear H body. induction n as [|n IH]; [reflexivity|]. rewrite seq_S, map_app, fold_left_app, IH. cbn [map fold_left Nat.add Rsumn]. do 2 f_equal. lia.
Qed.
Lemma loop_Csum n (body : Z -> C -> outcome C) (g : nat -> C) : (forall i s, (i < n)%nat -> body (Z.of_nat i) s = Ok (s + g i)%C) -> for_loop n 0 body (RtoC 0) = Ok (Csum n g).
Proof.
  intros H. rewrite (for_loop_fold _ _ _ (fun s j => (s + g (Z.to_nat j))%C)) by (intros j s Hj; rewrite <- (Z2Nat.id j) at 1 by lia; apply H; lia). f_equal.
  clear H body. induction n as [|n IH]; [reflexivity|]. rewrite seq_S, map_app, fold_left_app, IH. cbn [map fold_left Nat.add Csum]. do 2 f_equal. lia.
Qed.

(** one call of NLMS *)
Lemma nlms_call (n : nat) (x d mu : nat -> R) t s : (1 <= n)%nat -> length (lm_filter s) = n -> bip_inv (Z.of_nat n) 0 (map x (seq 0 t)) (lm_history s) ->
  exists s', let f i := nth i (lm_filter s) 0 in let f' i := nth i (lm_filter s') 0 in let w i := wat 0 (Z.of_nat n) x t (Z.of_nat i) in
  let e := d t - Rsumn n (fun i => f i * w i) in let P := Rsumn n (fun i => w i * w i) in
  nlms_step Rn (Z.of_nat n) s (x t, d t, mu t) = Ok (s', e) /\ length (lm_filter s') = n /\ bip_inv (Z.of_nat n) 0 (map x (seq 0 (S t))) (lm_history s') /\
  (P = 0 -> lm_filter s' = lm_filter s) /\ (P <> 0 -> forall i, (i < n)%nat -> f' i = f i + mu t / P * e * w i).
Proof.
  intros Hn L I. destruct (bip_call 0 (Z.of_nat n) x t _ ltac:(lia) I) as (b & E & I' & Rd). unfold nlms_step. rewrite E. cbn [bind]. rewrite Nat2Z.id.
  set (w := fun i => wat 0 (Z.of_nat n) x t (Z.of_nat i)). set (f := fun i => nth i (lm_filter s) 0).
  rewrite (loop_Rsum n _ (fun i => f i * w i)).
  2:{ intros i a Hi. rewrite (list_get 0 _ n) by (auto; lia). cbn [bind]. rewrite Rd by lia. cbn [bind]. rewrite Nat2Z.id. reflexivity. }
  cbn [bind]. rewrite (loop_Rsum n _ (fun i => w i * w i)).
  2:{ intros i a Hi. rewrite Rd by lia. reflexivity. }
  cbn [bind nsub Rn neqb nofZ]. set (P := Rsumn n (fun i => w i * w i)). set (e := d t - _). destruct (Req_bool_spec P 0) as [Z|NZ].
  - exists (mkLms b (lm_filter s)). cbv zeta. cbn [lm_filter lm_history]. split; [reflexivity|]. split; [auto|]. split; [auto|]. split; [auto|]. intros C. exfalso. apply C. exact Z.
  - destruct (upd_loop 0 (bip_read b (bip_ptr b)) (wat 0 (Z.of_nat n) x t) (fun v h => v + mu t / P * e * h) n (lm_filter s) L) as (f' & Ef & Lf & Nf); [intros; apply Rd; lia|].
    cbn [nadd nmul ndiv Rn]. rewrite Ef. cbn [bind]. exists (mkLms b f'). cbv zeta. cbn [lm_filter lm_history]. split; [reflexivity|]. split; [auto|]. split; [auto|].
    split; [intros C; exfalso; apply NZ; exact C|]. intros _ i Hi. apply Nf; auto.
Qed.
(** one call of NCLMS, in terms of the inputs themselves *)
Lemma wat_conj n x t i : wat (RtoC 0) n (fun k => Cconj (x k)) t i = Cconj (wat (RtoC 0) n x t i).
Proof. unfold wat, hist_at. destruct (_ <? 0)%Z; [unfold Cconj, RtoC; cbn [fst snd]; rewrite Ropp_0; reflexivity|reflexivity]. Qed.
Lemma nclms_call (n : nat) (x d : nat -> C) (mu : nat -> R) t s : (1 <= n)%nat -> length (lm_filter s) = n -> bip_inv (Z.of_nat n) (RtoC 0) (map (fun k => Cconj (x k)) (seq 0 t)) (lm_history s) ->
  exists s', let f i := nth i (lm_filter s) (RtoC 0) in let f' i := nth i (lm_filter s') (RtoC 0) in let w i := wat (RtoC 0) (Z.of_nat n) x t (Z.of_nat i) in
  let e := (d t - Csum n (fun i => f i * w i))%C in let P := Rsumn n (fun i => (Cmod (w i))^2) in
  nclms_step Rn (Z.of_nat n) s (x t, d t, mu t) = Ok (s', e) /\ length (lm_filter s') = n /\ bip_inv (Z.of_nat n) (RtoC 0) (map (fun k => Cconj (x k)) (seq 0 (S t))) (lm_history s') /\
  (P = 0 -> lm_filter s' = lm_filter s) /\ (P <> 0 -> forall i, (i < n)%nat -> f' i = (f i + RtoC (mu t / P) * e * Cconj (w i))%C).
Proof.
  intros Hn L I. destruct (bip_call (RtoC 0) (Z.of_nat n) (fun k => Cconj (x k)) t _ ltac:(lia) I) as (b & E & I' & Rd). unfold nclms_step.
  change (cconj Rn (x t)) with (Cconj (x t)). change (cplx R) with C. rewrite E. cbn [bind]. rewrite Nat2Z.id.
  set (w := fun i => wat (RtoC 0) (Z.of_nat n) x t (Z.of_nat i)). set (f := fun i => nth i (lm_filter s) (RtoC 0)). change (cofr Rn (n0 Rn)) with (RtoC 0).
  rewrite (loop_Csum n _ (fun i => Cconj (f i) * Cconj (w i))%C).
  2:{ intros i a Hi. rewrite (list_get (RtoC 0) _ n) by (auto; lia). cbn [bind]. rewrite Rd by lia. cbn [bind]. rewrite Nat2Z.id, wat_conj. fold (f i). fold (w i).
      f_equal. unfold cadd_eq. change (cadd Rn ?a ?b) with (Cplus a b). rewrite Cplus_comm. reflexivity. }
  cbn [bind]. change (n0 Rn) with 0. rewrite (loop_Rsum n _ (fun i => (Cmod (w i))^2)).
  2:{ intros i a Hi. rewrite Rd by lia. cbn [bind]. rewrite wat_conj. fold (w i). cbn [nadd Rn]. do 2 f_equal. unfold cnorm, creal, cimag, Cconj. cbn [fst snd nadd nmul Rn]. unfold Cmod. rewrite pow2_sqrt by (pose proof (pow2_ge_0 (fst (w i))); pose proof (pow2_ge_0 (snd (w i))); lra). ring. }
  cbn [bind neqb nofZ Rn]. set (P := Rsumn n (fun i => Cmod (w i) ^ 2)).
  assert (Ee : cconj Rn (csub Rn (cconj Rn (d t)) (Csum n (fun i => (Cconj (f i) * Cconj (w i))%C))) = (d t - Csum n (fun i => f i * w i))%C).
  { rewrite (Csum_ext n _ (fun i => Cconj (f i * w i))%C) by (intros i _; unfold Cconj, Cmult; cbn; f_equal; ring). rewrite <- Cconj_sum. set (q := Csum n _). unfold cconj, csub, creal, cimag, Cconj, Cminus, Cplus, Copp. cbn. f_equal; ring. }
  rewrite Ee. set (e := (d t - _)%C). destruct (Req_bool_spec P 0) as [Z|NZ].
  - exists (mkLms b (lm_filter s)). cbv zeta. cbn [lm_filter lm_history]. split; [reflexivity|]. split; [auto|]. split; [auto|]. split; [auto|]. intros C. exfalso. apply C. exact Z.
  - destruct (upd_loop (RtoC 0) (bip_read b (bip_ptr b)) (wat (RtoC 0) (Z.of_nat n) (fun k => Cconj (x k)) t) (fun v h => cadd_eq Rn v (cmul Rn (cscale Rn (mu t / P) e) h)) n (lm_filter s) L) as (f' & Ef & Lf & Nf); [intros; apply Rd; lia|].
    cbn [ndiv Rn]. rewrite Ef. cbn [bind]. exists (mkLms b f'). cbv zeta. cbn [lm_filter lm_history]. split; [reflexivity|]. split; [auto|]. split; [auto|].
    split; [intros C; exfalso; apply NZ; exact C|]. intros _ i Hi. rewrite Nf by auto. rewrite wat_conj. fold (f i). fold (w i). change (Rsumn n (fun i0 => Cmod (wat (RtoC 0) (Z.of_nat n) x t (Z.of_nat i0)) ^ 2)) with P. unfold cadd_eq, cadd, cmul, cscale, creal, cimag, Cplus, Cmult, RtoC. cbn [fst snd nadd nsub nmul Rn]. f_equal; ring.
Qed.

(** the algebra *)
Lemma nlms_posteriori n (f w : nat -> R) (d r e : R) : Rsumn n (fun i => (f i + r * e * w i) * w i) = Rsumn n (fun i => f i * w i) + r * e * Rsumn n (fun i => w i * w i).
Proof. rewrite <- Rsumn_scal, <- Rsumn_plus. apply Rsumn_ext. intros. ring. Qed.
Lemma nlms_distance n (f g w : nat -> R) (r e : R) : e = Rsumn n (fun i => g i * w i) - Rsumn n (fun i => f i * w i) ->
  Rsumn n (fun i => (f i + r * e * w i - g i) ^ 2) = Rsumn n (fun i => (f i - g i) ^ 2) - (2 * r - r * r * Rsumn n (fun i => w i * w i)) * e ^ 2.
Proof.
  intros E. assert (S : Rsumn n (fun i => (f i - g i) * w i) = - e).
  { rewrite E, (Rsumn_ext n _ (fun i => f i * w i + -1 * (g i * w i))), Rsumn_plus, Rsumn_scal by (intros; ring). ring. }
  rewrite (Rsumn_ext n _ (fun i => (f i - g i) ^ 2 + (2 * (r * e) * ((f i - g i) * w i) + r * e * (r * e) * (w i * w i)))) by (intros; ring).
  rewrite !Rsumn_plus, !Rsumn_scal, S. ring.
Qed.
Lemma Csum_re n f : Re (Csum n f) = Rsumn n (fun i => Re (f i)).
Proof. induction n as [|n IH]; [reflexivity|]. cbn [Csum Rsumn]. rewrite <- IH. reflexivity. Qed.
Lemma nclms_distance n (f g w : nat -> C) (r : R) (e : C) : e = (Csum n (fun i => g i * w i) - Csum n (fun i => f i * w i))%C ->
  Rsumn n (fun i => (Cmod (f i + RtoC r * e * Cconj (w i) - g i)%C) ^ 2) = Rsumn n (fun i => (Cmod (f i - g i)%C) ^ 2) - (2 * r - r * r * Rsumn n (fun i => (Cmod (w i)) ^ 2)) * (Cmod e) ^ 2.
Proof.
  intros E. assert (M2 : forall z : C, (Cmod z) ^ 2 = fst z * fst z + snd z * snd z).
  { intros z. unfold Cmod. rewrite pow2_sqrt by (pose proof (pow2_ge_0 (fst z)); pose proof (pow2_ge_0 (snd z)); lra). ring. }
  assert (S : Csum n (fun i => (f i - g i) * w i)%C = (- e)%C).
  { rewrite E. rewrite (Csum_ext n _ (fun i => (f i * w i - g i * w i)%C)) by (intros; ring). rewrite Csum_minus. ring. }
  assert (S2 : Rsumn n (fun i => Re (Cconj e * ((f i - g i) * w i))%C) = - (Cmod e)^2).
  { rewrite <- Csum_re, Csum_scal, S, M2. unfold Cconj, Re, Cmult, Copp. cbn. ring. }
  rewrite (Rsumn_ext n _ (fun i => (Cmod (f i - g i)%C) ^ 2 + (2 * r * Re (Cconj e * ((f i - g i) * w i))%C + r * r * (Cmod e)^2 * (Cmod (w i)) ^ 2))).
  - rewrite !Rsumn_plus, !Rsumn_scal, S2. ring.
  - intros i _. rewrite !M2. destruct (f i), (g i), (w i), e. unfold Re, Cconj, Cminus, Copp, Cplus, Cmult, RtoC. cbn. ring.
Qed.
