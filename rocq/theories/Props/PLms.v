(* Theorems about the least mean squares filters (lms.hh) *)
From Coq Require Import Reals ZArith Lia Lra List.
From Coquelicot Require Import Coquelicot.
From Verif Require Import Model.Lms Spec.Dft Spec.Fir Proofs.BaseLemmas Proofs.ContainerProofs Proofs.FftAlg Proofs.CdcProofs Proofs.LmsProofs.
Import ListNotations.
Open Scope R_scope.

(** the window during call t, oldest sample first; samples before the first call are zero *)
Definition rwin (n : nat) (x : nat -> R) (t i : nat) : R := let k := (Z.of_nat t - (Z.of_nat n - 1) + Z.of_nat i)%Z in if (k <? 0)%Z then 0 else x (Z.to_nat k).
Definition cwin (n : nat) (x : nat -> C) (t i : nat) : C := let k := (Z.of_nat t - (Z.of_nat n - 1) + Z.of_nat i)%Z in if (k <? 0)%Z then RtoC 0 else x (Z.to_nat k).

Lemma nlms_states (n : nat) (x d mu : nat -> R) (t : nat) : (1 <= n)%nat ->
  exists s, ostate_at (nlms_step Rn (Z.of_nat n)) (Ok (nlms_new Rn (Z.of_nat n))) (fun k => (x k, d k, mu k)) t = Ok s /\ length (lm_filter s) = n /\ bip_inv (Z.of_nat n) 0 (map x (seq 0 t)) (lm_history s).
Proof.
  intros Hn. induction t as [|t (s & E & L & I)].
  - eexists. split; [reflexivity|]. unfold nlms_new. cbn [lm_filter lm_history]. rewrite Nat2Z.id, repeat_length. split; [auto|]. apply bip_new_inv. lia.
  - destruct (nlms_call n x d mu t s Hn L I) as (s' & E' & L' & I' & _). exists s'. cbn [ostate_at]. rewrite E. cbn [bind]. rewrite E'. auto.
Qed.
Lemma nclms_states (n : nat) (x d : nat -> C) (mu : nat -> R) (t : nat) : (1 <= n)%nat ->
  exists s, ostate_at (nclms_step Rn (Z.of_nat n)) (Ok (nclms_new Rn (Z.of_nat n))) (fun k => (x k, d k, mu k)) t = Ok s /\ length (lm_filter s) = n /\ bip_inv (Z.of_nat n) (RtoC 0) (map (fun k => Cconj (x k)) (seq 0 t)) (lm_history s).
Proof.
  intros Hn. induction t as [|t (s & E & L & I)].
  - eexists. split; [reflexivity|]. unfold nclms_new. cbn [lm_filter lm_history]. rewrite Nat2Z.id, repeat_length. split; [auto|]. apply (bip_new_inv (Z.of_nat n) ltac:(lia) (RtoC 0)).
  - destruct (nclms_call n x d mu t s Hn L I) as (s' & E' & L' & I' & _). exists s'. cbn [ostate_at]. rewrite E. cbn [bind]. rewrite E'. auto.
Qed.

(** C67  Every call of NLMS succeeds and returns the a-priori error on the current window; with non-zero power the
    error of the new filter on the same window is (1-mu) times it, with zero power the filter is unchanged. *)
Theorem C67_call (n : nat) (x d mu : nat -> R) (t : nat) : (1 <= n)%nat ->
  let st := ostate_at (nlms_step Rn (Z.of_nat n)) (Ok (nlms_new Rn (Z.of_nat n))) (fun k => (x k, d k, mu k)) in
  let w := rwin n x t in let P := Rsumn n (fun i => w i * w i) in let err f := d t - Rsumn n (fun i => nth i f 0 * w i) in
  exists s s', st t = Ok s /\ st (S t) = Ok s' /\ length (lm_filter s) = n /\ length (lm_filter s') = n /\
  oout (nlms_step Rn (Z.of_nat n)) (Ok (nlms_new Rn (Z.of_nat n))) (fun k => (x k, d k, mu k)) t = Ok (err (lm_filter s)) /\
  (P <> 0 -> err (lm_filter s') = (1 - mu t) * err (lm_filter s)) /\ (P = 0 -> lm_filter s' = lm_filter s).
Proof.
  intros Hn st w P err. destruct (nlms_states n x d mu t Hn) as (s & E & L & I). destruct (nlms_call n x d mu t s Hn L I) as (s' & E' & L' & I' & Z & NZ). exists s, s'.
  split; [exact E|]. split; [unfold st; cbn [ostate_at]; rewrite E; cbn [bind]; rewrite E'; reflexivity|]. split; [auto|]. split; [auto|]. split; [unfold oout; rewrite E; cbn [bind]; rewrite E'; reflexivity|].
  split; [|exact Z]. intros Hp. specialize (NZ Hp). unfold err. rewrite (Rsumn_ext n _ (fun i => (nth i (lm_filter s) 0 + mu t / P * err (lm_filter s) * w i) * w i)) by (intros i Hi; rewrite (NZ i Hi); reflexivity).
  rewrite nlms_posteriori by exact 0. fold P. fold (err (lm_filter s)). set (q := Rsumn n (fun i => nth i (lm_filter s) 0 * w i)). set (e := err _). assert (e = d t - q) by reflexivity. replace (mu t / P * e * P) with (mu t * e) by (field; auto). rewrite H. ring.
Qed.
Print Assumptions C67_call.
(** C67  Targets made by a fixed filter g: the squared distance of the coefficients to g shrinks by exactly
    mu (2 - mu) e^2 / P in every call with power P > 0, so it never grows for 0 <= mu <= 2. *)
Theorem C67_distance (n : nat) (x d mu : nat -> R) (g : nat -> R) : (1 <= n)%nat -> (forall t, 0 <= mu t <= 2) -> (forall t, d t = Rsumn n (fun i => g i * rwin n x t i)) ->
  let st := ostate_at (nlms_step Rn (Z.of_nat n)) (Ok (nlms_new Rn (Z.of_nat n))) (fun k => (x k, d k, mu k)) in
  let dist f := Rsumn n (fun i => (nth i f 0 - g i) ^ 2) in
  forall t, let P := Rsumn n (fun i => rwin n x t i * rwin n x t i) in exists s s' e, st t = Ok s /\ st (S t) = Ok s' /\
  oout (nlms_step Rn (Z.of_nat n)) (Ok (nlms_new Rn (Z.of_nat n))) (fun k => (x k, d k, mu k)) t = Ok e /\
  dist (lm_filter s') = dist (lm_filter s) - mu t * (2 - mu t) * (e ^ 2 / P) /\ 0 <= mu t * (2 - mu t) * (e ^ 2 / P) /\ dist (lm_filter s') <= dist (lm_filter s).
Proof.
  intros Hn Hm Hd st dist t P. destruct (nlms_states n x d mu t Hn) as (s & E & L & I). destruct (nlms_call n x d mu t s Hn L I) as (s' & E' & L' & I' & Z & NZ).
  set (e := d t - Rsumn n (fun i => nth i (lm_filter s) 0 * rwin n x t i)). exists s, s', e.
  split; [exact E|]. split; [unfold st; cbn [ostate_at]; rewrite E; cbn [bind]; rewrite E'; reflexivity|]. split; [unfold oout; rewrite E; cbn [bind]; rewrite E'; reflexivity|].
  specialize (Hm t). assert (Pp : 0 <= P) by (apply Rsumn_nonneg; intros; apply Rle_0_sqr).
  assert (Q : 0 <= mu t * (2 - mu t) * (e ^ 2 / P)).
  { apply Rmult_le_pos; [apply Rmult_le_pos; lra|]. destruct Pp as [Pp|<-]; [apply Rmult_le_pos; [apply pow2_ge_0|apply Rlt_le, Rinv_0_lt_compat; auto]|]. unfold Rdiv. rewrite Rinv_0. lra. }
  assert (D : dist (lm_filter s') = dist (lm_filter s) - mu t * (2 - mu t) * (e ^ 2 / P)); [|split; [exact D|split; [exact Q|]]; rewrite D; lra].
  destruct (Req_dec P 0) as [P0|P0].
  - rewrite (Z P0), P0. unfold Rdiv. rewrite Rinv_0. ring.
  - specialize (NZ P0). unfold dist. rewrite (Rsumn_ext n _ (fun i => (nth i (lm_filter s) 0 + mu t / P * e * rwin n x t i - g i) ^ 2)) by (intros i Hi; rewrite (NZ i Hi); reflexivity).
    rewrite (nlms_distance n (fun i => nth i (lm_filter s) 0) g (rwin n x t) (mu t / P) e) by (unfold e; rewrite Hd; reflexivity). fold P. field. auto.
Qed.
Print Assumptions C67_distance.
(** C67  On every history: the distance is at most that of the zero filter, and the normalised squared errors have a
    bounded sum. *)
Theorem C67_history (n : nat) (x d mu : nat -> R) (g : nat -> R) : (1 <= n)%nat -> (forall t, 0 <= mu t <= 2) -> (forall t, d t = Rsumn n (fun i => g i * rwin n x t i)) ->
  exists (e : nat -> R), (forall t, oout (nlms_step Rn (Z.of_nat n)) (Ok (nlms_new Rn (Z.of_nat n))) (fun k => (x k, d k, mu k)) t = Ok (e t)) /\
  forall t, exists s, ostate_at (nlms_step Rn (Z.of_nat n)) (Ok (nlms_new Rn (Z.of_nat n))) (fun k => (x k, d k, mu k)) t = Ok s /\
  Rsumn n (fun i => (nth i (lm_filter s) 0 - g i) ^ 2) + Rsumn t (fun k => mu k * (2 - mu k) * (e k ^ 2 / Rsumn n (fun i => rwin n x k i * rwin n x k i))) = Rsumn n (fun i => g i ^ 2).
Proof.
  intros Hn Hm Hd. set (e := fun t => match oout (nlms_step Rn (Z.of_nat n)) (Ok (nlms_new Rn (Z.of_nat n))) (fun k => (x k, d k, mu k)) t with Ok v => v | _ => 0 end).
  pose proof (C67_distance n x d mu g Hn Hm Hd) as D. cbv zeta in D.
  assert (Ee : forall t, oout (nlms_step Rn (Z.of_nat n)) (Ok (nlms_new Rn (Z.of_nat n))) (fun k => (x k, d k, mu k)) t = Ok (e t)).
  { intros t. destruct (D t) as (s & s' & v & _ & _ & O & _). unfold e. rewrite O. reflexivity. }
  exists e. split; [exact Ee|]. induction t as [|t (s & E & IH)].
  - exists (nlms_new Rn (Z.of_nat n)). split; [reflexivity|]. cbn [Rsumn]. rewrite Rplus_0_r. apply Rsumn_ext. intros i Hi. unfold nlms_new. cbn [lm_filter]. rewrite nth_repeat. cbn [n0 Rn]. ring.
  - destruct (D t) as (s1 & s' & v & E1 & E' & O & Dd & _). rewrite E in E1. injection E1 as <-. rewrite Ee in O. injection O as <-. exists s'. split; [exact E'|]. cbn [Rsumn]. rewrite Dd, <- IH. ring.
Qed.
Print Assumptions C67_history.
Example C67_example : Rsumn 1 (fun i => rwin 1 (fun _ => 2) 0 i * rwin 1 (fun _ => 2) 0 i) = 4 /\ Rsumn 1 (fun i => 3 * rwin 1 (fun _ => 2) 0 i) = 6.
Proof. cbn. split; ring. Qed.

(** C68  The same for NCLMS: the error is d - sum f_i x_i. *)
Theorem C68_call (n : nat) (x d : nat -> C) (mu : nat -> R) (t : nat) : (1 <= n)%nat ->
  let st := ostate_at (nclms_step Rn (Z.of_nat n)) (Ok (nclms_new Rn (Z.of_nat n))) (fun k => (x k, d k, mu k)) in
  let w := cwin n x t in let P := Rsumn n (fun i => Cmod (w i) ^ 2) in let err f := (d t - Csum n (fun i => nth i f (RtoC 0) * w i))%C in
  exists s s', st t = Ok s /\ st (S t) = Ok s' /\ length (lm_filter s) = n /\ length (lm_filter s') = n /\
  oout (nclms_step Rn (Z.of_nat n)) (Ok (nclms_new Rn (Z.of_nat n))) (fun k => (x k, d k, mu k)) t = Ok (err (lm_filter s)) /\
  (P <> 0 -> err (lm_filter s') = (RtoC (1 - mu t) * err (lm_filter s))%C) /\ (P = 0 -> lm_filter s' = lm_filter s).
Proof.
  intros Hn st w P err. destruct (nclms_states n x d mu t Hn) as (s & E & L & I). destruct (nclms_call n x d mu t s Hn L I) as (s' & E' & L' & I' & Z & NZ). exists s, s'.
  split; [exact E|]. split; [unfold st; cbn [ostate_at]; rewrite E; cbn [bind]; rewrite E'; reflexivity|]. split; [auto|]. split; [auto|]. split; [unfold oout; rewrite E; cbn [bind]; rewrite E'; reflexivity|].
  split; [|exact Z]. intros Hp. specialize (NZ Hp). set (e := err (lm_filter s)). unfold err.
  rewrite (Csum_ext n _ (fun i => (nth i (lm_filter s) (RtoC 0) * w i + RtoC (mu t / P) * e * RtoC (Cmod (w i) ^ 2))%C)).
  - rewrite Csum_plus, Csum_scal. assert (S : Csum n (fun k => RtoC (Cmod (w k) ^ 2)) = RtoC P) by (symmetry; apply CdcProofs.RtoC_sum).
    rewrite S. set (q := Csum n (fun i => (nth i (lm_filter s) (RtoC 0) * w i)%C)). assert (Eq : e = (d t - q)%C) by reflexivity.
    assert (X : (RtoC (mu t / P) * e * RtoC P)%C = (RtoC (mu t) * e)%C).
    { transitivity (RtoC (mu t / P) * RtoC P * e)%C; [ring|]. rewrite <- RtoC_mult. do 2 f_equal. field. auto. }
    rewrite X.
    replace (d t - (q + RtoC (mu t) * e))%C with ((d t - q) - RtoC (mu t) * e)%C by ring. rewrite <- Eq, RtoC_minus. ring.
  - intros i Hi. assert (Q := NZ i Hi). change (nth i (lm_filter s') (RtoC 0) = (nth i (lm_filter s) (RtoC 0) + RtoC (mu t / P) * e * Cconj (w i))%C) in Q. change (cplx R) with C in *. rewrite Q.
    assert (M : (Cconj (w i) * w i)%C = RtoC (Cmod (w i) ^ 2)).
    { unfold Cmod. rewrite pow2_sqrt by (pose proof (pow2_ge_0 (fst (w i))); pose proof (pow2_ge_0 (snd (w i))); lra). unfold Cconj, Cmult, RtoC. cbn. f_equal; ring. }
    rewrite <- M. ring.
Qed.
Print Assumptions C68_call.
Theorem C68_distance (n : nat) (x d : nat -> C) (mu : nat -> R) (g : nat -> C) : (1 <= n)%nat -> (forall t, 0 <= mu t <= 2) -> (forall t, d t = Csum n (fun i => g i * cwin n x t i)%C) ->
  let st := ostate_at (nclms_step Rn (Z.of_nat n)) (Ok (nclms_new Rn (Z.of_nat n))) (fun k => (x k, d k, mu k)) in
  let dist f := Rsumn n (fun i => Cmod (nth i f (RtoC 0) - g i)%C ^ 2) in
  forall t, let P := Rsumn n (fun i => Cmod (cwin n x t i) ^ 2) in exists s s' e, st t = Ok s /\ st (S t) = Ok s' /\
  oout (nclms_step Rn (Z.of_nat n)) (Ok (nclms_new Rn (Z.of_nat n))) (fun k => (x k, d k, mu k)) t = Ok e /\
  dist (lm_filter s') = dist (lm_filter s) - mu t * (2 - mu t) * (Cmod e ^ 2 / P) /\ 0 <= mu t * (2 - mu t) * (Cmod e ^ 2 / P) /\ dist (lm_filter s') <= dist (lm_filter s).
Proof.
  intros Hn Hm Hd st dist t P. destruct (nclms_states n x d mu t Hn) as (s & E & L & I). destruct (nclms_call n x d mu t s Hn L I) as (s' & E' & L' & I' & Z & NZ).
  set (e := (d t - Csum n (fun i => nth i (lm_filter s) (RtoC 0) * cwin n x t i))%C). exists s, s', e.
  split; [exact E|]. split; [unfold st; cbn [ostate_at]; rewrite E; cbn [bind]; rewrite E'; reflexivity|]. split; [unfold oout; rewrite E; cbn [bind]; rewrite E'; reflexivity|].
  specialize (Hm t). assert (Pp : 0 <= P) by (apply Rsumn_nonneg; intros; apply pow2_ge_0).
  assert (Q : 0 <= mu t * (2 - mu t) * (Cmod e ^ 2 / P)).
  { apply Rmult_le_pos; [apply Rmult_le_pos; lra|]. destruct Pp as [Pp|<-]; [apply Rmult_le_pos; [apply pow2_ge_0|apply Rlt_le, Rinv_0_lt_compat; auto]|]. unfold Rdiv. rewrite Rinv_0. lra. }
  assert (D : dist (lm_filter s') = dist (lm_filter s) - mu t * (2 - mu t) * (Cmod e ^ 2 / P)); [|split; [exact D|split; [exact Q|]]; unfold dist in D |- *; change (cplx R) with C in *; rewrite D; lra].
  change (cplx R) with C in *. destruct (Req_dec P 0) as [P0|P0].
  - rewrite (Z P0), P0. unfold Rdiv. rewrite Rinv_0. ring.
  - specialize (NZ P0). unfold dist. rewrite (Rsumn_ext n _ (fun i => Cmod (nth i (lm_filter s) (RtoC 0) + RtoC (mu t / P) * e * Cconj (cwin n x t i) - g i)%C ^ 2)) by (intros i Hi; rewrite (NZ i Hi); reflexivity).
    rewrite (nclms_distance n (fun i => nth i (lm_filter s) (RtoC 0)) g (cwin n x t) (mu t / P) e) by (unfold e; rewrite Hd; reflexivity). fold P. field. auto.
Qed.
Print Assumptions C68_distance.
Theorem C68_history (n : nat) (x d : nat -> C) (mu : nat -> R) (g : nat -> C) : (1 <= n)%nat -> (forall t, 0 <= mu t <= 2) -> (forall t, d t = Csum n (fun i => g i * cwin n x t i)%C) ->
  exists (e : nat -> C), (forall t, oout (nclms_step Rn (Z.of_nat n)) (Ok (nclms_new Rn (Z.of_nat n))) (fun k => (x k, d k, mu k)) t = Ok (e t)) /\
  forall t, exists s, ostate_at (nclms_step Rn (Z.of_nat n)) (Ok (nclms_new Rn (Z.of_nat n))) (fun k => (x k, d k, mu k)) t = Ok s /\
  Rsumn n (fun i => Cmod (nth i (lm_filter s) (RtoC 0) - g i)%C ^ 2) + Rsumn t (fun k => mu k * (2 - mu k) * (Cmod (e k) ^ 2 / Rsumn n (fun i => Cmod (cwin n x k i) ^ 2))) = Rsumn n (fun i => Cmod (g i) ^ 2).
Proof.
  intros Hn Hm Hd. set (e := fun t => match oout (nclms_step Rn (Z.of_nat n)) (Ok (nclms_new Rn (Z.of_nat n))) (fun k => (x k, d k, mu k)) t with Ok v => v | _ => RtoC 0 end).
  pose proof (C68_distance n x d mu g Hn Hm Hd) as D. cbv zeta in D.
  assert (Ee : forall t, oout (nclms_step Rn (Z.of_nat n)) (Ok (nclms_new Rn (Z.of_nat n))) (fun k => (x k, d k, mu k)) t = Ok (e t)).
  { intros t. destruct (D t) as (s & s' & v & _ & _ & O & _). unfold e. rewrite O. reflexivity. }
  exists e. split; [exact Ee|]. induction t as [|t (s & E & IH)].
  - exists (nclms_new Rn (Z.of_nat n)). split; [reflexivity|]. cbn [Rsumn]. rewrite Rplus_0_r. apply Rsumn_ext. intros i Hi. unfold nclms_new. cbn [lm_filter]. change (cofr Rn (n0 Rn)) with (RtoC 0). change (cplx R) with C. rewrite nth_repeat.
    replace (RtoC 0 - g i)%C with (- g i)%C by ring. rewrite Cmod_opp. reflexivity.
  - destruct (D t) as (s1 & s' & v & E1 & E' & O & Dd & _). rewrite E in E1. injection E1 as <-. rewrite Ee in O. injection O as <-. exists s'. split; [exact E'|]. cbn [Rsumn]. change (cplx R) with C in *. rewrite Dd, <- IH. ring.
Qed.
Print Assumptions C68_history.
(** targets of the required form exist for every g, e.g. the one-tap filter i *)
Example C68_example : Csum 1 (fun i => Ci * cwin 1 (fun _ => RtoC 2) 0 i)%C = (Ci * RtoC 2)%C.
Proof. cbn. ring. Qed.
