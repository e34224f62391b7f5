(* C85: objects as their constructors leave them, and files that could not be opened *)
From Coq Require Import Reals ZArith Lia Lra List Floats Bool.
From Coquelicot Require Import Coquelicot.
From Verif Require Import Proofs.BaseLemmas Model.Num64 Model.Ema Model.Biquad Model.Phasor Model.Kahan Model.Demod Model.Stream Model.Wav Model.Netpbm
  Proofs.SignalLemmas Proofs.DemodProofs.
Import ListNotations.
Open Scope R_scope.

(** the samples of a signal are representable: rounding leaves them alone *)
Definition representable (rnd : R -> R) (x : nat -> R) := forall t, rnd (x t) = x t.

Section Pass.
Context (rnd : R -> R) (Z0 : rnd 0 = 0) (Z1 : rnd 1 = 1).
Local Notation F := (Fn rnd).
Lemma lerp_pass (p x : R) : rnd x = x -> lerp F (vreal F) p x 1 = x.
Proof. intros H. unfold lerp. cbn. rewrite Rminus_diag_eq, Z0, Rmult_0_l, Z0, Rmult_1_l, H, Rplus_0_l by auto. auto. Qed.
Lemma lerp_pass_c (p x : C) : rnd (fst x) = fst x -> rnd (snd x) = snd x -> lerp F (vcplx F) p x 1 = x.
Proof.
  intros H I. destruct x as [a b]. cbn in H, I. unfold lerp. cbn. unfold cadd, cscale, creal, cimag. cbn.
  rewrite Rminus_diag_eq, Z0, !Rmult_0_l, Z0, !Rmult_1_l, H, I, !Rplus_0_l, H, I by auto. auto.
Qed.
Lemma loop_pass {V} (M : vsp R V) (x : V) : (forall p, lerp F M p x 1 = x) -> forall prev, snd (emac_loop F M 1 prev x) = x.
Proof. intros H. induction prev as [|p l IH]; cbn; auto. rewrite H. destruct (emac_loop F M 1 l x). auto. Qed.
Lemma alpha_stays {V} (M : vsp R V) (e : emac R V) (x : nat -> V) t : ec_alpha (state_at (emac_step F M) e x t) = ec_alpha e.
Proof. induction t as [|t IH]; cbn [state_at]; auto. unfold emac_step. destruct (emac_loop _ _ _ _ _). cbn. auto. Qed.
Lemma emac_pass {V} (M : vsp R V) k (x : nat -> V) t : (forall p, lerp F M p (x t) 1 = x t) -> out (emac_step F M) (emac_new F M k) x t = x t.
Proof.
  intros H. unfold out, emac_step. pose proof (alpha_stays M (emac_new F M k) x t) as A. unfold emac_step in A. rewrite A. change (ec_alpha (emac_new F M k)) with 1.
  pose proof (loop_pass M (x t) H (ec_prev (state_at (emac_step F M) (emac_new F M k) x t))) as L. unfold emac_step in L. destruct (emac_loop _ _ _ _ _). auto.
Qed.
Definition idle {V} (b : biquad R V) := bq_c b = mkCoefs 1 0 0 0 0.
Lemma idle_step (b : biquad R R) x : idle b -> rnd x = x -> idle (fst (biquad_step (vreal F) b x)) /\ snd (biquad_step (vreal F) b x) = x.
Proof.
  intros I H. unfold biquad_step. rewrite I. cbn. split; [reflexivity|]. repeat progress rewrite ?Rmult_0_l, ?Z0, ?Rmult_1_l, ?Rplus_0_r, ?Rminus_0_r, ?H. auto.
Qed.
Lemma idle_step_c (b : biquad R C) x : idle b -> rnd (fst x) = fst x -> rnd (snd x) = snd x ->
  idle (fst (biquad_step (vcplx F) b x)) /\ snd (biquad_step (vcplx F) b x) = x.
Proof.
  intros I H J. destruct x as [a c]. cbn in H, J. unfold biquad_step. rewrite I. cbn. split; [reflexivity|]. unfold cadd, csub, cscale, creal, cimag. cbn.
  repeat progress rewrite ?Rmult_0_l, ?Z0, ?Rmult_1_l, ?Rplus_0_r, ?Rminus_0_r, ?H, ?J. auto.
Qed.
Lemma idle_cascade (s : list (biquad R R)) x : Forall idle s -> rnd x = x -> Forall idle (fst (bqc_step (vreal F) s x)) /\ snd (bqc_step (vreal F) s x) = x.
Proof.
  intros I H. induction I as [|b s Ib I IH]; [cbn; auto|]. cbn [bqc_step]. destruct (idle_step b x Ib H) as [A B].
  destruct (biquad_step (vreal F) b x) as [b' y]. cbn in A, B. subst y. destruct (bqc_step (vreal F) s x). cbn in *. destruct IH. split; auto.
Qed.
End Pass.

(** C85  A fresh EMA or EMACascade of any order passes every representable input through unchanged, real and
    complex, in any arithmetic that represents 0 and 1. *)
Theorem C85_fresh_ema (rnd : R -> R) (k : nat) (x : nat -> R) (t : nat) : rnd 0 = 0 -> rnd 1 = 1 -> representable rnd x ->
  out (ema_step (Fn rnd) (vreal (Fn rnd))) (mkEma 0 1) x t = x t /\ out (emac_step (Fn rnd) (vreal (Fn rnd))) (emac_new (Fn rnd) (vreal (Fn rnd)) k) x t = x t.
Proof.
  intros H0 H1 H. split.
  - assert (A : em_alpha (state_at (ema_step (Fn rnd) (vreal (Fn rnd))) (mkEma 0 1) x t) = 1) by (induction t; cbn in *; auto).
    unfold out. set (s := state_at _ _ _ _) in *. unfold ema_step. cbn [snd]. rewrite A. apply lerp_pass; auto.
  - apply emac_pass. intros p. apply lerp_pass; auto.
Qed.
Print Assumptions C85_fresh_ema.
Theorem C85_fresh_ema_complex (rnd : R -> R) (k : nat) (x : nat -> C) (t : nat) : rnd 0 = 0 -> rnd 1 = 1 ->
  representable rnd (fun t => fst (x t)) -> representable rnd (fun t => snd (x t)) ->
  out (emac_step (Fn rnd) (vcplx (Fn rnd))) (emac_new (Fn rnd) (vcplx (Fn rnd)) k) x t = x t.
Proof. intros H0 H1 H I. apply emac_pass. intros p. apply lerp_pass_c; auto. Qed.
Print Assumptions C85_fresh_ema_complex.
(** C85  So does a fresh Biquad, and a fresh BiquadCascade of any number of sections. *)
Theorem C85_fresh_biquad (rnd : R -> R) (k : nat) (x : nat -> R) (t : nat) : rnd 0 = 0 -> rnd 1 = 1 -> representable rnd x ->
  out (biquad_step (vreal (Fn rnd))) (biquad_new (Fn rnd) (vreal (Fn rnd))) x t = x t /\
  out (bqc_step (vreal (Fn rnd))) (bqc_new (Fn rnd) (vreal (Fn rnd)) k) x t = x t.
Proof.
  intros H0 H1 H. split.
  - assert (A : idle (state_at (biquad_step (vreal (Fn rnd))) (biquad_new (Fn rnd) (vreal (Fn rnd))) x t)) by (induction t; [reflexivity|cbn [state_at]; apply idle_step; auto]).
    unfold out. apply idle_step; auto.
  - assert (A : Forall idle (state_at (bqc_step (vreal (Fn rnd))) (bqc_new (Fn rnd) (vreal (Fn rnd)) k) x t)).
    { induction t; [|cbn [state_at]; apply idle_cascade; auto]. cbn [state_at]. unfold bqc_new. apply Forall_forall. intros b I. apply repeat_spec in I. subst b. reflexivity. }
    unfold out. apply idle_cascade; auto.
Qed.
Print Assumptions C85_fresh_biquad.
Theorem C85_fresh_biquad_complex (rnd : R -> R) (x : nat -> C) (t : nat) : rnd 0 = 0 -> rnd 1 = 1 ->
  representable rnd (fun t => fst (x t)) -> representable rnd (fun t => snd (x t)) ->
  out (biquad_step (vcplx (Fn rnd))) (biquad_new (Fn rnd) (vcplx (Fn rnd))) x t = x t.
Proof.
  intros H0 H1 H I. assert (A : idle (state_at (biquad_step (vcplx (Fn rnd))) (biquad_new (Fn rnd) (vcplx (Fn rnd))) x t)) by (induction t; [reflexivity|cbn [state_at]; apply idle_step_c; auto]).
  unfold out. apply idle_step_c; auto.
Qed.
Print Assumptions C85_fresh_biquad_complex.
Example C85_applies : representable (fun x => x) (fun t => IZR (Z.of_nat t)).
Proof. intros t. auto. Qed.

(** C85 (refuted)  "Passes every input": in binary64 one infinite sample makes the fresh EMA, and the fresh
    Biquad, return NaN for every later sample (0 * infinity is NaN and NaN stays in the state). *)
Lemma nan_add (y : float) : (nan + y = nan)%float.
Proof. apply Prim2SF_inj. rewrite add_spec. change (Prim2SF nan) with S754_nan. reflexivity. Qed.
Lemma add_nan (y : float) : (y + nan = nan)%float.
Proof. apply Prim2SF_inj. rewrite add_spec. change (Prim2SF nan) with S754_nan. unfold SF64add. destruct (Prim2SF y); reflexivity. Qed.
Lemma sub_nan (y : float) : (y - nan = nan)%float.
Proof. apply Prim2SF_inj. rewrite sub_spec. change (Prim2SF nan) with S754_nan. unfold SF64sub. destruct (Prim2SF y); reflexivity. Qed.
Lemma nan_sub (y : float) : (nan - y = nan)%float.
Proof. apply Prim2SF_inj. rewrite sub_spec. change (Prim2SF nan) with S754_nan. reflexivity. Qed.
Theorem C85_infinity_refuted (x : nat -> float) (t : nat) : x 0%nat = infinity ->
  out (ema_step Dn (vreal Dn)) (mkEma 0%float 1%float) x (S t) = nan /\ out (biquad_step (vreal Dn)) (biquad_new Dn (vreal Dn)) x (S t) = nan.
Proof.
  intros H. assert (N0 : (0%float * nan)%float = nan) by (vm_compute; reflexivity). assert (NI : (0%float * infinity)%float = nan) by (vm_compute; reflexivity).
  assert (OO : (1%float - 1%float)%float = 0%float) by (vm_compute; reflexivity). split.
  - assert (L : forall p y, (p = infinity \/ p = nan) -> ema_step Dn (vreal Dn) (mkEma p 1%float) y = (mkEma nan 1%float, nan)).
    { intros p y D. assert (E : lerp Dn (vreal Dn) p y 1%float = nan); [|unfold ema_step; cbn [em_prev em_alpha]; rewrite E; reflexivity].
      unfold lerp. cbn [vadd vscale vreal nsub nadd nmul n1 Dn]. change (fst (1%float, 1%float)) with 1%float. rewrite OO. destruct D as [-> | ->]; rewrite ?NI, ?N0, nan_add; reflexivity. }
    assert (S1 : forall t, exists p, (p = infinity \/ p = nan) /\ state_at (ema_step Dn (vreal Dn)) (mkEma 0%float 1%float) x (S t) = mkEma p 1%float).
    { induction t0 as [|n IH]; [exists infinity; split; [left; auto|]; cbn [state_at]; rewrite H; vm_compute; reflexivity|]. destruct IH as (p & D & E). exists nan. split; [right; auto|].
      change (state_at (ema_step Dn (vreal Dn)) (mkEma 0%float 1%float) x (S (S n))) with (fst (ema_step Dn (vreal Dn) (state_at (ema_step Dn (vreal Dn)) (mkEma 0%float 1%float) x (S n)) (x (S n)))). rewrite E, L; auto. }
    destruct (S1 t) as (p & D & E). unfold out. rewrite E, L; auto.
  - set (c := bq_c (biquad_new Dn (vreal Dn))). set (step := biquad_step (vreal Dn)). set (s0 := biquad_new Dn (vreal Dn)).
    assert (L : forall x1 x2 y1 y2 y, (y1 = infinity \/ y1 = nan) -> step (mkBiquad x1 x2 y1 y2 c) y = (mkBiquad y x1 nan y1 c, nan)).
    { intros x1 x2 y1 y2 y D. assert (E : (0%float * y1)%float = nan) by (destruct D as [-> | ->]; auto). unfold step, biquad_step. cbn [bq_c bq_x1 bq_x2 bq_y1 bq_y2 vadd vsub vscale vreal].
      assert (C0 : a1a0 c = 0%float) by reflexivity. rewrite C0. cbn [nadd nsub nmul Dn]. rewrite E. rewrite sub_nan, nan_sub. reflexivity. }
    assert (S1 : forall t, exists x1 x2 y1 y2, (y1 = infinity \/ y1 = nan) /\ state_at step s0 x (S t) = mkBiquad x1 x2 y1 y2 c).
    { induction t0 as [|n IH].
      - exists infinity, 0%float, infinity, 0%float. split; [left; auto|]. cbn [state_at]. rewrite H. vm_compute. reflexivity.
      - destruct IH as (x1 & x2 & y1 & y2 & D & E). exists (x (S n)), x1, nan, y1. split; [right; auto|].
        change (state_at step s0 x (S (S n))) with (fst (step (state_at step s0 x (S n)) (x (S n)))). rewrite E, L; auto. }
    destruct (S1 t) as (x1 & x2 & y1 & y2 & D & E). unfold out. rewrite E, L; auto.
Qed.
Print Assumptions C85_infinity_refuted.

(** C85  A fresh BlockDC halves the difference of consecutive samples, the first of them against 0. *)
Theorem C85_fresh_blockdc (x : nat -> R) (t : nat) :
  out (blockdc_step (vreal Rn)) (blockdc_new Rn (vreal Rn)) x t = (x t - match t with O => 0 | S j => x j end) / 2.
Proof.
  assert (E : forall t, exists y, state_at (blockdc_step (vreal Rn)) (blockdc_new Rn (vreal Rn)) x t = mkBdc (match t with O => 0 | S j => x j end) y 0 (1/2)).
  { induction t0 as [|n (y & IH)]; [exists 0; reflexivity|]. cbn [state_at]. rewrite IH. cbn. eexists. reflexivity. }
  destruct (E t) as [y Y]. unfold out. rewrite Y. cbn. field.
Qed.
Print Assumptions C85_fresh_blockdc.

(** C85  A fresh Phasor, and a Phasor after reset() with a unit step, returns 1 first; the fresh one returns 1
    for ever. *)
Theorem C85_fresh_phasor (t : nat) : out (phasor_step Rn) (phasor_new Rn) (fun _ => tt) t = RtoC 1.
Proof.
  assert (E : forall t, state_at (phasor_step Rn) (phasor_new Rn) (fun _ => tt) t = phasor_new Rn).
  { induction t0 as [|n IH]; auto. cbn [state_at]. rewrite IH. unfold phasor_step, phasor_new. cbn. unfold cmul_eq, cdivr_eq, cabs, creal, cimag. cbn.
    f_equal. repeat progress rewrite ?Rmult_1_r, ?Rmult_0_r, ?Rmult_0_l, ?Rplus_0_r, ?Rminus_0_r, ?Rplus_0_l, ?sqrt_1. unfold cmul, cdivr, creal, cimag, cmk. cbn. f_equal; field. }
  unfold out. rewrite E. reflexivity.
Qed.
Print Assumptions C85_fresh_phasor.

(** C85  Assigning a real number sets the imaginary part to 0; the setters change one part each. *)
Theorem C85_setters (z : C) (a b : R) : cassign_r Rn z a = RtoC a /\ cset_imag (cset_real z a) b = (a, b) /\
  creal (cset_imag z b) = Re z /\ cimag (cset_real z a) = Im z.
Proof. repeat split. Qed.
Print Assumptions C85_setters.

(** C85  Kahan() is Kahan(0): the same running sums for every history. *)
Theorem C85_fresh_kahan {A} (zero : A) (add sub : A -> A -> A) (x : nat -> A) (t : nat) :
  out (kahan_call add sub) (kahan_default zero) x t = out (kahan_call add sub) (kahan_new zero zero) x t.
Proof. reflexivity. Qed.
Print Assumptions C85_fresh_kahan.

(** C85  A fresh AMD1 with index() and without agc() has a fixed envelope of 1/1000: amplitude A gives
    (1000 A (1 + m) - 1) / m. *)
Theorem C85_fresh_amd (m : R) (x : nat -> C) (t : nat) : m <> 0 ->
  out (amd_step Rn) (amd_index (amd_new Rn) m) x t = (1000 * Cmod (x t) * (1 + m) - 1) / m.
Proof.
  intros H. rewrite amd_out. assert (E : forall t, am_avg (state_at (amd_step Rn) (amd_index (amd_new Rn) m) x t) = match t with O => 0 | S _ => 1 / 1000 end).
  { induction t0 as [|n IH]; [reflexivity|]. cbn [state_at]. rewrite amd_step_eq. cbn [fst am_avg]. unfold amd_next. destruct (amd_params (amd_index (amd_new Rn) m) x n) as (-> & -> & -> & -> & _). rewrite IH.
    cbn [amd_index amd_new am_att am_dec am_lo am_hi]. set (d := if Rlt_dec _ _ then _ else _). assert (D : d = 0) by (unfold d; destruct Rlt_dec; reflexivity). rewrite D.
    unfold clampf. cbn [n1 nlit Rn Fn]. set (v := match n with O => 0 | S _ => 1/1000 end). assert (0 <= v <= 1/1000) by (unfold v; destruct n; lra).
    unfold Rmin, Rmax. repeat destruct Rle_dec; lra. }
  rewrite E. cbn [am_idx amd_index]. field. auto.
Qed.
Print Assumptions C85_fresh_amd.

(** C85  A picture file that cannot be opened gives a reader that is not good; a wave file that cannot be opened
    is undefined behaviour already in the constructor, which compares four bytes that were never read. *)
Theorem C85_missing_pnm : exists r, rpnm_open iopen_failed = Ok r /\ rpnm_good r = false.
Proof. eexists. split; [vm_compute; reflexivity|reflexivity]. Qed.
Print Assumptions C85_missing_pnm.
Theorem C85_missing_wav_refuted : rwav_open iopen_failed = Undefined /\ rwav_open (iopen []) = Undefined.
Proof. split; vm_compute; reflexivity. Qed.
Print Assumptions C85_missing_wav_refuted.
