(* C101 The promised costs: movext.hh amortised O(1), swa.hh O(log NUM), fft.hh O(n log n) *)
From Coq Require Import Reals Lra.
From Verif Require Import Proofs.BaseLemmas Proofs.ContainerProofs Spec.Dft Proofs.SwaProofs Proofs.QuickCostProofs Model.StreamCost Model.FftCost Proofs.StreamCostProofs Proofs.FftCostProofs.
Open Scope Z_scope.

(** The counting models make the same steps as the models without counter. *)
Theorem C101_counts_movext : forall (A : Type) (eqb comp : A -> A -> bool) (NUM : Z) (init : A) (xs : list A) (r : movext A * list A),
  movext_run eqb comp NUM init xs = Ok r <-> exists c, cmovext_run eqb comp NUM init xs = Ok (r, c).
Proof. intros. rewrite <- er_movrun. split; [apply er_ok|]. intros (c & ->). reflexivity. Qed.
Print Assumptions C101_counts_movext.
Theorem C101_counts_swa : forall (A : Type) (op : A -> A -> A) (NUM : Z) (s : swa A) (x : A) (r : swa A * A),
  swa_call op NUM s x = Ok r <-> exists c, cswa_call op NUM s x = Ok (r, c).
Proof. intros. rewrite <- er_swa. split; [apply er_ok|]. intros (c & ->). reflexivity. Qed.
Print Assumptions C101_counts_swa.
Theorem C101_counts_fft : forall (T : Type) (N : num T) (tr : trig T) (BINS SIGN : Z) (out : list (option (cplx T))) (inp : list (cplx T)) (r : list (option (cplx T))),
  fft N tr BINS SIGN out inp = Ok r <-> exists c, kfft N tr BINS SIGN out inp = Ok (r, c).
Proof. intros. rewrite <- er_kfft. split; [apply er_ok|]. intros (c & ->). reflexivity. Qed.
Print Assumptions C101_counts_fft.

(** MovExt is amortised O(1): whatever the comparison, n calls compare, push and pop at most 7 n + 1 times. *)
Theorem C101_movext_amortised : forall (A : Type) (eqb comp : A -> A -> bool) (NUM : Z) (init : A) (xs : list A) (m : movext A) (os : list A) (c : Z),
  cmovext_run eqb comp NUM init xs = Ok ((m, os), c) -> 1 <= c <= 7 * zlen xs + 1.
Proof. intros A eqb comp NUM init xs m os c. apply movext_amortised. Qed.
Print Assumptions C101_movext_amortised.
Example C101_movext_amortised_case : exists r, cmovext_run Z.eqb Z.ltb 3 100 [5; 4; 6; 7; 8; 1; 9; 2] = Ok (r, 44).
Proof. eexists. vm_compute. reflexivity. Qed.

(** Not every call is O(1): any call takes at most 2 NUM + 6 steps, and for every NUM a call with 2 NUM steps occurs. *)
Theorem C101_movext_call : forall (A : Type) (eqb comp : A -> A -> bool) (NUM : Z) (init : A) (xs : list A) (m : movext A) (os : list A) (x : A) (m' : movext A) (v : A) (c : Z),
  movext_run eqb comp NUM init xs = Ok (m, os) -> cmovext_call eqb comp NUM m x = Ok ((m', v), c) -> 0 <= c <= 2 * NUM + 6.
Proof.
  intros A eqb comp NUM init xs m os x m' v c H Hc. apply C101_counts_movext in H as (c0 & H). unfold cmovext_run in H. apply cbind_ok in H as (m0 & a & b & H0 & H & ->).
  unfold cmovext_new in H0. apply cbind_ok in H0 as (d & a1 & b1 & H1 & H0 & ->). apply unit_ok in H1 as [H1 ->]. apply push_pos in H1. cbn in H1. apply cret_ok in H0 as [<- ->].
  assert (G : good NUM (mkMovExt (delay_new NUM init) d (stack_new NUM))) by (unfold good; cbn; lia). apply (runs_cost _ _ _ _ _ _ _ _ G) in H as (G' & _ & _).
  apply (call_cost _ _ _ _ _ _ _ _ G') in Hc. lia.
Qed.
Print Assumptions C101_movext_call.
Theorem C101_movext_every_call_constant_refuted : forall NUM init : Z, 0 < NUM -> NUM + 1 < init ->
  exists xs m os x m' v c, zlen xs = NUM /\ movext_run Z.eqb Z.ltb NUM init xs = Ok (m, os) /\ cmovext_call Z.eqb Z.ltb NUM m x = Ok ((m', v), c) /\ 2 * NUM <= c.
Proof.
  intros NUM init H1 H2. destruct (movext_spike NUM H1 init H2) as (m & os & m' & v & c & E & Ec & L). exists (asc 1 (Z.to_nat NUM)), m, os, (NUM + 1), m', v, c.
  split; [rewrite asc_len, Z2Nat.id by lia; reflexivity|]. auto.
Qed.
Print Assumptions C101_movext_every_call_constant_refuted.
Example C101_movext_call_case : exists m os m' v, movext_run Z.eqb Z.ltb 4 100 [1; 2; 3; 4] = Ok (m, os) /\ cmovext_call Z.eqb Z.ltb 4 m 5 = Ok ((m', v), 12).
Proof. eexists _, _, _, _. split; vm_compute; reflexivity. Qed.

(** SWA: after any history a call succeeds, applies OP as often as NUM has binary digits, or once less, and changes no
    tree cell but those above the leaf of the new sample. *)
Theorem C101_swa : forall (A : Type) (op : A -> A -> A) (NUM : Z) (ident : A) (xs : list A) (x : A), 0 < NUM ->
  exists s os s' v c, run (swa_call op NUM) (swa_new NUM ident) xs = Ok (s, os) /\ cswa_call op NUM s x = Ok ((s', v), c) /\
  Z.log2 NUM <= c <= Z.log2 NUM + 1 /\ w_leaf s = NUM + zlen xs mod NUM /\
  forall i, znth (w_tree s') i <> znth (w_tree s) i -> exists n, 0 <= n <= c /\ i = w_leaf s / 2 ^ n.
Proof.
  intros A op NUM ident xs x Hn. assert (W : wf NUM (swa_new NUM ident)) by (split; cbn [swa_new w_tree w_leaf]; [unfold zlen; rewrite repeat_length|]; lia).
  destruct (swa_run_wf op NUM Hn xs (swa_new NUM ident) W) as (s & os & E & Ws & Hl & _). cbn in Hl. rewrite Z.sub_diag, Z.add_0_l in Hl.
  destruct (swa_run_wf op NUM Hn [x] s Ws) as (s1 & os1 & E1 & _). cbn [run] in E1. destruct (swa_call op NUM s x) as [[s' v]| | |] eqn:Ec; cbn in E1; try discriminate.
  destruct (proj1 (C101_counts_swa A op NUM s x (s', v)) Ec) as (c & Q). exists s, os, s', v, c. destruct (swa_cost op NUM s x s' v c Ws Hn Q) as (Ek & B & Ch).
  split; [exact E|]. split; [exact Q|]. split; [exact B|]. split; [lia|]. intros i D. destruct (Ch i D) as (Pi & n & Pn & Ei).
  destruct (Z_le_gt_dec n c) as [L|L]; [exists n; auto|]. exfalso. assert (Z0 : i = 0); [|lia].
  rewrite Ei. apply Z.div_small. destruct Ws as [_ Hw]. split; [lia|]. pose proof (Z.log2_spec (w_leaf s) ltac:(lia)) as [_ U]. eapply Z.lt_le_trans; [exact U|]. apply Z.pow_le_mono_r; lia.
Qed.
Print Assumptions C101_swa.
Example C101_swa_case : exists s os s' v, run (swa_call Z.add 5) (swa_new 5 0) [1; 2; 3; 4; 5; 6; 7] = Ok (s, os) /\ cswa_call Z.add 5 s 8 = Ok ((s', v), 2) /\ v = 30.
Proof. eexists _, _, _, _. split; [vm_compute; reflexivity|]. split; vm_compute; reflexivity. Qed.

(** FastFourierTransform: the number of real additions, subtractions and multiplications depends on nothing but BINS and
    is at most 14 BINS log2 BINS for every supported size ... *)
Theorem C101_fft : forall BINS : Z, 0 < BINS -> smooth31 BINS -> exists c,
  (forall (T : Type) (N : num T) (tr : trig T) (SIGN : Z) (out : list (option (cplx T))) (inp : list (cplx T)), BINS <= zlen inp -> BINS <= zlen out ->
    exists out', kfft N tr BINS SIGN out inp = Ok (out', c) /\ fft N tr BINS SIGN out inp = Ok out') /\
  0 <= c /\ (IZR c <= 14 * IZR BINS * (ln (IZR BINS) / ln 2))%R.
Proof.
  intros BINS H1 H2. exists (fops (Z.to_nat BINS) BINS). split; [intros T N tr SIGN out inp; apply fft_cost; auto|]. apply fops_bound; auto. lia.
Qed.
Print Assumptions C101_fft.
(** ... and at most 5 BINS log2 BINS for a power of two *)
Theorem C101_fft_power_of_two : forall k : Z, 0 <= k -> exists c,
  (forall (T : Type) (N : num T) (tr : trig T) (SIGN : Z) (out : list (option (cplx T))) (inp : list (cplx T)), 2 ^ k <= zlen inp -> 2 ^ k <= zlen out ->
    exists out', kfft N tr (2 ^ k) SIGN out inp = Ok (out', c) /\ fft N tr (2 ^ k) SIGN out inp = Ok out') /\
  0 <= c <= 5 * 2 ^ k * k.
Proof.
  intros k Hk. assert (P : 0 < 2 ^ k) by (apply Z.pow_pos_nonneg; lia). exists (fops (Z.to_nat (2 ^ k)) (2 ^ k)). split; [|apply fops_pow2; lia].
  intros T N tr SIGN out inp. apply fft_cost; [exact P|]. now apply smooth_pow2.
Qed.
Print Assumptions C101_fft_power_of_two.
(** 15 = 3 * 5 points: 5 kernels of 3 and 3 kernels of 5 points, 8 products with twiddle factors *)
Definition Zn0 : num Z := {| n0 := 0; n1 := 1; nadd := Z.add; nsub := Z.sub; nmul := Z.mul; ndiv := Z.div; nopp := Z.opp;
  nabs := Z.abs; nsqrt := Z.sqrt; nofZ := fun z => z; nlit := fun _ => 0; nltb := Z.ltb; nleb := Z.leb; neqb := Z.eqb |}.
Definition Zt0 : trig Z := {| tcos := fun _ _ => 1; tsin := fun _ _ => 1; trsqrt2 := 1 |}.
Example C101_fft_case : exists out, kfft Zn0 Zt0 15 1 (repeat None 15) (repeat (0, 0) 15) = Ok (out, 318).
Proof. eexists. vm_compute. reflexivity. Qed.
