(* C103 The Kaiser window in floating point *)
From Coq Require Import Reals ZArith Lra Lia.
From Flocq Require Import Core BinarySingleNaN.
From Interval Require Import Tactic.
From Verif Require Import Model.WinFun Model.NumIeee Spec.Bessel Proofs.KahanFloat Proofs.WinProofs Proofs.KaiserRound.
Open Scope R_scope.

(** Arithmetic of [prec] bits with gradual underflow below 2^emin, every operation rounded to nearest even, u = 2^-prec
    (binary32: prec = 24, emin = -149; binary64: prec = 53, emin = -1074; overflow is not modelled).

    i0 within -9.5 .. 9.5 (the comment in the code claims convergence within -3 Pi .. 3 Pi): at most 34 terms of the series are
    added, and the loop may leave earlier; wherever it leaves, the result has a relative error of at most 38 u. *)
Theorem C103_i0 : forall (emin prec : Z) (x : R), (20 <= prec <= 64)%Z -> (emin <= - prec - 110)%Z -> Rabs x <= 9.5 ->
  exists v, is_I0 x v /\ Rabs (i0 (Fn (FLTrnd emin prec)) x - v) <= 38 * ulp_u prec * v.
Proof.
  intros emin prec x (Hp & H64) He Hx. destruct (i0_round emin prec Hp He x Hx) as (v & V & E). exists v. split; [exact V|]. eapply Rle_trans; [exact E|].
  pose proof (I0_ge1 x v V). assert (UL : bpow radix2 (-64) <= ulp_u prec) by (unfold ulp_u; apply bpow_le; lia). assert (B : 1e-20 <= bpow radix2 (-64)) by (replace (bpow radix2 (-64)) with (/ IZR 18446744073709551616) by reflexivity; lra).
  assert (ulp_u prec * 1 <= ulp_u prec * v) by (apply Rmult_le_compat_l; lra). lra.
Qed.
Print Assumptions C103_i0.

(** The square root is never taken of a negative number, however 1 - (2n/(N-1)-1)^2 is rounded. *)
Theorem C103_sqrt_argument : forall (emin prec n N : Z), (20 <= prec)%Z -> (emin <= - prec - 110)%Z -> (2 <= N <= 2 ^ prec)%Z -> (0 <= n < N)%Z ->
  0 <= kaiser_arg (Fn (FLTrnd emin prec)) n N <= 1.
Proof. intros emin prec n N Hp He (H1 & H2) H3. apply (arg_range emin prec Hp He n N H1 H2 H3). Qed.
Print Assumptions C103_sqrt_argument.

(** The window within 530 u of I0(Pi a sqrt(1 - (2n/(N-1)-1)^2)) / I0(Pi a). *)
Theorem C103_kaiser : forall (emin prec : Z) (a : R) (n N : Z), (20 <= prec <= 64)%Z -> (emin <= - prec - 110)%Z -> Rabs a <= 3 ->
  (2 <= N <= 2 ^ prec)%Z -> (0 <= n < N)%Z -> (16 * N <= INT_MAX)%Z ->
  exists v x m, win_kaiser (Fn (FLTrnd emin prec)) a n N = Ok v /\ let q := 2 * IZR n / IZR (N - 1) - 1 in
    is_I0 (PI * a * sqrt (1 - q * q)) x /\ is_I0 (PI * a) m /\ Rabs (v - x / m) <= 530 * ulp_u prec.
Proof. intros emin prec a n N (Hp & H64) He Ha (H1 & H2) H3 H4. apply (kaiser_round emin prec Hp He a n N H64 Ha (conj H1 (conj H3 H4)) H2). Qed.
Print Assumptions C103_kaiser.
Theorem C103_kaiser_float : forall (a : R) (n N : Z), Rabs a <= 3 -> (2 <= N <= 2 ^ 24)%Z -> (0 <= n < N)%Z ->
  exists v x m, win_kaiser (Fn (round radix2 (FLT_exp (-149) 24) ZnearestE)) a n N = Ok v /\ let q := 2 * IZR n / IZR (N - 1) - 1 in
    is_I0 (PI * a * sqrt (1 - q * q)) x /\ is_I0 (PI * a) m /\ Rabs (v - x / m) <= 3.2e-5.
Proof.
  intros a n N Ha H1 H2. destruct (C103_kaiser (-149) 24 a n N ltac:(lia) ltac:(lia) Ha H1 H2 ltac:(unfold INT_MAX; lia)) as (v & x & m & E & X & M & B). exists v, x, m.
  split; [exact E|]. split; [exact X|]. split; [exact M|]. eapply Rle_trans; [exact B|]. replace (ulp_u 24) with (/ IZR 16777216) by reflexivity. lra.
Qed.
Print Assumptions C103_kaiser_float.
Theorem C103_kaiser_double : forall (a : R) (n N : Z), Rabs a <= 3 -> (2 <= N)%Z -> (0 <= n < N)%Z -> (16 * N <= INT_MAX)%Z ->
  exists v x m, win_kaiser (Fn (round radix2 (FLT_exp (-1074) 53) ZnearestE)) a n N = Ok v /\ let q := 2 * IZR n / IZR (N - 1) - 1 in
    is_I0 (PI * a * sqrt (1 - q * q)) x /\ is_I0 (PI * a) m /\ Rabs (v - x / m) <= 5.9e-14.
Proof.
  intros a n N Ha H1 H2 H3. destruct (C103_kaiser (-1074) 53 a n N ltac:(lia) ltac:(lia) Ha ltac:(unfold INT_MAX in *; lia) H2 H3) as (v & x & m & E & X & M & B). exists v, x, m.
  split; [exact E|]. split; [exact X|]. split; [exact M|]. eapply Rle_trans; [exact B|]. replace (ulp_u 53) with (/ IZR 9007199254740992) by reflexivity. lra.
Qed.
Print Assumptions C103_kaiser_double.

(** an end of the window of 33 taps, a = 2 *)
Example C103_case : exists v x m, win_kaiser (Fn (round radix2 (FLT_exp (-149) 24) ZnearestE)) 2 32 33 = Ok v /\ is_I0 0 x /\ is_I0 (PI * 2) m /\ Rabs (v - x / m) <= 3.2e-5.
Proof.
  destruct (C103_kaiser_float 2 32 33) as (v & x & m & E & X & M & B); [rewrite Rabs_pos_eq; lra|lia|lia|]. exists v, x, m. split; [exact E|]. split; [|exact (conj M B)].
  cbv zeta in X. replace (PI * 2 * sqrt (1 - (2 * 32 / IZR (33 - 1) - 1) * (2 * 32 / IZR (33 - 1) - 1))) with 0 in X; [exact X|]. change (33 - 1)%Z with 32%Z. replace (1 - (2 * 32 / 32 - 1) * (2 * 32 / 32 - 1)) with 0 by field. rewrite sqrt_0. ring.
Qed.

(** The comment in window.hh:97-99: the loop of i0 "converges for -3*Pi:3*Pi in less than" 25 iterations for float and 35 for double.
    [i0_converges M x k]: one of the first k iterations finds the sum unchanged. *)
Fixpoint i0_same {T : Type} (M : num T) (x : T) (k : nat) (n : Z) (sum : kahan T) (val : T) : bool :=
  match k with
  | O => false
  | S k' =>
    let val := nmul M val (ndiv M x (nofZ M (2 * n))) in
    let '(sum, same) := kahan_same (nadd M) (nsub M) (neqb M) sum (nmul M val val) in
    same || i0_same M x k' (n + 1) sum val
  end.
Definition i0_converges {T : Type} (M : num T) (x : T) (k : nat) : bool := i0_same M x k 1 (kahan_new (n0 M) (nlit M 1.0)) (nlit M 1.0).
Lemma i0_same_loop {T : Type} (M : num T) (x : T) : forall k k' n sum val, (k <= k')%nat -> i0_same M x k n sum val = true ->
  i0_loop M x k' n sum val = i0_loop M x k n sum val.
Proof.
  induction k as [|k IH]; intros k' n sum val L E; [discriminate|]. destruct k' as [|k']; [lia|]. cbn [i0_same i0_loop] in *.
  destruct (kahan_same _ _ _ _ _) as [s b]. destruct b; [reflexivity|]. apply IH; [lia|exact E].
Qed.
(** C103  What convergence means: a larger limit of the loop would not change the result. *)
Theorem C103_converged {T : Type} (M : num T) (x : T) (k : nat) : i0_converges M x 34 = true -> (34 <= k)%nat ->
  i0_loop M x k 1 (kahan_new (n0 M) (nlit M 1.0)) (nlit M 1.0) = i0 M x.
Proof. intros E L. apply (i0_same_loop M x 34 k); auto. Qed.
Print Assumptions C103_converged.
Lemma lit_one (prec emax : Z) (P : Prec_gt_0 prec) (L : Prec_lt_emax prec emax) : (2 < emax)%Z ->
  ieee_lit prec emax 1 = binary_normalize prec emax _ _ mode_NE (2 ^ (prec - 1)) (1 - prec) false.
Proof.
  intros HE. unfold ieee_lit. rewrite Rlt_bool_false by lra. unfold Prec_gt_0, Prec_lt_emax in *.
  assert (C : cexp radix2 (SpecFloat.fexp prec emax) 1 = (1 - prec)%Z) by (unfold cexp; rewrite mag_1; unfold SpecFloat.fexp, SpecFloat.emin; lia).
  unfold scaled_mantissa. rewrite C. replace (1 * bpow radix2 (- (1 - prec))) with (IZR (2 ^ (prec - 1))).
  - rewrite (Zrnd_IZR ZnearestE). reflexivity.
  - rewrite Rmult_1_l. replace (- (1 - prec))%Z with (prec - 1)%Z by lia. apply (IZR_Zpower radix2). lia.
Qed.
(** C103  The comment is wrong for both types, in IEEE 754 arithmetic: there is a float below 3 Pi that needs 25 iterations and a
    double below 3 Pi for which none of the 34 iterations finds the sum unchanged.  (The result is still as accurate as C103_i0 says.) *)
Theorem C103_iterations_refuted :
  (exists x : binary_float 24 128, 0 < B2R x < 3 * PI /\ i0_converges b32 x 24 = false) /\
  (exists x : binary_float 53 1024, 0 < B2R x < 3 * PI /\ i0_converges b64 x 34 = false).
Proof.
  assert (L32 : nlit b32 1.0 = n1 b32) by (replace 1.0 with 1 by lra; change (nlit b32 1) with (ieee_lit 24 128 1); rewrite lit_one by lia; unfold b32, Bn, n1; apply B2SF_inj; vm_compute; reflexivity).
  assert (L64 : nlit b64 1.0 = n1 b64) by (replace 1.0 with 1 by lra; change (nlit b64 1) with (ieee_lit 53 1024 1); rewrite lit_one by lia; unfold b64, Bn, n1; apply B2SF_inj; vm_compute; reflexivity).
  split; [exists (@B754_finite 24 128 false 9742170 (-20) eq_refl)|exists (@B754_finite 53 1024 false 5260358431224047 (-49) eq_refl)];
    (split; [cbn [B2R]; unfold F2R; cbn; split; interval|]); unfold i0_converges; rewrite ?L32, ?L64; vm_compute; reflexivity.
Qed.
Print Assumptions C103_iterations_refuted.
