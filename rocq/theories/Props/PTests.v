(* C92: the test programs of /repo/tests pass *)
From Coq Require Import Floats ZArith List Lia Reals.
From Flocq Require Import Core.
From Verif Require Import Model.Num64 Model.TestPrograms Proofs.TestProofs Proofs.TestRound.
From Verif Require Import Props.PFftRound.
Import ListNotations.
Open Scope Z_scope.

(** ** C92 *)
(** deque_test, for every capacity, every number of rounds and every outcome of the random generator: neither an
    assertion of the test nor one of the Deque fails, and nothing undefined happens. *)
Theorem C92_deque_test (rs : nat -> Z) (SIZE : Z) (rounds : nat) : 0 < SIZE -> deque_test rs SIZE rounds = Ok tt.
Proof. intros H. apply deque_test_ok; auto. Qed.
Print Assumptions C92_deque_test.
Theorem C92_deque_main : deque_main = Ok tt.
Proof. vm_compute. reflexivity. Qed.
Print Assumptions C92_deque_main.

(** movext_test, for every window size *)
Theorem C92_movext_test (rs : nat -> Z) (SIZE : Z) (rounds : nat) : 0 < SIZE -> movext_test rs SIZE rounds = Ok tt.
Proof. apply movext_test_ok. Qed.
Print Assumptions C92_movext_test.

(** quick_sort_test and quick_select_test, for every size of the array and every content it starts with *)
Theorem C92_quick_sort_test (rs : nat -> Z) (MAX_N : Z) (a0 : list Z) (rounds : nat) :
  0 <= MAX_N <= zlen a0 -> sort_test rs MAX_N a0 rounds = Ok tt.
Proof. intros H. apply sort_test_ok; lia. Qed.
Print Assumptions C92_quick_sort_test.
Theorem C92_quick_select_test (rs : nat -> Z) (MAX_N : Z) (a0 : list Z) (rounds : nat) :
  1 <= MAX_N <= zlen a0 -> select_test rs MAX_N a0 rounds = Ok tt.
Proof. intros H. apply select_test_ok; lia. Qed.
Print Assumptions C92_quick_select_test.
(** an array smaller than the largest size drawn would be overrun *)
Example C92_array_size : sort_test (fun _ => 5) 5 [0; 0; 0; 0] 1 = Undefined.
Proof. reflexivity. Qed.
(** the hypotheses are met by the values of the programs *)
Example C92_example : deque_test (fun n => Z.of_nat n * 7 + 3) 42 100 = Ok tt /\
  movext_test (fun n => Z.of_nat n * 1234567891 mod 4294967291) 9 50 = Ok tt /\
  select_test (fun n => Z.of_nat n * 48271 mod 2147483647) 60 (repeat 0 60) 10 = Ok tt.
Proof. vm_compute. auto. Qed.

(** kahan_test in double precision: 45356 turns computed in IEEE 754 arithmetic.  The sum is exactly the double next
    to pi. *)
Definition pi_double : PrimFloat.float := 0x1.921fb54442d18p+1%float.
Theorem C92_kahan_test_double : kahan_test Dn pi_double (Z.to_nat 45356) = Ok true.
Proof. vm_compute. reflexivity. Qed.
Print Assumptions C92_kahan_test_double.
(** without the compensation it fails *)
Fixpoint plain_loop (fuel : nat) (i s : PrimFloat.float) : PrimFloat.float :=
  match fuel with
  | O => s
  | S f => let s := (s + 4 / (i * (i + 1) * (i + 2)))%float in
           let s := (s + (- (4)) / ((i + 2) * (i + 3) * (i + 4)))%float in plain_loop f (i + 4)%float s
  end.
Example C92_plain_sum_fails : PrimFloat.eqb (plain_loop (Z.to_nat 45356) 2 3) pi_double = false.
Proof. vm_compute. reflexivity. Qed.

(** cordic_test for char and short, with doubles *)
Theorem C92_cordic_test (BYTES : Z) : BYTES = 1 \/ BYTES = 2 -> cordic_test rnd64 BYTES = Ok tt.
Proof. apply cordic_test_ok. Qed.
Print Assumptions C92_cordic_test.

(** atan2_test<float, double> and atan2_test<double, long double>, whose limit of 5000 can be raised to 2^28 - 1; epsilon
    is 2^-23 and 2^-52 *)
Theorem C92_atan2_test_float (MAX : Z) : 8 * MAX <= INT_MAX -> atan2_test rnd32 (2 * bpow radix2 (-24)) (Fn rnd64) MAX = Ok tt.
Proof. apply atan2_test_float. Qed.
Print Assumptions C92_atan2_test_float.
Theorem C92_atan2_test_double (MAX : Z) : 8 * MAX <= INT_MAX -> atan2_test rnd64 (2 * bpow radix2 (-53)) Ln MAX = Ok tt.
Proof. apply atan2_test_double. Qed.
Print Assumptions C92_atan2_test_double.

(** What the loops of the tests establish: a test that ends normally has checked every case it is meant to check, so an
    implementation wrong in a single one of them is reported.  *)
Lemma for_all_inv (body : Z -> unit -> outcome unit) n : forall i, for_loop n i body tt = Ok tt -> forall k, i <= k < i + Z.of_nat n -> body k tt = Ok tt.
Proof.
  induction n as [|n IH]; intros i E k Hk; [lia|]. cbn [for_loop] in E. destruct (body i tt) as [[]| | |] eqn:B; try discriminate. cbn [bind] in E.
  destruct (Z.eq_dec k i) as [->|Ne]; [exact B|]. apply (IH (i + 1) E). lia.
Qed.
Theorem C92_atan2_test_checks (rT : R -> R) (eps : R) (P : num R) (MAX : Z) : atan2_test rT eps P MAX = Ok tt ->
  forall N n, 1 <= N <= MAX -> 1 - N / 2 <= n < N / 2 -> exists x y, uc_cos P n N = Ok x /\ uc_sin P n N = Ok y /\
    nltb P (nabs P (nsub P (atan2 (Fn rT) (Rlt_bool (rT y) 0) (rT y) (rT x)) (ndiv P (nmul P (TwoPi P) (nofZ P n)) (nofZ P N)))) (nmul (Fn rT) (nofZ (Fn rT) 10) eps) = true.
Proof.
  intros E N n HN Hn. unfold atan2_test in E. apply for_all_inv with (k := N) in E; [|lia]. apply for_all_inv with (k := n) in E; [|lia].
  destruct (uc_cos P n N) as [x| | |]; try discriminate. destruct (uc_sin P n N) as [y| | |]; try discriminate. cbn [bind] in E. exists x, y. split; [reflexivity|]. split; [reflexivity|].
  unfold cassert in E. destruct (nltb P _ _); [reflexivity|discriminate].
Qed.
Print Assumptions C92_atan2_test_checks.
Theorem C92_cordic_test_checks (rnd : R -> R) (BYTES : Z) : 1 <= BYTES -> cordic_test rnd BYTES = Ok tt -> let N := 2 ^ (8 * BYTES) in
  forall n, - (N / 2) <= n < N / 2 -> exists c s a, uc_cos (Fn rnd) n N = Ok c /\ uc_sin (Fn rnd) n N = Ok s /\
    cordic_atan2 BYTES (ZnearestE (rnd (rnd (IZR (N / 2 - 1)) * s)%R)) (ZnearestE (rnd (rnd (IZR (N / 2 - 1)) * c)%R)) = Ok a /\ Z.abs (a - n) <= 1.
Proof.
  intros HB E N n Hn. unfold cordic_test in E. cbv zeta in E. fold N in E.
  assert (EN : N = 2 * (N / 2)) by (apply Z_div_exact_full_2; [lia|]; unfold N; replace (8 * BYTES) with (Z.succ (8 * BYTES - 1)) by lia; rewrite Z.pow_succ_r by lia; rewrite Z.mul_comm; apply Z.mod_mul; lia).
  assert (E2 : - N / 2 = - (N / 2)) by (rewrite EN at 1; rewrite <- Z.mul_opp_r, Z.mul_comm; apply Z.div_mul; lia).
  apply for_all_inv with (k := n) in E; [|rewrite E2; lia].
  destruct (uc_cos _ n N) as [c| | |]; try discriminate. destruct (uc_sin _ n N) as [s| | |]; try discriminate. cbn [bind nmul nofZ Fn] in E. exists c, s.
  unfold to_int in E. destruct (_ && _)%bool in E; [|discriminate]. cbn [bind] in E. destruct (_ && _)%bool in E; [|discriminate]. cbn [bind] in E.
  destruct (cordic_atan2 BYTES _ _) as [a| | |] eqn:A; try discriminate. cbn [bind] in E. exists a. split; [reflexivity|]. split; [reflexivity|]. split; [reflexivity|].
  unfold cassert in E. destruct (Z.leb_spec (Z.abs (a - n)) 1); [assumption|discriminate].
Qed.
Print Assumptions C92_cordic_test_checks.
(** the loops behind the tests of quick_sort and quick_select *)
Theorem C92_all_checked (lo hi : Z) (check : Z -> outcome bool) : all_checked lo hi check = Ok tt <-> forall i, lo <= i < hi -> check i = Ok true.
Proof.
  unfold all_checked. split.
  - intros E i Hi. apply for_all_inv with (k := i) in E; [|lia]. destruct (check i) as [[]| | |]; try discriminate. reflexivity.
  - intros H. apply for_all_ok. intros k Hk. rewrite H by lia. reflexivity.
Qed.
Print Assumptions C92_all_checked.
