(* C111: NLMS in floating point, overflow of the step size *)
From Coq Require Import Reals ZArith Lia Lra List.
From Flocq Require Import Core IEEE754.BinarySingleNaN.
From Verif Require Import Proofs.BaseLemmas Proofs.NanProofs Proofs.LmsOver Proofs.LmsOverC Model.NumIeee Model.Lms Model.OSignal Spec.NonFinite Spec.Window.
Import ListNotations.

(** the power of the window of the last n samples at call t: squares summed from the oldest, every operation rounded *)
Definition power_at {T} (N : num T) (n : nat) (x : nat -> T * T * T) (t : nat) : T :=
  fold_left (fun a h => nadd N a (nmul N h h)) (window n (n0 N) (map (fun k => fst (fst (x k))) (seq 0 (S t)))) (n0 N).
(** the same for NCLMS, whose history holds the conjugates *)
Definition cpower_at {T} (N : num T) (n : nat) (x : nat -> cplx T * cplx T * T) (t : nat) : T :=
  fold_left (fun a h => nadd N a (cnorm N h)) (window n (czero N) (map (fun k => cconj N (fst (fst (x k)))) (seq 0 (S t)))) (n0 N).

Section Ieee.
Context (prec emax : Z) {Hp : Prec_gt_0 prec} {Hpe : Prec_lt_emax prec emax}.
Notation bf := (binary_float prec emax).
Notation B := (Bn prec emax).
(** C111  Whatever the history: if at some call the power is not zero but mu / power overflows (or is NaN), no later call
    returns a finite number again, whatever the later samples. *)
Theorem C111_overflow_spoils (n : nat) (x : nat -> bf * bf * bf) (t0 t : nat) : (1 <= n)%nat -> neqb B (power_at B n x t0) (nofZ B 0) = false ->
  nonfinite (ndiv B (snd (x t0)) (power_at B n x t0)) -> (t0 < t)%nat -> returns nonfinite (oout (nlms_step B (Z.of_nat n)) (Ok (nlms_new B (Z.of_nat n))) x t).
Proof. intros Hn HP HB Ht. apply (lms_over B nonfinite (nf_add prec emax) (nf_sub prec emax) (nf_mul prec emax) n x t0 Hn HP HB t Ht). Qed.
(** C111  It does not overflow as long as the power is a normal number and |mu| <= 2. *)
Theorem C111_normal_power (mu P : bf) : (2 <= prec)%Z -> is_finite mu = true -> is_finite P = true -> (Rabs (B2R mu) <= 2)%R -> (bpow radix2 (2 - emax) <= Rabs (B2R P))%R -> is_finite (ndiv B mu P) = true.
Proof. apply rate_finite. Qed.
(** C111  One tiny first sample with mu / (h h) not finite is enough, for every filter length. *)
Theorem C111_first_sample (n : nat) (x : nat -> bf * bf * bf) (h d mu : bf) (t : nat) : (1 <= n)%nat -> x 0%nat = (h, d, mu) -> neqb B (nmul B h h) (nofZ B 0) = false -> nonfinite (ndiv B mu (nmul B h h)) ->
  (1 <= t)%nat -> returns nonfinite (oout (nlms_step B (Z.of_nat n)) (Ok (nlms_new B (Z.of_nat n))) x t).
Proof.
  intros Hn E H1 H2 Ht. assert (P : power_at B n x 0 = nmul B h h).
  { pose proof (first_power prec emax n (fun k => fst (fst (x k))) Hn) as Q. cbv beta in Q. rewrite E in Q. cbn [fst] in Q. apply Q, H1. }
  apply (C111_overflow_spoils n x 0 t Hn); rewrite ?P, ?E; auto.
Qed.
(** C111  NCLMS: the same; and a sample that is not finite (NaN) makes this and all later outputs so. *)
Theorem C111_complex_overflow_spoils (n : nat) (x : nat -> cplx bf * cplx bf * bf) (t0 t : nat) : (1 <= n)%nat -> neqb B (cpower_at B n x t0) (nofZ B 0) = false ->
  nonfinite (ndiv B (snd (x t0)) (cpower_at B n x t0)) -> (t0 < t)%nat -> returns (part nonfinite) (oout (nclms_step B (Z.of_nat n)) (Ok (nclms_new B (Z.of_nat n))) x t).
Proof. intros Hn HP HB Ht. apply (clms_over B nonfinite (nf_add prec emax) (nf_sub prec emax) (nf_mul prec emax) (nf_opp prec emax) (nf_neq0 prec emax) n x t0 Hn HP HB t Ht). Qed.
Theorem C111_complex_bad_sample (n : nat) : (1 <= n)%nat -> let o := oout (nclms_step B (Z.of_nat n)) (Ok (nclms_new B (Z.of_nat n))) in
  spoils (fun p => part nonfinite (fst (fst p))) (returns (part nonfinite)) o /\ spoils (fun p => part nan (fst (fst p))) (returns (part nan)) o.
Proof.
  intros Hn o. split.
  - apply (clms_spoils B nonfinite (nf_add prec emax) (nf_sub prec emax) (nf_mul prec emax) (nf_opp prec emax) (nf_neq0 prec emax) n Hn).
  - apply (clms_spoils B nan (nan_add prec emax) (nan_sub prec emax) (nan_mul prec emax) (nan_opp prec emax) (fun a H => nan_eq prec emax a _ (or_introl H)) n Hn).
Qed.
Theorem C111_complex_first_sample (n : nat) (x : nat -> cplx bf * cplx bf * bf) (h d : cplx bf) (mu : bf) (t : nat) : (1 <= n)%nat -> x 0%nat = (h, d, mu) -> let P := cnorm B (cconj B h) in
  neqb B P (nofZ B 0) = false -> nonfinite (ndiv B mu P) -> (1 <= t)%nat -> returns (part nonfinite) (oout (nclms_step B (Z.of_nat n)) (Ok (nclms_new B (Z.of_nat n))) x t).
Proof.
  intros Hn E P H1 H2 Ht. assert (Q : cpower_at B n x 0 = P).
  { pose proof (first_cpower prec emax n (fun k => cconj B (fst (fst (x k)))) Hn) as Q. cbv beta in Q. rewrite E in Q. cbn [fst] in Q. apply Q, H1. }
  apply (C111_complex_overflow_spoils n x 0 t Hn); rewrite ?Q, ?E; auto.
Qed.
End Ieee.
Print Assumptions C111_complex_overflow_spoils.
Print Assumptions C111_complex_bad_sample.
Print Assumptions C111_complex_first_sample.
Print Assumptions C111_overflow_spoils.
Print Assumptions C111_normal_power.
Print Assumptions C111_first_sample.

(** 2^-k *)
Definition tiny {prec emax} {Hp : Prec_gt_0 prec} {Hpe : Prec_lt_emax prec emax} (k : Z) : binary_float prec emax := binary_normalize prec emax _ _ mode_NE 1 (- k) false.
(** C111  float: a first sample of 2^-64 (about 5e-20), desired value 1, mu = 1; double: 2^-512.  All later outputs are
    infinite or NaN, for every filter length and all later samples: that finite samples keep the filter finite is refuted. *)
Theorem C111_finite_refuted : forall n : nat, (1 <= n)%nat ->
  (forall x t, x 0%nat = (tiny 64, n1 b32, n1 b32) -> (1 <= t)%nat -> returns nonfinite (oout (nlms_step b32 (Z.of_nat n)) (Ok (nlms_new b32 (Z.of_nat n))) x t)) /\
  (forall x t, x 0%nat = (tiny 512, n1 b64, n1 b64) -> (1 <= t)%nat -> returns nonfinite (oout (nlms_step b64 (Z.of_nat n)) (Ok (nlms_new b64 (Z.of_nat n))) x t)).
Proof.
  intros n Hn. split; intros x t E Ht; (eapply C111_first_sample; [exact Hn|exact E| | |exact Ht]); unfold nonfinite; vm_compute; reflexivity.
Qed.
Print Assumptions C111_finite_refuted.
(** C111  NCLMS with a first sample of 2^-64 i (float), 2^-512 i (double) *)
Theorem C111_complex_finite_refuted : forall n : nat, (1 <= n)%nat ->
  (forall x t, x 0%nat = ((n0 b32, tiny 64), cofr b32 (n1 b32), n1 b32) -> (1 <= t)%nat -> returns (part nonfinite) (oout (nclms_step b32 (Z.of_nat n)) (Ok (nclms_new b32 (Z.of_nat n))) x t)) /\
  (forall x t, x 0%nat = ((n0 b64, tiny 512), cofr b64 (n1 b64), n1 b64) -> (1 <= t)%nat -> returns (part nonfinite) (oout (nclms_step b64 (Z.of_nat n)) (Ok (nclms_new b64 (Z.of_nat n))) x t)).
Proof.
  intros n Hn. split; intros x t E Ht; (eapply C111_complex_first_sample; [exact Hn|exact E| | |exact Ht]); unfold nonfinite; vm_compute; reflexivity.
Qed.
Print Assumptions C111_complex_finite_refuted.

(** the sample is finite and positive and the first output still the desired value 1 *)
Example C111_case : is_finite (tiny 64 : binary_float 24 128) = true /\ Bltb (B754_zero false) (tiny 64 : binary_float 24 128) = true /\
  forall x, x 0%nat = (tiny 64, n1 b32, n1 b32) -> oout (nlms_step b32 4) (Ok (nlms_new b32 4)) x 0 = Ok (n1 b32).
Proof. split; [reflexivity|]. split; [reflexivity|]. intros x E. unfold oout. cbn [ostate_at bind]. rewrite E. vm_compute. reflexivity. Qed.
(** a harmless first sample: 2^-32, power 2^-64 *)
Example C111_harmless : is_finite (ndiv b32 (n1 b32) (nmul b32 (tiny 32) (tiny 32))) = true.
Proof. reflexivity. Qed.
