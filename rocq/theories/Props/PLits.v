(* C93: the literals of the sources *)
From Coq Require Import Reals ZArith Lia Lra List.
From Interval Require Import Tactic.
From Flocq Require Import Core.
From Verif Require Import Model.UnitCircle Model.Atan2 Model.Exp Model.Ema Model.WinFun Model.Cordic Proofs.BaseLemmas Proofs.TestRound Model.Literals Proofs.LitRound Proofs.LitTable Spec.Rounding.
From Verif Require Import Props.PFftRound.
Import ListNotations.
Open Scope R_scope.

(** ** C93 *)
(** Each of the nine constants is, in float, double and long double, the number of that type next to the exact value. *)
Theorem C93_constants : Forall (fun lc : R * R => let (l, c) := lc in rnd32 l = rnd32 c /\ rnd64 l = rnd64 c /\ rnd80 l = rnd80 c)
  [(EighthPi_lit, PI / 8); (FourthPi_lit, PI / 4); (HalfPi_lit, PI / 2); (Pi_lit, PI); (TwoPi_lit, 2 * PI); (FourPi_lit, 4 * PI);
   (SqrtPi_lit, sqrt PI); (SqrtTwoPi_lit, sqrt (2 * PI)); (InvSqrtTwo_lit, sqrt 2 / 2)].
Proof.
  apply Forall_cons; [exact (conj (eq_sym c32_EighthPi_lit) (conj (eq_sym c64_EighthPi_lit) (eq_sym c80_EighthPi_lit)))|].
  apply Forall_cons; [exact (conj (eq_sym c32_FourthPi_lit) (conj (eq_sym c64_FourthPi_lit) (eq_sym c80_FourthPi_lit)))|].
  apply Forall_cons; [exact (conj (eq_sym c32_HalfPi_lit) (conj (eq_sym c64_HalfPi_lit) (eq_sym c80_HalfPi_lit)))|].
  apply Forall_cons; [exact (conj (eq_sym c32_Pi_lit) (conj (eq_sym c64_Pi_lit) (eq_sym c80_Pi_lit)))|].
  apply Forall_cons; [exact (conj (eq_sym c32_TwoPi_lit) (conj (eq_sym c64_TwoPi_lit) (eq_sym c80_TwoPi_lit)))|].
  apply Forall_cons; [exact (conj (eq_sym c32_FourPi_lit) (conj (eq_sym c64_FourPi_lit) (eq_sym c80_FourPi_lit)))|].
  apply Forall_cons; [exact (conj (eq_sym c32_SqrtPi_lit) (conj (eq_sym c64_SqrtPi_lit) (eq_sym c80_SqrtPi_lit)))|].
  apply Forall_cons; [exact (conj (eq_sym c32_SqrtTwoPi_lit) (conj (eq_sym c64_SqrtTwoPi_lit) (eq_sym c80_SqrtTwoPi_lit)))|].
  apply Forall_cons; [exact (conj (eq_sym c32_InvSqrtTwo_lit) (conj (eq_sym c64_InvSqrtTwo_lit) (eq_sym c80_InvSqrtTwo_lit)))|].
  apply Forall_nil.
Qed.
Print Assumptions C93_constants.
(** for instance, the float and the double called Pi *)
Example C93_pi : rnd32 Pi_lit = 13176795 / IZR (2 ^ 22) /\ rnd64 Pi_lit = 7074237752028440 / IZR (2 ^ 51).
Proof. split; [apply l32_Pi_lit|apply l64_Pi_lit]. Qed.

(** C++ converts a literal to double or, with the suffix L, to long double first and only then to the type of the
    constant.  With these literals the second rounding never changes the result, whichever of the two it is:
    so the functions of the other theorems, which round once, are those of the program. *)
Theorem C93_conversions (long : R -> bool) :
  (EighthPi (Cn long rnd32) = EighthPi (Fn rnd32) /\ EighthPi (Cn long rnd64) = EighthPi (Fn rnd64)) /\
  (FourthPi (Cn long rnd32) = FourthPi (Fn rnd32) /\ FourthPi (Cn long rnd64) = FourthPi (Fn rnd64)) /\
  (HalfPi (Cn long rnd32) = HalfPi (Fn rnd32) /\ HalfPi (Cn long rnd64) = HalfPi (Fn rnd64)) /\
  (Pi (Cn long rnd32) = Pi (Fn rnd32) /\ Pi (Cn long rnd64) = Pi (Fn rnd64)) /\
  (TwoPi (Cn long rnd32) = TwoPi (Fn rnd32) /\ TwoPi (Cn long rnd64) = TwoPi (Fn rnd64)) /\
  (FourPi (Cn long rnd32) = FourPi (Fn rnd32) /\ FourPi (Cn long rnd64) = FourPi (Fn rnd64)) /\
  (SqrtPi (Cn long rnd32) = SqrtPi (Fn rnd32) /\ SqrtPi (Cn long rnd64) = SqrtPi (Fn rnd64)) /\
  (SqrtTwoPi (Cn long rnd32) = SqrtTwoPi (Fn rnd32) /\ SqrtTwoPi (Cn long rnd64) = SqrtTwoPi (Fn rnd64)) /\
  (InvSqrtTwo (Cn long rnd32) = InvSqrtTwo (Fn rnd32) /\ InvSqrtTwo (Cn long rnd64) = InvSqrtTwo (Fn rnd64)).
Proof.
  refine (conj (conj _ _) (conj (conj _ _) (conj (conj _ _) (conj (conj _ _) (conj (conj _ _) (conj (conj _ _) (conj (conj _ _) (conj (conj _ _) (conj _ _))))))))); cbv beta delta [EighthPi FourthPi HalfPi Pi TwoPi FourPi SqrtPi SqrtTwoPi InvSqrtTwo]; open_num; lits32; lits64; reflexivity.
Qed.
Print Assumptions C93_conversions.

Lemma arg_eq (C F : num R) f g c1 n c2 c3 N : (forall a b, uc_rad C a b = uc_rad F a b) -> (forall x, f x = g x) ->
  uc_arg C f c1 n c2 c3 N = uc_arg F g c1 n c2 c3 N.
Proof. intros R E. unfold uc_arg. repeat (let b := fresh in set (b := ichk _); destruct b; cbn [bind]; auto). rewrite R, E. reflexivity. Qed.

Theorem C93_unit_circle (long : R -> bool) (n N : Z) :
  uc_cos (Cn long rnd32) n N = uc_cos (Fn rnd32) n N /\ uc_sin (Cn long rnd32) n N = uc_sin (Fn rnd32) n N /\
  uc_cos (Cn long rnd64) n N = uc_cos (Fn rnd64) n N /\ uc_sin (Cn long rnd64) n N = uc_sin (Fn rnd64) n N.
Proof.
  assert (K : forall (C F : num R), (forall a b, uc_rad C a b = uc_rad F a b) -> (forall x, cosine_approx C x = cosine_approx F x) ->
    (forall x, sine_approx C x = sine_approx F x) -> (forall x, nopp C x = nopp F x) -> uc_cos C n N = uc_cos F n N /\ uc_sin C n N = uc_sin F n N).
  { intros C F R Ec Es Eo.
    assert (E1 : forall c1 c2 c3, uc_arg C (cosine_approx C) c1 n c2 c3 N = uc_arg F (cosine_approx F) c1 n c2 c3 N) by (intros; apply arg_eq; auto).
    assert (E2 : forall c1 c2 c3, uc_arg C (sine_approx C) c1 n c2 c3 N = uc_arg F (sine_approx F) c1 n c2 c3 N) by (intros; apply arg_eq; auto).
    assert (E3 : forall c1 c2 c3, uc_arg C (neg C (cosine_approx C)) c1 n c2 c3 N = uc_arg F (neg F (cosine_approx F)) c1 n c2 c3 N)
      by (intros; apply arg_eq; auto; intros; unfold neg; rewrite Ec, Eo; reflexivity).
    assert (E4 : forall c1 c2 c3, uc_arg C (neg C (sine_approx C)) c1 n c2 c3 N = uc_arg F (neg F (sine_approx F)) c1 n c2 c3 N)
      by (intros; apply arg_eq; auto; intros; unfold neg; rewrite Es, Eo; reflexivity).
    unfold uc_cos, uc_sin. split; rewrite !E1, !E2, !E3, !E4; reflexivity. }
  destruct (K (Cn long rnd32) (Fn rnd32)) as [A B]; [apply rad32|intros; apply cosk32|intros; apply sink32|reflexivity|].
  destruct (K (Cn long rnd64) (Fn rnd64)) as [C D]; [apply rad64|intros; apply cosk64|intros; apply sink64|reflexivity|].
  auto.
Qed.
Print Assumptions C93_unit_circle.

Opaque at_P0 at_P1 at_P2 at_P3 at_P4 at_Q0 at_Q1 at_Q2 at_Q3 at_Q4 at_MOREBITS.
Lemma atk32 long x : atan_kernel (Cn long rnd32) x = atan_kernel (Fn rnd32) x.
Proof. unfold atan_kernel. open_num. rewrite w32_at_P0, w32_at_P1, w32_at_P2, w32_at_P3, w32_at_P4, w32_at_Q0, w32_at_Q1, w32_at_Q2, w32_at_Q3, w32_at_Q4. reflexivity. Qed.
Lemma ata32 long x : atan_approx (Cn long rnd32) x = atan_approx (Fn rnd32) x.
Proof. unfold atan_approx, HalfPi, FourthPi. rewrite !atk32. open_num. change 0.66 with lit066; change 2.41421356237309504880 with lit241; change 0.5 with lit05. rewrite w32_lit066, w32_lit241, w32_lit05, w32_at_MOREBITS, w32_HalfPi_lit, w32_FourthPi_lit. reflexivity. Qed.
Lemma atn32 long x : Atan2.atan (Cn long rnd32) x = Atan2.atan (Fn rnd32) x.
Proof. unfold Atan2.atan. rewrite !ata32. reflexivity. Qed.
Lemma at232 long sy y x : Atan2.atan2 (Cn long rnd32) sy y x = Atan2.atan2 (Fn rnd32) sy y x.
Proof. unfold Atan2.atan2, copysign, Pi, HalfPi. rewrite atn32. open_num. rewrite w32_Pi_lit, w32_HalfPi_lit. reflexivity. Qed.
Lemma atk64 long x : atan_kernel (Cn long rnd64) x = atan_kernel (Fn rnd64) x.
Proof. unfold atan_kernel. open_num. rewrite w64_at_P0, w64_at_P1, w64_at_P2, w64_at_P3, w64_at_P4, w64_at_Q0, w64_at_Q1, w64_at_Q2, w64_at_Q3, w64_at_Q4. reflexivity. Qed.
Lemma ata64 long x : atan_approx (Cn long rnd64) x = atan_approx (Fn rnd64) x.
Proof. unfold atan_approx, HalfPi, FourthPi. rewrite !atk64. open_num. change 0.66 with lit066; change 2.41421356237309504880 with lit241; change 0.5 with lit05. rewrite w64_lit066, w64_lit241, w64_lit05, w64_at_MOREBITS, w64_HalfPi_lit, w64_FourthPi_lit. reflexivity. Qed.
Lemma atn64 long x : Atan2.atan (Cn long rnd64) x = Atan2.atan (Fn rnd64) x.
Proof. unfold Atan2.atan. rewrite !ata64. reflexivity. Qed.
Lemma at264 long sy y x : Atan2.atan2 (Cn long rnd64) sy y x = Atan2.atan2 (Fn rnd64) sy y x.
Proof. unfold Atan2.atan2, copysign, Pi, HalfPi. rewrite atn64. open_num. rewrite w64_Pi_lit, w64_HalfPi_lit. reflexivity. Qed.
Theorem C93_atan2 (long : R -> bool) (sy : bool) (y x : R) :
  Atan2.atan2 (Cn long rnd32) sy y x = Atan2.atan2 (Fn rnd32) sy y x /\ Atan2.atan2 (Cn long rnd64) sy y x = Atan2.atan2 (Fn rnd64) sy y x.
Proof. split; [apply at232|apply at264]. Qed.
Print Assumptions C93_atan2.

Opaque ex_LOG210 ex_LG102A ex_LG102B ex_P0 ex_P1 ex_P2 ex_P3 ex_Q0 ex_Q1 ex_Q2 db_scale rnd80.
Theorem C93_decibel (long : R -> bool) (rint : R -> Z) (x : R) :
  exp10 (Cn long rnd32) rint x = exp10 (Fn rnd32) rint x /\ exp10 (Cn long rnd64) rint x = exp10 (Fn rnd64) rint x /\
  decibel (Cn long rnd32) x = decibel (Fn rnd32) x /\ decibel (Cn long rnd64) x = decibel (Fn rnd64) x.
Proof.
  refine (conj _ (conj _ (conj _ _))).
  - unfold exp10, Exp.ldexp. open_num. rewrite w32_ex_LOG210, w32_ex_LG102A, w32_ex_LG102B, w32_ex_P0, w32_ex_P1, w32_ex_P2, w32_ex_P3, w32_ex_Q0, w32_ex_Q1, w32_ex_Q2. reflexivity.
  - unfold exp10, Exp.ldexp. open_num. rewrite w64_ex_LOG210, w64_ex_LG102A, w64_ex_LG102B, w64_ex_P0, w64_ex_P1, w64_ex_P2, w64_ex_P3, w64_ex_Q0, w64_ex_Q1, w64_ex_Q2. reflexivity.
  - unfold decibel. open_num. rewrite w32_db_scale. reflexivity.
  - unfold decibel. open_num. rewrite w64_db_scale. reflexivity.
Qed.
Print Assumptions C93_decibel.

Theorem C93_cascade_factor (long : R -> bool) (n : nat) : (n <= 16)%nat ->
  cascade_factor (Cn long rnd32) n = cascade_factor (Fn rnd32) n /\ cascade_factor (Cn long rnd64) n = cascade_factor (Fn rnd64) n.
Proof.
  intros H. do 17 (destruct n as [|n]; [split; unfold cascade_factor; open_num;
    first [apply w32_casc2|apply w64_casc2|apply w32_casc3|apply w64_casc3|apply w32_casc4|apply w64_casc4|apply w32_casc5|apply w64_casc5|apply w32_casc6|apply w64_casc6
      |apply w32_casc7|apply w64_casc7|apply w32_casc8|apply w64_casc8|apply w32_casc9|apply w64_casc9|apply w32_casc10|apply w64_casc10|apply w32_casc11|apply w64_casc11
      |apply w32_casc12|apply w64_casc12|apply w32_casc13|apply w64_casc13|apply w32_casc14|apply w64_casc14|apply w32_casc15|apply w64_casc15|apply w32_casc16|apply w64_casc16
      |replace 1%R with lit1 by (unfold lit1; lra); first [apply w32_lit1|apply w64_lit1]]|]). lia.
Qed.
Print Assumptions C93_cascade_factor.

Theorem C93_windows (long : R -> bool) (U : ptrig R) (n N : Z) (a : R) :
  win_hann (Cn long rnd32) U n N = win_hann (Fn rnd32) U n N /\ win_hann (Cn long rnd64) U n N = win_hann (Fn rnd64) U n N /\
  win_hamming (Cn long rnd32) U n N = win_hamming (Fn rnd32) U n N /\ win_hamming (Cn long rnd64) U n N = win_hamming (Fn rnd64) U n N /\
  win_lanczos (Cn long rnd32) U n N = win_lanczos (Fn rnd32) U n N /\ win_lanczos (Cn long rnd64) U n N = win_lanczos (Fn rnd64) U n N /\
  blackman_of (Cn long rnd32) a = blackman_of (Fn rnd32) a /\ blackman_of (Cn long rnd64) a = blackman_of (Fn rnd64) a.
Proof.
  refine (conj _ (conj _ (conj _ (conj _ (conj _ (conj _ (conj _ _))))))); unfold win_hann, win_hamming, win_lanczos, blackman_of, Pi; open_num; change 0.54 with lit054; change 0.46 with lit046;
    rewrite ?w32_lit054, ?w32_lit046, ?w64_lit054, ?w64_lit046; (lits32; lits64); reflexivity.
Qed.
Print Assumptions C93_windows.

(** The literals of CORDIC are atan(2^-i)/pi to 66 decimals, and the table computed from them at compile time, in long
    double, is the one of the model. *)
Definition cordic_literal (i : nat) : R := IZR (nth i cordic_digits 0%Z) / IZR (10 ^ 67).
Theorem C93_cordic_digits (i : nat) : (i < 16)%nat -> Rabs (cordic_literal i - Ratan.atan (/ 2 ^ i) / PI) <= 1e-66.
Proof.
  intros H. unfold cordic_literal. do 16 (destruct i as [|i]; [cbn [nth cordic_digits]; let v := eval vm_compute in (10 ^ 67)%Z in change (10 ^ 67)%Z with v; interval with (i_prec 280)|]). lia.
Qed.
Print Assumptions C93_cordic_digits.

(** int(0.5 + FAC*literal) in long double *)
Definition cordic_table (FAC : Z) (i : nat) : Z := Zfloor (rnd80 (1 / 2 + rnd80 (IZR FAC * rnd80 (cordic_literal i)))).
Theorem C93_cordic_table (BYTES : Z) (i : nat) : (BYTES = 1 \/ BYTES = 2)%Z -> (i < Z.to_nat (8 * BYTES))%nat ->
  cordic_lut (BYTES * 2 ^ (8 * BYTES)) (Z.of_nat i) = Ok (cordic_table (BYTES * 2 ^ (8 * BYTES)) i).
Proof. apply cordic_table_ok. Qed.
Print Assumptions C93_cordic_table.
Example C93_cordic_ex : map (fun i => cordic_lut 256 (Z.of_nat i)) (seq 0 8) = map (fun z => Ok z) [64; 38; 20; 10; 5; 3; 1; 1]%Z.
Proof. reflexivity. Qed.
