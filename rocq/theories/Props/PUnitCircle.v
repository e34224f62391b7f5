(* Theorems about UnitCircle (unit_circle.hh) and Const (const.hh) *)
From Coq Require Import Reals ZArith Lia Lra List.
From Interval Require Import Tactic.
From Verif Require Import Proofs.BaseLemmas Model.UnitCircle Proofs.UnitCircleProofs.
Open Scope R_scope.

(** C33  In exact arithmetic cos(n, N) and sin(n, N) are within 3e-17 of the cosine and sine of n/N of a turn;
    all int intermediates are in range (the results are [Ok]). *)
Theorem C33_accuracy (n N : Z) : (1 <= N)%Z -> (Z.abs n <= N)%Z -> (8 * N <= INT_MAX)%Z ->
  exists c s, uc_cos Rn n N = Ok c /\ uc_sin Rn n N = Ok s /\
  Rabs (c - cos (2 * PI * IZR n / IZR N)) <= 3e-17 /\ Rabs (s - sin (2 * PI * IZR n / IZR N)) <= 3e-17.
Proof. apply uc_acc. Qed.
Print Assumptions C33_accuracy.

(** C33  The argument handed to the polynomial kernels is at most an eighth of a turn and stands for n/N
    shifted by whole quarter turns: the integer reduction loses nothing. *)
Theorem C33_reduction_exact {T : Type} (Nm : num T) (n N : Z) : (1 <= N)%Z -> (Z.abs n <= N)%Z -> (8 * N <= INT_MAX)%Z ->
  exists s d q : Z, (0 < d)%Z /\ (8 * Z.abs s <= d)%Z /\ (4 * s * N = (4 * n + q * N) * d)%Z /\
  let x := uc_rad Nm s d in
  (uc_cos Nm n N, uc_sin Nm n N) =
    (match q mod 4 with
     | 0 => (Ok (cosine_approx Nm x), Ok (sine_approx Nm x))
     | 1 => (Ok (sine_approx Nm x), Ok (nopp Nm (cosine_approx Nm x)))
     | 2 => (Ok (nopp Nm (cosine_approx Nm x)), Ok (nopp Nm (sine_approx Nm x)))
     | _ => (Ok (nopp Nm (sine_approx Nm x)), Ok (cosine_approx Nm x)) end)%Z.
Proof.
  intros HN Hn HI. exists (red_s n N), (red_d n N), (quarter n N). destruct (red_ok n N) as (A & B & C); auto. splits; auto.
  cbv zeta. rewrite uc_cos_red, uc_sin_red by auto.
  destruct (quarter_cases n N) as [->|[->|[->|[->|[->|[->|[->|[->| ->]]]]]]]]; reflexivity.
Qed.
Print Assumptions C33_reduction_exact.

(** -5/12 of a turn: cosine -sqrt 3 / 2 *)
Example C33_example : exists c, uc_cos Rn (-5) 12 = Ok c /\ Rabs (c + sqrt 3 / 2) <= 3e-17.
Proof.
  destruct (C33_accuracy (-5) 12) as (c & s & C & _ & A & _); try (unfold INT_MAX; lia). exists c. split; auto.
  replace (cos (2 * PI * IZR (-5) / IZR 12)) with (- (sqrt 3 / 2)) in A; [replace (c + sqrt 3 / 2) with (c - - (sqrt 3 / 2)) by ring; auto|].
  replace (2 * PI * -5 / 12) with (- (PI / 6 + PI) + 2 * (PI / 6)  ) by field.
  replace (- (PI / 6 + PI) + 2 * (PI / 6)) with (- (PI - PI / 6)) by field. rewrite cos_neg, Rtrigo_facts.cos_pi_minus, cos_PI6. field.
Qed.
(** one more and 8*N leaves the int range *)
Example C33_overflow : uc_cos Rn 268435456 268435456 = Undefined.
Proof. reflexivity. Qed.

(** C34  For every rounding that commutes with sign change (exact arithmetic among them), away from the odd
    eighths of a turn cos is even and sin is odd in n, bit for bit. *)
Theorem C34_even_odd (rnd : R -> R) (n N : Z) : (forall x, rnd (- x) = - rnd x) ->
  (1 <= N)%Z -> (Z.abs n <= N)%Z -> (8 * N <= INT_MAX)%Z -> (forall k, Z.odd k = true -> 8 * n <> k * N)%Z ->
  exists c s, uc_cos (Fn rnd) n N = Ok c /\ uc_cos (Fn rnd) (- n) N = Ok c /\ uc_sin (Fn rnd) n N = Ok s /\ uc_sin (Fn rnd) (- n) N = Ok (- s).
Proof. intros Ho HN Hn HI Ht. apply uc_even_odd; auto. intros (k & K & E). apply (Ht k K E). Qed.
Print Assumptions C34_even_odd.
Example C34_even_odd_applies : (forall k, Z.odd k = true -> 8 * 3 <> k * 7)%Z /\ forall x, (fun x : R => x) (- x) = - (fun x : R => x) x.
Proof. split; [intros k _; lia|reflexivity]. Qed.

(** C34  At an odd eighth the two signs of n use different kernels, and even in exact arithmetic cos(1,8) is
    not cos(-1,8): the unrestricted symmetry is false. *)
Theorem C34_even_at_ties_refuted : exists c c', uc_cos Rn 1 8 = Ok c /\ uc_cos Rn (-1) 8 = Ok c' /\ c <> c'.
Proof. apply uc_tie. Qed.
Print Assumptions C34_even_at_ties_refuted.

(** C34  The values lie on the unit circle up to 2e-16 *)
Theorem C34_pythagoras (n N : Z) : (1 <= N)%Z -> (Z.abs n <= N)%Z -> (8 * N <= INT_MAX)%Z ->
  exists c s, uc_cos Rn n N = Ok c /\ uc_sin Rn n N = Ok s /\ Rabs (c * c + s * s - 1) <= 2e-16.
Proof. apply uc_pythagoras. Qed.
Print Assumptions C34_pythagoras.

(** C34  Quarter turns are exact, for every rounding that commutes with sign change and keeps 1 *)
Theorem C34_quarters (rnd : R -> R) (n N k : Z) : (forall x, rnd (- x) = - rnd x) -> rnd 1 = 1 ->
  (1 <= N)%Z -> (Z.abs n <= N)%Z -> (8 * N <= INT_MAX)%Z -> (4 * n = k * N)%Z ->
  exists c s, uc_cos (Fn rnd) n N = Ok c /\ uc_sin (Fn rnd) n N = Ok s /\
  c = cos (IZR k * (PI / 2)) /\ s = sin (IZR k * (PI / 2)).
Proof. intros. apply uc_quarters; auto. Qed.
Print Assumptions C34_quarters.
Example C34_quarters_example : uc_sin Rn (-3) 12 = Ok (-1) /\ uc_cos Rn 6 12 = Ok (-1).
Proof.
  destruct (C34_quarters (fun x => x) (-3) 12 (-1)) as (_ & s & _ & S & _ & E); try (unfold INT_MAX; lia); auto.
  destruct (C34_quarters (fun x => x) 6 12 2) as (c & _ & C & _ & E' & _); try (unfold INT_MAX; lia); auto.
  change (Fn (fun x => x)) with Rn in *. rewrite S, C, E, E'. split; f_equal.
  - replace (-1 * (PI / 2)) with (- (PI / 2)) by field. rewrite sin_neg, sin_PI2. reflexivity.
  - replace (2 * (PI / 2)) with PI by field. apply cos_PI.
Qed.

(** C41  Every constant is the named real number cut off after its last printed digit *)
Theorem C41_constants :
  (0 <= PI / 8 - EighthPi Rn < 1e-67) /\ (0 <= PI / 4 - FourthPi Rn < 1e-67) /\ (0 <= PI / 2 - HalfPi Rn < 1e-66) /\
  (0 <= PI - Pi Rn < 1e-66) /\ (0 <= 2 * PI - TwoPi Rn < 1e-66) /\ (0 <= 4 * PI - FourPi Rn < 1e-65) /\
  (0 <= sqrt PI - SqrtPi Rn < 1e-66) /\ (0 <= sqrt (2 * PI) - SqrtTwoPi Rn < 1e-66) /\ (0 <= 1 / sqrt 2 - InvSqrtTwo Rn < 1e-67).
Proof.
  unfold EighthPi, FourthPi, HalfPi, Pi, TwoPi, FourPi, SqrtPi, SqrtTwoPi, InvSqrtTwo. cbn [nlit Rn].
  unfold EighthPi_lit, FourthPi_lit, HalfPi_lit, Pi_lit, TwoPi_lit, FourPi_lit, SqrtPi_lit, SqrtTwoPi_lit, InvSqrtTwo_lit.
  repeat split; interval with (i_prec 300).
Qed.
Print Assumptions C41_constants.
