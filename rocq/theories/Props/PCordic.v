(* C37, C74: the CORDIC arctangent (cordic.hh) *)
From Coq Require Import ZArith List Lia Reals Lra.
From Flocq Require Import Core.
From Interval Require Import Tactic.
From Verif Require Import Model.Cordic Proofs.CordicProofs Proofs.CordicScan Proofs.CordicInt Proofs.CordicBound Proofs.Cordic8.
Open Scope Z_scope.

(** For 8 and 16 bit numbers no int overflows on any of the 2^16 resp. 2^32 pairs, and
    the result is a number of the type. *)
Theorem C37_safe BYTES x y : BYTES = 1 \/ BYTES = 2 ->
  - 2 ^ (8 * BYTES - 1) <= x < 2 ^ (8 * BYTES - 1) -> - 2 ^ (8 * BYTES - 1) <= y < 2 ^ (8 * BYTES - 1) ->
  exists a, cordic_atan2 BYTES y x = Ok a /\ - 2 ^ (8 * BYTES - 1) <= a < 2 ^ (8 * BYTES - 1).
Proof. exact (cordic_safe BYTES x y). Qed.
Print Assumptions C37_safe.
Example C37_ex_corner : cordic_atan2 2 (-32768) (-32768) = Ok (-24576) /\ cordic_atan2 1 127 (-128) = Ok 96.
Proof. split; vm_compute; reflexivity. Qed.

(** Full range, all directions n of N = 2^BITS: for u, v within 2^-18 of (N/2-1) cos and
    (N/2-1) sin of 2 pi n/N, rounded to nearest, the result is within 1 of n, without wrapping. *)
Theorem C37_full8 n u v : -128 <= n < 128 ->
  (Rabs (u - 127 * cos (IZR n * (2 * PI / 256))) <= / 262144)%R ->
  (Rabs (v - 127 * sin (IZR n * (2 * PI / 256))) <= / 262144)%R ->
  exists a, cordic_atan2 1 (ZnearestE v) (ZnearestE u) = Ok a /\ Z.abs (a - n) <= 1.
Proof. exact (full8 n u v). Qed.
Print Assumptions C37_full8.
Theorem C37_full16 n u v : -32768 <= n < 32768 ->
  (Rabs (u - 32767 * cos (IZR n * (2 * PI / 65536))) <= / 262144)%R ->
  (Rabs (v - 32767 * sin (IZR n * (2 * PI / 65536))) <= / 262144)%R ->
  exists a, cordic_atan2 2 (ZnearestE v) (ZnearestE u) = Ok a /\ Z.abs (a - n) <= 1.
Proof. exact (full16 n u v). Qed.
Print Assumptions C37_full16.
(** However the full-range vector is rounded: for every direction n and every vector of numbers of the type whose components
    are each within 1 of (N/2-1) cos and (N/2-1) sin of 2 pi n/N, the result is within 1 of n, modulo a full turn. *)
Theorem C37_any_rounding8 n x y : -128 <= n < 128 -> -128 <= x < 128 -> -128 <= y < 128 ->
  (Rabs (IZR x - 127 * cos (IZR n * (2 * PI / 256))) <= 1)%R -> (Rabs (IZR y - 127 * sin (IZR n * (2 * PI / 256))) <= 1)%R ->
  exists a k, cordic_atan2 1 y x = Ok a /\ Z.abs (a - n - k * 256) <= 1.
Proof. exact (any8 n x y). Qed.
Print Assumptions C37_any_rounding8.
Theorem C37_any_rounding16 n x y : -32768 <= n < 32768 -> -32768 <= x < 32768 -> -32768 <= y < 32768 ->
  (Rabs (IZR x - 32767 * cos (IZR n * (2 * PI / 65536))) <= 1)%R -> (Rabs (IZR y - 32767 * sin (IZR n * (2 * PI / 65536))) <= 1)%R ->
  exists a k, cordic_atan2 2 y x = Ok a /\ Z.abs (a - n - k * 65536) <= 1.
Proof. exact (any16 n x y). Qed.
Print Assumptions C37_any_rounding16.
(** both hypotheses hold for the components rounded towards zero, here in direction 8000 *)
Example C37_ex_any : (Rabs (IZR 23592 - 32767 * cos (IZR 8000 * (2 * PI / 65536))) <= 1)%R /\
  (Rabs (IZR 22739 - 32767 * sin (IZR 8000 * (2 * PI / 65536))) <= 1)%R /\ cordic_atan2 2 22739 23592 = Ok 7999.
Proof. split; [interval|split; [interval|vm_compute; reflexivity]]. Qed.

(** the vector computed without error meets the hypotheses for every n *)
Corollary C37_full_exact n : -32768 <= n < 32768 ->
  exists a, cordic_atan2 2 (ZnearestE (32767 * sin (IZR n * (2 * PI / 65536)))) (ZnearestE (32767 * cos (IZR n * (2 * PI / 65536)))) = Ok a /\
    Z.abs (a - n) <= 1.
Proof.
  intros Hn. apply C37_full16; [ exact Hn | | ];
    match goal with |- (Rabs (?a - ?b) <= _)%R => replace (a - b)%R with 0%R by ring end; rewrite Rabs_R0; lra.
Qed.
Print Assumptions C37_full_exact.
(** an error of 1 does occur *)
Example C37_ex_one : cordic_atan2 1 (-12) (-126) = Ok (-125) /\
  ZnearestE (127 * sin (IZR (-124) * (2 * PI / 256))) = -12 /\ ZnearestE (127 * cos (IZR (-124) * (2 * PI / 256))) = -126.
Proof. split; [ vm_compute; reflexivity | ]. split; apply Znearest_imp; interval. Qed.

(** Every vector of length r >= 150 with direction theta (16 bit): the result is within
    3.32 + 73014/r of theta in units of the type, modulo a full turn. *)
Theorem C74_bound16 (x y : Z) (r theta : R) : -32768 <= x < 32768 -> -32768 <= y < 32768 ->
  (150 <= r)%R -> IZR x = (r * cos theta)%R -> IZR y = (r * sin theta)%R ->
  exists a k, cordic_atan2 2 y x = Ok a /\ (Rabs (IZR a - theta * 32768 / PI - IZR k * 65536) <= 3.32 + 73014 / r)%R.
Proof. exact (cordic_acc16 x y r theta). Qed.
Print Assumptions C74_bound16.

(** All 2^16 pairs of 8 bit numbers: within 2 units when a component is at least 24 in
    magnitude, within 15 for every other vector but the zero vector. *)
Theorem C74_bound8 (x y : Z) (r theta : R) : -128 <= x < 128 -> -128 <= y < 128 ->
  (0 < r)%R -> IZR x = (r * cos theta)%R -> IZR y = (r * sin theta)%R ->
  exists a k, cordic_atan2 1 y x = Ok a /\
    (Rabs (IZR a - theta * 128 / PI - IZR k * 256) <= if Z.max (Z.abs x) (Z.abs y) <? 24 then 15 else 2)%R.
Proof. exact (acc8_all x y r theta). Qed.
Print Assumptions C74_bound8.
Example C74_ex_bound : (IZR (-100) = 100 * cos PI)%R /\ (IZR 0 = 100 * sin PI)%R /\ cordic_atan2 1 0 (-100) = Ok (-128).
Proof. rewrite cos_PI, sin_PI. split; [ lra | split; [ lra | vm_compute; reflexivity ] ]. Qed.
(** short vectors really are far off: (2, 1) gives 33 for an angle of less than 19 ... *)
Theorem C74_short_refuted : cordic_atan2 1 1 2 = Ok 33 /\ (atan (1 / 2) * 128 / PI < 19)%R /\ cordic_atan2 2 0 1 = Ok (-1799).
Proof. split; [ vm_compute; reflexivity | ]. split; [ interval | vm_compute; reflexivity ]. Qed.
Print Assumptions C74_short_refuted.
(** ... and the zero vector gives 71, about 100 degrees *)
Theorem C74_zero_refuted : cordic_atan2 1 0 0 = Ok 71.
Proof. vm_compute. reflexivity. Qed.
Print Assumptions C74_zero_refuted.
