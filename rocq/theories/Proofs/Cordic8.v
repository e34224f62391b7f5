(* The 8 bit CORDIC arctangent on all pairs. *)
From Coq Require Import ZArith List Lia Bool Reals Lra.
From Coquelicot Require Import Coquelicot.
From Flocq Require Import Core.
From Interval Require Import Tactic.
From Verif Require Import Model.Cordic Proofs.BaseLemmas Proofs.CordicProofs Proofs.CordicScan Proofs.CordicBound.
Import ListNotations.
Open Scope Z_scope.

(** the table of the 256 directions, from -128 *)
Fixpoint table (k : nat) (z : Z * Z) : list (Z * Z) :=
  match k with O => [] | S k' => z :: table k' (tstep_fast 54 c8 s8 z) end.

Lemma table_ok : forall k n z E, 0 <= E -> 8 * (E + 4 * Z.of_nat k) <= SC ->
  (Cmod (zc (fst z) (snd z) - IZR SC * circ (IZR n * (2 * PI / 256)))%C <= IZR E)%R ->
  forall j w, nth_error (table k z) j = Some w ->
  (Cmod (zc (fst w) (snd w) - IZR SC * circ (IZR (n + Z.of_nat j) * (2 * PI / 256)))%C <= IZR (E + 4 * Z.of_nat k))%R.
Proof.
  induction k as [|k IH]; intros n z E HE HS Hz j w Hj; [ destruct j; discriminate | ].
  cbn [table] in Hj. destruct j as [|j].
  - cbn in Hj. injection Hj as <-. rewrite Z.add_0_r. apply Rle_trans with (1 := Hz). apply IZR_le. lia.
  - cbn [nth_error] in Hj. rewrite tstep_fast_ok in Hj by lia.
    assert (H1 : (Cmod (zc (fst (tstep (2 ^ 54) c8 s8 z)) (snd (tstep (2 ^ 54) c8 s8 z)) - IZR SC * circ (IZR (n + 1) * (2 * PI / 256)))%C <= IZR (E + 4))%R).
    { rewrite (plus_IZR E). rewrite plus_IZR, Rmult_plus_distr_r, Rmult_1_l.
      apply (tstep_err SC c8 s8); [ reflexivity | exact base8 | exact Hz | ].
      assert (L : 8 * E <= SC) by lia. apply IZR_le in L. rewrite mult_IZR in L. lra. }
    pose proof (IH (n + 1) _ (E + 4) ltac:(lia) ltac:(lia) H1 j w Hj) as H2.
    replace (n + Z.of_nat (S j)) with (n + 1 + Z.of_nat j) by lia.
    replace (E + 4 * Z.of_nat (S k)) with (E + 4 + 4 * Z.of_nat k) by lia. exact H2.
Qed.

Definition tab8 : list (Z * Z) := Eval vm_compute in table 256 (- SC, 0).
Lemma tab8_eq : tab8 = table 256 (- SC, 0).
Proof. vm_compute. reflexivity. Qed.

(** the result a is within the angle of tangent T/D of the direction of (x, y) *)
Definition close (T D a x y : Z) : bool :=
  match nth_error tab8 (Z.to_nat (a + 128)) with
  | Some (c, s) =>
      let err := (Z.abs x + Z.abs y) * 1024 in
      let re := x * c + y * s - err in
      let im := Z.abs (y * c - x * s) + err in
      (0 <? re) && (im * D <=? T * re)
  | None => false
  end.
Definition ok8 (x y : Z) : bool :=
  match fast 1 lut1 y x with
  | Ok a =>
      if (-128 <=? a) && (a <? 128) then
        if Z.max (Z.abs x) (Z.abs y) <? 24 then
          (Z.max (Z.abs x) (Z.abs y) =? 0) || close 38554 100000 a x y
        else close 4912 100000 a x y
      else false
  | _ => false
  end.
Definition range8 : list Z := map (fun i => Z.of_nat i - 128) (seq 0 256).
Lemma in_range8 x : -128 <= x < 128 -> In x range8.
Proof.
  intros H. unfold range8. apply in_map_iff. exists (Z.to_nat (x + 128)). split; [ lia | ]. apply in_seq. lia.
Qed.
Lemma all8 : forallb (fun x => forallb (ok8 x) range8) range8 = true.
Proof. vm_cast_no_check (eq_refl true). Qed.

Open Scope R_scope.
Lemma close_ok T D beta a x y (r theta : R) : (0 < D)%Z -> (0 <= T)%Z -> 0 < beta < PI / 2 -> IZR T / IZR D <= tan beta ->
  (-128 <= a < 128)%Z -> close T D a x y = true -> 0 < r -> IZR x = r * cos theta -> IZR y = r * sin theta ->
  exists k, Rabs (IZR a - theta * 128 / PI - IZR k * 256) <= beta * 128 / PI.
Proof.
  intros HD HT Hbeta Htan Ha H Hr Ex Ey. unfold close in H.
  destruct (nth_error tab8 (Z.to_nat (a + 128))) as [[c s]|] eqn:E; [ | discriminate ]. cbv zeta in H.
  rewrite tab8_eq in E.
  assert (B0 : (Cmod (zc (fst (- SC, 0)%Z) (snd (- SC, 0)%Z) - IZR SC * circ (IZR (-128) * (2 * PI / 256)))%C <= IZR 0)%R)
    by (apply start_ok; field).
  pose proof (table_ok 256 (-128) (- SC, 0)%Z 0 ltac:(lia) ltac:(vm_compute; discriminate) B0 _ _ E) as B.
  replace (-128 + Z.of_nat (Z.to_nat (a + 128)))%Z with a in B by lia. cbn [fst snd] in B.
  replace (0 + 4 * Z.of_nat 256)%Z with 1024%Z in B by reflexivity.
  set (al := IZR a * (2 * PI / 256)) in *.
  assert (Bc : Rabs (IZR c - IZR SC * cos al) <= 1024).
  { apply Rle_trans with (2 := B). apply Rle_trans with (2 := Rmax_Cmod _). apply Rle_trans with (2 := Rmax_l _ _). right. f_equal.
    unfold zc, circ, Cminus, Cplus, Copp, Cmult, RtoC. cbn. ring. }
  assert (Bs : Rabs (IZR s - IZR SC * sin al) <= 1024).
  { apply Rle_trans with (2 := B). apply Rle_trans with (2 := Rmax_Cmod _). apply Rle_trans with (2 := Rmax_r _ _). right. f_equal.
    unfold zc, circ, Cminus, Cplus, Copp, Cmult, RtoC. cbn. ring. }
  apply andb_true_iff in H. destruct H as [H1 H2]. apply Z.ltb_lt in H1. apply Z.leb_le in H2.
  apply IZR_lt in H1. apply IZR_le in H2.
  repeat rewrite ?minus_IZR, ?mult_IZR, ?plus_IZR, ?abs_IZR in H1.
  repeat rewrite ?minus_IZR, ?mult_IZR, ?plus_IZR, ?abs_IZR in H2.
  assert (HS : 0 < IZR SC) by (unfold SC; lra).
  set (u := IZR x) in *. set (v := IZR y) in *. set (ee := (Rabs u + Rabs v) * 1024) in *.
  set (re := u * cos al + v * sin al). set (im := v * cos al - u * sin al).
  assert (Q : forall p q z, Rabs (q - z) <= 1024 -> Rabs (p * q - p * z) <= Rabs p * 1024).
  { intros p q z Hq. rewrite <- Rmult_minus_distr_l, Rabs_mult. apply Rmult_le_compat_l; [ apply Rabs_pos | exact Hq ]. }
  assert (Hre : u * IZR c + v * IZR s - ee <= IZR SC * re).
  { pose proof (Q u _ _ Bc) as Q1. pose proof (Q v _ _ Bs) as Q2. apply Rabs_le_inv in Q1, Q2. unfold ee, re. lra. }
  assert (Him : IZR SC * Rabs im <= Rabs (v * IZR c - u * IZR s) + ee).
  { pose proof (Q v _ _ Bc) as Q1. pose proof (Q u _ _ Bs) as Q2. apply Rabs_le_inv in Q1, Q2.
    rewrite <- (Rabs_pos_eq (IZR SC)) by lra. rewrite <- Rabs_mult.
    replace (IZR SC * im) with ((v * IZR c - u * IZR s) + (IZR SC * im - (v * IZR c - u * IZR s))) by ring.
    apply Rle_trans with (1 := Rabs_triang _ _). apply Rplus_le_compat_l. apply Rabs_le. unfold ee, im. lra. }
  assert (HD' : 0 < IZR D) by (apply (IZR_lt 0); lia). assert (HT' : 0 <= IZR T) by (apply (IZR_le 0); lia).
  assert (Hrp : 0 < re) by nra.
  assert (Hq : Rabs im <= tan beta * re).
  { apply Rle_trans with (IZR T / IZR D * re); [ | apply Rmult_le_compat_r; lra ].
    apply Rmult_le_reg_l with (IZR SC * IZR D); [ nra | ].
    replace (IZR SC * IZR D * (IZR T / IZR D * re)) with (IZR T * (IZR SC * re)) by (field; lra).
    apply Rle_trans with ((Rabs (v * IZR c - u * IZR s) + ee) * IZR D); [ nra | ].
    apply Rle_trans with (1 := H2). apply Rmult_le_compat_l; lra. }
  (* the direction relative to a *)
  set (eta := atan (im / re)).
  assert (Heta : Rabs eta <= beta).
  { assert (G : Rabs (im / re) <= tan beta).
    { unfold Rdiv. rewrite Rabs_mult, Rabs_inv, (Rabs_pos_eq re) by lra.
      apply Rmult_le_reg_r with re; [ lra | ]. rewrite Rmult_assoc, Rinv_l, Rmult_1_r by lra. exact Hq. }
    apply Rabs_le_inv in G.
    assert (M : forall p q, p <= q -> atan p <= atan q) by (intros p q [L|L]; [ left; apply atan_increasing; exact L | right; rewrite L; reflexivity ]).
    rewrite <- (atan_tan beta) by lra. unfold eta. apply Rabs_le. split.
    - rewrite <- atan_opp. apply M. lra.
    - apply M. lra. }
  assert (Hpol : circ theta = circ (al + eta)).
  { assert (Hw : ((u, v) = (re, im) * circ al)%C).
    { unfold circ, Cmult, re, im. cbn [fst snd]. generalize (sin2_cos2 al). unfold Rsqr. intros SC2. f_equal.
      - replace u with (u * (sin al * sin al + cos al * cos al)) at 1 by (rewrite SC2; ring). ring.
      - replace v with (v * (sin al * sin al + cos al * cos al)) at 1 by (rewrite SC2; ring). ring. }
    rewrite (polar re im Hrp) in Hw. fold eta in Hw.
    set (rho := sqrt (re ^ 2 + im ^ 2)) in *.
    rewrite <- Cmult_assoc, <- circ_add, Rplus_comm in Hw.
    assert (Hw2 : ((u, v) = r * circ theta)%C) by (rewrite Ex, Ey; unfold circ, Cmult, RtoC; cbn [fst snd]; f_equal; ring).
    assert (Hrho : r = rho).
    { rewrite Hw2 in Hw. apply (f_equal Cmod) in Hw. rewrite !Cmod_mult, !Cmod_circ, !Cmod_R, !Rmult_1_r in Hw.
      rewrite !Rabs_pos_eq in Hw by (try (unfold rho; apply sqrt_pos); lra). exact Hw. }
    rewrite Hw2, <- Hrho in Hw.
    assert (HrC : RtoC r <> 0%C) by (intro Qe; apply (f_equal fst) in Qe; cbn in Qe; lra).
    replace (circ theta) with (/ r * (r * circ theta))%C by (field; exact HrC). rewrite Hw. field. exact HrC. }
  destruct (circ_eq _ _ Hpol) as (k & Hk).
  pose proof PI_RGT_0 as HPI.
  exists (- k)%Z. rewrite Hk, opp_IZR. unfold al.
  replace (IZR a - (IZR a * (2 * PI / 256) + eta + 2 * IZR k * PI) * 128 / PI - - IZR k * 256) with (- (eta * (128 / PI))) by (field; lra).
  rewrite Rabs_Ropp, Rabs_mult, (Rabs_pos_eq (128 / PI)) by (apply Rcomplements.Rdiv_le_0_compat; lra).
  replace (beta * 128 / PI) with (beta * (128 / PI)) by (field; lra).
  apply Rmult_le_compat_r; [ apply Rcomplements.Rdiv_le_0_compat; lra | exact Heta ].
Qed.

Lemma acc8_all x y (r theta : R) : (-128 <= x < 128)%Z -> (-128 <= y < 128)%Z ->
  0 < r -> IZR x = r * cos theta -> IZR y = r * sin theta ->
  exists a k, cordic_atan2 1 y x = Ok a /\
    Rabs (IZR a - theta * 128 / PI - IZR k * 256) <= (if (Z.max (Z.abs x) (Z.abs y) <? 24)%Z then 15 else 2).
Proof.
  intros Hx Hy Hr Ex Ey.
  pose proof all8 as A. rewrite forallb_forall in A. specialize (A x (in_range8 x Hx)).
  rewrite forallb_forall in A. specialize (A y (in_range8 y Hy)). unfold ok8 in A.
  rewrite fast1 in A. destruct (cordic_atan2 1 y x) as [a| | |]; try discriminate.
  destruct ((-128 <=? a) && (a <? 128))%Z eqn:Ra; [ | discriminate ].
  apply andb_true_iff in Ra. destruct Ra as [R1 R2]. apply Z.leb_le in R1. apply Z.ltb_lt in R2.
  destruct (Z.max (Z.abs x) (Z.abs y) <? 24)%Z.
  - apply orb_true_iff in A. destruct A as [A|A].
    + exfalso. apply Z.eqb_eq in A. assert (x = 0 /\ y = 0)%Z as [-> ->] by lia.
      assert (cos theta = 0) by nra. assert (sin theta = 0) by nra.
      generalize (sin2_cos2 theta). unfold Rsqr. rewrite H, H0. lra.
    + destruct (close_ok 38554 100000 (15 * PI / 128) a x y r theta) as (k & Hk); try assumption; try lia.
      * split; interval.
      * unfold tan. interval.
      * exists a, k. split; [ reflexivity | ]. apply Rle_trans with (1 := Hk). right. field. apply PI_neq0.
  - destruct (close_ok 4912 100000 (2 * PI / 128) a x y r theta) as (k & Hk); try assumption; try lia.
    + split; interval.
    + unfold tan. interval.
    + exists a, k. split; [ reflexivity | ]. apply Rle_trans with (1 := Hk). right. field. apply PI_neq0.
Qed.
