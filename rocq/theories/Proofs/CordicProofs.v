(* Lemmas about the CORDIC arctangent: no overflow, and the exhaustive check of the
   full-range vectors against a certified table of the unit circle. *)
From Coq Require Import ZArith List Lia Bool Reals Lra.
From Coquelicot Require Import Coquelicot.
From Flocq Require Import Core.
From Interval Require Import Tactic.
From Verif Require Import Model.Cordic Proofs.BaseLemmas.
Import ListNotations.
Open Scope Z_scope.

(** * No overflow *)

Definition lut_at (FAC i : Z) : Z := match cordic_lut FAC i with Ok t => t | _ => 0 end.

Lemma lut_get FAC i : 0 <= i < 16 -> cordic_lut FAC i = Ok (lut_at FAC i).
Proof.
  intros Hi. unfold lut_at, cordic_lut.
  destruct (get_in_range cordic_digits i) as (v & _ & E); [ unfold zlen; cbn [length cordic_digits]; lia | ].
  rewrite E. reflexivity.
Qed.

Lemma shiftr_bound v M i : 0 <= i -> 0 <= M -> Z.abs v <= M -> Z.abs (Z.shiftr v i) <= Z.shiftr M i + 1.
Proof.
  intros Hi HM Hv. rewrite !Z.shiftr_div_pow2 by lia.
  assert (Hp : 0 < 2 ^ i) by (apply Z.pow_pos_nonneg; lia).
  assert (v / 2 ^ i <= M / 2 ^ i) by (apply Z.div_le_mono; lia).
  assert (- M / 2 ^ i <= v / 2 ^ i) by (apply Z.div_le_mono; lia).
  assert (- (M / 2 ^ i) - 1 <= - M / 2 ^ i).
  { pose proof (Z.div_mod M (2 ^ i) ltac:(lia)). pose proof (Z.mod_pos_bound M (2 ^ i) Hp).
    apply Z.div_le_lower_bound; nia. }
  lia.
Qed.

(** bounds on the vector and on the angle after each step, checked by evaluation *)
Fixpoint bnd (FAC : Z) (n : nat) (i M A : Z) : option (Z * Z) :=
  match n with
  | O => Some (M, A)
  | S n' => let M' := M + Z.shiftr M i + 1 in let A' := A + Z.abs (lut_at FAC i) in
            if (M' <=? INT_MAX) && (A' <=? INT_MAX) then bnd FAC n' (i + 1) M' A' else None
  end.

Lemma bnd_ok FAC : forall n i M A M' A' angle re im,
  0 <= i -> i + Z.of_nat n <= 16 -> 0 <= M -> 0 <= A -> bnd FAC n i M A = Some (M', A') ->
  Z.abs angle <= A -> Z.abs re <= M -> Z.abs im <= M ->
  exists an r m, for_loop n i (cordic_step FAC) (angle, (re, im)) = Ok (an, (r, m)) /\
    Z.abs an <= A' /\ Z.abs r <= M' /\ Z.abs m <= M'.
Proof.
  induction n as [|n IH]; intros i M A M' A' angle re im Hi Hn HM HA Hb Ha Hr Hm.
  - cbn in Hb. injection Hb as <- <-. exists angle, re, im. repeat split; try assumption.
  - cbn [bnd] in Hb. cbv zeta in Hb.
    destruct ((M + Z.shiftr M i + 1 <=? INT_MAX) && (A + Z.abs (lut_at FAC i) <=? INT_MAX))%bool eqn:E; [ | discriminate ].
    apply andb_true_iff in E. destruct E as [E1 E2]. apply Z.leb_le in E1, E2.
    pose proof (shiftr_bound re M i Hi HM Hr). pose proof (shiftr_bound im M i Hi HM Hm).
    assert (0 <= Z.shiftr M i) by (apply Z.shiftr_nonneg; lia).
    cbn [for_loop]. unfold cordic_step at 1.
    rewrite lut_get by lia. cbn [bind].
    assert (INT_MIN = - INT_MAX - 1) by reflexivity.
    destruct (im <? 0).
    all: rewrite !ichk_ok by lia; cbn [bind].
    all: eapply IH; [ | | | | exact Hb | .. ]; lia.
Qed.

Lemma to_type_range BITS v : 1 <= BITS -> - 2 ^ (BITS - 1) <= to_type BITS v < 2 ^ (BITS - 1).
Proof.
  intros H. unfold to_type.
  assert (E : 2 ^ BITS = 2 * 2 ^ (BITS - 1)) by (rewrite <- Z.pow_succ_r by lia; f_equal; lia).
  assert (0 < 2 ^ (BITS - 1)) by (apply Z.pow_pos_nonneg; lia).
  pose proof (Z.mod_pos_bound (v + 2 ^ (BITS - 1)) (2 ^ BITS) ltac:(lia)). lia.
Qed.

Lemma bnd_8 : bnd (1 * 2 ^ (8 * 1)) (Z.to_nat (8 * 1)) 0 (2 ^ (8 * 1)) 0 = Some (1218, 142).
Proof. vm_compute. reflexivity. Qed.
Lemma bnd_16 : bnd (2 * 2 ^ (8 * 2)) (Z.to_nat (8 * 2)) 0 (2 ^ (8 * 2)) 0 = Some (312509, 72730).
Proof. vm_compute. reflexivity. Qed.

Lemma cordic_safe BYTES x y : BYTES = 1 \/ BYTES = 2 ->
  - 2 ^ (8 * BYTES - 1) <= x < 2 ^ (8 * BYTES - 1) -> - 2 ^ (8 * BYTES - 1) <= y < 2 ^ (8 * BYTES - 1) ->
  exists a, cordic_atan2 BYTES y x = Ok a /\ - 2 ^ (8 * BYTES - 1) <= a < 2 ^ (8 * BYTES - 1).
Proof.
  intros HB Hx Hy. unfold cordic_atan2, shl_int. cbv zeta.
  assert (INT_MIN = - INT_MAX - 1) by reflexivity.
  assert (INT_MAX = 2147483647) by reflexivity.
  assert (HP : 0 < 2 ^ (8 * BYTES - 1) <= 32768) by (destruct HB; subst; cbn; lia).
  rewrite !ichk_ok by lia. cbn [bind].
  set (re := if x <? 0 then - (2 * x) else 2 * x).
  replace (if x <? 0 then ichk (- (2 * x)) else Ok (2 * x)) with (Ok re)
    by (unfold re; destruct (x <? 0); [ rewrite ichk_ok by lia | ]; reflexivity).
  cbn [bind].
  assert (E2 : 2 ^ (8 * BYTES) = 2 * 2 ^ (8 * BYTES - 1)) by (destruct HB; subst; reflexivity).
  assert (Hre : Z.abs re <= 2 ^ (8 * BYTES)).
  { unfold re. destruct (x <? 0); lia. }
  assert (Him : Z.abs (2 * y) <= 2 ^ (8 * BYTES)) by lia.
  assert (HL : exists M A, bnd (BYTES * 2 ^ (8 * BYTES)) (Z.to_nat (8 * BYTES)) 0 (2 ^ (8 * BYTES)) 0 = Some (M, A) /\ A <= 200000).
  { destruct HB; subst.
    - exists 1218, 142. split; [ exact bnd_8 | lia ].
    - exists 312509, 72730. split; [ exact bnd_16 | lia ]. }
  destruct HL as (M & A & HL & HA).
  destruct (bnd_ok (BYTES * 2 ^ (8 * BYTES)) (Z.to_nat (8 * BYTES)) 0 (2 ^ (8 * BYTES)) 0 M A 0 re (2 * y) ltac:(lia) ltac:(lia) ltac:(lia) ltac:(lia) HL ltac:(lia) Hre Him)
    as (an & r & m & E & Han & _).
  rewrite E. cbn [bind].
  assert (HF : 0 <= BYTES * 2 ^ (8 * BYTES) <= 131072) by (destruct HB; subst; cbn; lia).
  rewrite ichk_ok by lia.
  destruct (x <? 0); cbn [bind]; eexists; (split; [ reflexivity | apply to_type_range; lia ]).
Qed.

(** * The certified table *)

Open Scope R_scope.

Definition circ (t : R) : C := (cos t, sin t).
Lemma circ_add a b : circ (a + b) = (circ a * circ b)%C.
Proof. unfold circ, Cmult. cbn. rewrite cos_plus, sin_plus. f_equal; ring. Qed.
Lemma Cmod_circ t : Cmod (circ t) = 1.
Proof.
  unfold Cmod, circ. cbn [fst snd]. rewrite <- sqrt_1. f_equal.
  generalize (sin2_cos2 t). unfold Rsqr. nra.
Qed.
Definition zc (zr zi : Z) : C := (IZR zr, IZR zi).

(** one step of the table: multiplication by the unit step, scaled by S, rounded down *)
Definition tstep (SC c s : Z) (z : Z * Z) : Z * Z :=
  ((fst z * c - snd z * s) / SC, (fst z * s + snd z * c) / SC)%Z.
Definition tstep_fast (K c s : Z) (z : Z * Z) : Z * Z :=
  (Z.shiftr (fst z * c - snd z * s) K, Z.shiftr (fst z * s + snd z * c) K)%Z.
Lemma tstep_fast_ok K c s z : (0 <= K)%Z -> tstep_fast K c s z = tstep (2 ^ K) c s z.
Proof. intros HK. unfold tstep_fast, tstep. rewrite !Z.shiftr_div_pow2 by exact HK. reflexivity. Qed.

Lemma floor_div (a b : Z) : (0 < b)%Z -> Rabs (IZR (a / b) - IZR a / IZR b) <= 1.
Proof.
  intros Hb. pose proof (Z.div_mod a b ltac:(lia)) as E. pose proof (Z.mod_pos_bound a b Hb) as B.
  assert (Hb' : 0 < IZR b) by (apply (IZR_lt 0); lia).
  assert (F : IZR a / IZR b = IZR (a / b) + IZR (a mod b) / IZR b).
  { rewrite E at 1. rewrite plus_IZR, mult_IZR. field. lra. }
  rewrite F.
  assert (0 <= IZR (a mod b) / IZR b <= 1).
  { split; [ apply Rcomplements.Rdiv_le_0_compat; [ apply (IZR_le 0); lia | lra ] | ].
    apply Rcomplements.Rle_div_l; [ lra | ]. rewrite Rmult_1_l. apply IZR_le. lia. }
  apply Rabs_le. lra.
Qed.

Lemma Cmod_le_2 (z : C) a : Rabs (fst z) <= a -> Rabs (snd z) <= a -> Cmod z <= 3 / 2 * a.
Proof.
  intros H1 H2. assert (Ha : 0 <= a) by (generalize (Rabs_pos (fst z)); lra).
  unfold Cmod. apply Rle_trans with (sqrt ((3 / 2 * a) ^ 2)).
  - apply sqrt_le_1_alt. apply Rabs_le_inv in H1, H2. nra.
  - rewrite sqrt_pow2 by lra. lra.
Qed.

Lemma tstep_err SC c s t0 : (0 < SC)%Z -> Cmod (zc c s - IZR SC * circ t0)%C <= 2 ->
  forall z t E, Cmod (zc (fst z) (snd z) - IZR SC * circ t)%C <= E -> E <= IZR SC / 8 ->
  Cmod (zc (fst (tstep SC c s z)) (snd (tstep SC c s z)) - IZR SC * circ (t + t0))%C <= E + 4.
Proof.
  intros HS Hc z t E Hz HE.
  assert (HS' : 0 < IZR SC) by (apply (IZR_lt 0); lia).
  set (q := zc (fst (tstep SC c s z)) (snd (tstep SC c s z))).
  set (p := (zc (fst z) (snd z) * zc c s / IZR SC)%C).
  assert (Hq : Cmod (q - p)%C <= 3 / 2).
  { replace (3 / 2) with (3 / 2 * 1) by lra.
    apply Cmod_le_2.
    - replace (fst (q - p)%C) with (IZR ((fst z * c - snd z * s) / SC) - IZR (fst z * c - snd z * s) / IZR SC).
      2:{ unfold q, p, zc, tstep, Cdiv, Cinv, Cminus, Cplus, Copp, Cmult. cbn [fst snd RtoC].
          rewrite minus_IZR, !mult_IZR. field. lra. }
      apply floor_div; lia.
    - replace (snd (q - p)%C) with (IZR ((fst z * s + snd z * c) / SC) - IZR (fst z * s + snd z * c) / IZR SC).
      2:{ unfold q, p, zc, tstep, Cdiv, Cinv, Cminus, Cplus, Copp, Cmult. cbn [fst snd RtoC].
          rewrite plus_IZR, !mult_IZR. field. lra. }
      apply floor_div; lia. }
  set (Z0 := zc (fst z) (snd z)) in *. set (W := zc c s) in *.
  assert (HSC : RtoC (IZR SC) <> 0%C) by (intro Q; apply (f_equal fst) in Q; cbn in Q; lra).
  replace (q - IZR SC * circ (t + t0))%C
    with ((q - p) + ((Z0 * (W - IZR SC * circ t0) / IZR SC) + circ t0 * (Z0 - IZR SC * circ t)))%C.
  2:{ rewrite circ_add. unfold p. field. exact HSC. }
  assert (HZ0 : Cmod Z0 <= 9 / 8 * IZR SC).
  { replace Z0 with ((Z0 - IZR SC * circ t) + IZR SC * circ t)%C by ring.
    apply Rle_trans with (1 := Cmod_triangle _ _).
    rewrite Cmod_mult, Cmod_circ, Cmod_R, Rabs_pos_eq by lra. lra. }
  apply Rle_trans with (1 := Cmod_triangle _ _).
  assert (Cmod (Z0 * (W - IZR SC * circ t0) / IZR SC + circ t0 * (Z0 - IZR SC * circ t))%C <= 9 / 4 + E).
  { apply Rle_trans with (1 := Cmod_triangle _ _). apply Rplus_le_compat.
    - rewrite Cmod_div by exact HSC. rewrite Cmod_mult, Cmod_R, (Rabs_pos_eq (IZR SC)) by lra.
      apply Rcomplements.Rle_div_l; [ lra | ].
      apply Rle_trans with (9 / 8 * IZR SC * 2); [ | lra ].
      apply Rmult_le_compat; try apply Cmod_ge_0; assumption.
    - rewrite Cmod_mult, Cmod_circ, Rmult_1_l. exact Hz. }
  lra.
Qed.

(** the check of one direction *)
Definition near (K SC A tol z E : Z) : option Z :=
  let p := (A * z)%Z in
  let x := (Z.shiftr (Z.shiftr p (K - 1) + 1) 1)%Z in
  if (2 * (Z.abs (p - Z.shiftl x K) + A * E + tol) <? SC)%Z then Some x else None.

Lemma near_ok K SC A tol z E x (v u : R) : (0 <= K)%Z -> SC = (2 ^ K)%Z -> (0 <= A)%Z ->
  near K SC A tol z E = Some x -> Rabs (IZR z - IZR SC * v) <= IZR E ->
  Rabs (u - IZR A * v) <= IZR tol / IZR SC -> ZnearestE u = x.
Proof.
  intros HK HSK HA H Hv Hu. unfold near in H. cbv zeta in H.
  set (x' := (Z.shiftr (Z.shiftr (A * z) (K - 1) + 1) 1)%Z) in *.
  rewrite Z.shiftl_mul_pow2, <- HSK in H by lia.
  assert (HS : (0 < SC)%Z) by (subst SC; apply Z.pow_pos_nonneg; lia).
  destruct (2 * (Z.abs (A * z - x' * SC) + A * E + tol) <? SC)%Z eqn:L; [ | discriminate ]. injection H as <-.
  apply Z.ltb_lt in L. apply IZR_lt in L.
  rewrite mult_IZR, !plus_IZR, !mult_IZR, abs_IZR, minus_IZR, !mult_IZR in L.
  assert (HS' : 0 < IZR SC) by (apply (IZR_lt 0); lia). assert (HA' : 0 <= IZR A) by (apply (IZR_le 0); lia).
  apply Znearest_imp.
  apply Rmult_lt_reg_l with (IZR SC); [ exact HS' | ].
  rewrite <- (Rabs_pos_eq (IZR SC)) at 1 by lra. rewrite <- Rabs_mult.
  replace (IZR SC * (u - IZR x')) with
    (IZR SC * (u - IZR A * v) + (- (IZR A * (IZR z - IZR SC * v)) + (IZR A * IZR z - IZR x' * IZR SC))) by ring.
  apply Rle_lt_trans with (1 := Rabs_triang _ _).
  rewrite Rabs_mult, (Rabs_pos_eq (IZR SC)) by lra.
  assert (IZR SC * Rabs (u - IZR A * v) <= IZR tol).
  { apply Rmult_le_compat_l with (r := IZR SC) in Hu; [ | lra ].
    apply Rle_trans with (1 := Hu). right. field. lra. }
  assert (Rabs (- (IZR A * (IZR z - IZR SC * v)) + (IZR A * IZR z - IZR x' * IZR SC)) <=
          IZR A * IZR E + Rabs (IZR A * IZR z - IZR x' * IZR SC)).
  { apply Rle_trans with (1 := Rabs_triang _ _). apply Rplus_le_compat_r.
    rewrite Rabs_Ropp, Rabs_mult, (Rabs_pos_eq (IZR A)) by lra.
    apply Rmult_le_compat_l; lra. }
  lra.
Qed.

Section Scan.
Variable at2 : Z -> Z -> outcome Z.
Variables (K SC c s A tol : Z).

Fixpoint scan (k : nat) (n : Z) (z : Z * Z) (E : Z) : bool :=
  match k with
  | O => true
  | S k' =>
    match near K SC A tol (fst z) E, near K SC A tol (snd z) E with
    | Some x, Some y =>
      match at2 y x with
      | Ok a => if (Z.abs (a - n) <=? 1)%Z then
                  if (8 * E <=? SC)%Z then scan k' (n + 1) (tstep_fast K c s z) (E + 4) else false
                else false
      | _ => false
      end
    | _, _ => false
    end
  end.

Hypothesis HK : (0 <= K)%Z.
Hypothesis HSK : SC = (2 ^ K)%Z.
Hypothesis HA : (0 <= A)%Z.
Variable t0 : R.
Hypothesis Hc : Cmod (zc c s - IZR SC * circ t0)%C <= 2.

Lemma scan_ok : forall k n z E, scan k n z E = true ->
  Cmod (zc (fst z) (snd z) - IZR SC * circ (IZR n * t0))%C <= IZR E ->
  forall m u v, (n <= m < n + Z.of_nat k)%Z ->
  Rabs (u - IZR A * cos (IZR m * t0)) <= IZR tol / IZR SC ->
  Rabs (v - IZR A * sin (IZR m * t0)) <= IZR tol / IZR SC ->
  exists a, at2 (ZnearestE v) (ZnearestE u) = Ok a /\ (Z.abs (a - m) <= 1)%Z.
Proof.
  assert (HS : (0 < SC)%Z) by (rewrite HSK; apply Z.pow_pos_nonneg; lia).
  induction k as [|k IH]; intros n z E Hs Hz m u v Hm Hu Hv; [ lia | ].
  cbn [scan] in Hs.
  destruct (near K SC A tol (fst z) E) as [x|] eqn:Ex; [ | discriminate ].
  destruct (near K SC A tol (snd z) E) as [y|] eqn:Ey; [ | discriminate ].
  destruct (at2 y x) as [a| | |] eqn:Ea; try discriminate.
  destruct (Z.abs (a - n) <=? 1)%Z eqn:L; [ | discriminate ].
  destruct (8 * E <=? SC)%Z eqn:L2; [ | discriminate ].
  apply Z.leb_le in L, L2.
  destruct (Z.eq_dec m n) as [->|Hne].
  - exists a. split; [ | exact L ].
    assert (P : Rabs (IZR (fst z) - IZR SC * cos (IZR n * t0)) <= IZR E /\
                Rabs (IZR (snd z) - IZR SC * sin (IZR n * t0)) <= IZR E).
    { split; apply Rle_trans with (2 := Hz).
      - apply Rle_trans with (2 := Rmax_Cmod _). apply Rle_trans with (2 := Rmax_l _ _). right. f_equal.
        unfold zc, circ, Cminus, Cplus, Copp, Cmult, RtoC. cbn. ring.
      - apply Rle_trans with (2 := Rmax_Cmod _). apply Rle_trans with (2 := Rmax_r _ _). right. f_equal.
        unfold zc, circ, Cminus, Cplus, Copp, Cmult, RtoC. cbn. ring. }
    rewrite (near_ok _ _ _ _ _ _ _ _ u HK HSK HA Ex (proj1 P) Hu), (near_ok _ _ _ _ _ _ _ _ v HK HSK HA Ey (proj2 P) Hv).
    exact Ea.
  - rewrite tstep_fast_ok, <- HSK in Hs by exact HK. apply (IH (n + 1)%Z (tstep SC c s z) (E + 4)%Z Hs); try assumption; [ | lia ].
    rewrite (plus_IZR E). rewrite plus_IZR, Rmult_plus_distr_r, Rmult_1_l.
    apply tstep_err; try assumption.
    apply IZR_le in L2. rewrite mult_IZR in L2. lra.
Qed.
End Scan.
