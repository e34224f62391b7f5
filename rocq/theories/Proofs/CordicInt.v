(* The exhaustive check of the 16 bit CORDIC arctangent, evaluated with machine integers. *)
From Coq Require Import ZArith List Lia Bool Reals Lra Uint63 Sint63.
From Coquelicot Require Import Coquelicot.
From Flocq Require Import Core.
From Interval Require Import Tactic.
From Verif Require Import Model.Cordic Proofs.BaseLemmas Proofs.CordicProofs Proofs.CordicScan.
Import ListNotations.
Open Scope Z_scope.

Notation sz := Sint63.to_Z.
Definition fits (z : Z) : Prop := - 2 ^ 62 <= z <= 2 ^ 62 - 1.
Lemma s_add x y : fits (sz x + sz y) -> sz (x + y)%sint63 = sz x + sz y.
Proof. intros H. apply to_Z_add. exact H. Qed.
Lemma s_sub x y : fits (sz x - sz y) -> sz (x - y)%sint63 = sz x - sz y.
Proof. intros H. apply to_Z_sub. exact H. Qed.
Lemma s_mul x y : fits (sz x * sz y) -> sz (x * y)%sint63 = sz x * sz y.
Proof. intros H. apply to_Z_mul. exact H. Qed.
Lemma s_of z : fits z -> sz (Uint63.of_Z z) = z.
Proof. intros H. rewrite of_Z_spec. apply cmod_small. unfold fits in H. change (wB / 2) with (2 ^ 62). lia. Qed.

(** ** the function on machine integers, without checks *)
Fixpoint iloop (l : list (int * int)) (angle re im : int) : int :=
  match l with
  | [] => angle
  | (t, i) :: l =>
    if (im <? 0)%sint63 then iloop l (angle - t)%sint63 (re - (im >> i))%sint63 (im + (re >> i))%sint63
    else iloop l (angle + t)%sint63 (re + (im >> i))%sint63 (im - (re >> i))%sint63
  end.
Definition iatan (l : list (int * int)) (F B y x : int) : int :=
  if (x <? 0)%sint63 then ((F - iloop l 0 (0 - (x + x)) (y + y)) >> B)%sint63 else (iloop l 0 (x + x) (y + y) >> B)%sint63.

Fixpoint lmatch (FAC : Z) (l : list (int * int)) (i : Z) : Prop :=
  match l with [] => True | (t, j) :: l => sz t = lut_at FAC i /\ sz j = i /\ Z.abs (sz t) <= INT_MAX /\ lmatch FAC l (i + 1) end.

Lemma ichk_inv z a : ichk z = Ok a -> a = z /\ - INT_MAX - 1 <= z <= INT_MAX.
Proof.
  intros H. assert (INT_MIN = - INT_MAX - 1) by reflexivity.
  destruct (Z_le_dec INT_MIN z), (Z_le_dec z INT_MAX);
    [rewrite ichk_ok in H by lia; injection H as <-; lia|rewrite ichk_bad in H by lia; discriminate ..].
Qed.

Lemma fits_int a b : Z.abs a <= INT_MAX + 1 -> Z.abs b <= 2 * INT_MAX + 2 -> fits (a + b) /\ fits (a - b).
Proof. unfold fits. change INT_MAX with (2 ^ 31 - 1). lia. Qed.
Lemma asr_abs a i M : 0 <= sz i -> Z.abs (sz a) <= M -> sz (a >> i)%sint63 = Z.shiftr (sz a) (sz i) /\ Z.abs (sz (a >> i)%sint63) <= M + 1.
Proof.
  intros Hi Ha. rewrite asr_spec. rewrite <- Z.shiftr_div_pow2 by exact Hi. split; [reflexivity|].
  pose proof (shiftr_bound (sz a) (Z.abs (sz a)) (sz i) Hi ltac:(lia) ltac:(lia)).
  assert (Z.shiftr (Z.abs (sz a)) (sz i) <= Z.abs (sz a)).
  { rewrite Z.shiftr_div_pow2 by exact Hi. assert (0 < 2 ^ sz i) by (apply Z.pow_pos_nonneg; lia).
    apply Z.div_le_upper_bound; nia. }
  lia.
Qed.

Lemma iloop_ok FAC l : forall i angle re im s, 0 <= i -> i + Z.of_nat (length l) <= 16 -> lmatch FAC l i ->
  Z.abs (sz angle) <= INT_MAX + 1 -> Z.abs (sz re) <= INT_MAX + 1 -> Z.abs (sz im) <= INT_MAX + 1 ->
  for_loop (length l) i (cordic_step FAC) (sz angle, (sz re, sz im)) = Ok s -> sz (iloop l angle re im) = fst s /\ Z.abs (fst s) <= INT_MAX + 1.
Proof.
  induction l as [|(t, j) l IH]; intros i angle re im s Hi Hl HM Ha Hr Hm E.
  - cbn in E. injection E as <-. split; [reflexivity|exact Ha].
  - destruct HM as (Ht & Hj & Htb & HM). unfold zlen in Hl; cbn [length] in Hl.
    cbn [length for_loop] in E. unfold cordic_step at 1 in E. rewrite lut_get in E by lia. cbn [bind] in E.
    cbn [iloop]. rewrite <- Ht in E. subst i.
    destruct (asr_abs im j _ ltac:(lia) Hm) as (E1 & B1). destruct (asr_abs re j _ ltac:(lia) Hr) as (E2 & B2).
    rewrite <- E1, <- E2 in E.
    destruct (fits_int (sz angle) (sz t) ltac:(lia) ltac:(lia)). 
    destruct (fits_int (sz re) (sz (im >> j)%sint63) ltac:(lia) ltac:(lia)).
    destruct (fits_int (sz im) (sz (re >> j)%sint63) ltac:(lia) ltac:(lia)).
    destruct (ltbP im 0) as [L|L]; rewrite to_Z_0 in L.
    + destruct (Z.ltb_spec (sz im) 0); [|lia].
      destruct (ichk (sz angle - sz t)) as [an| | |] eqn:C1; try discriminate. cbn [bind] in E. apply ichk_inv in C1 as (-> & ?).
      destruct (ichk (sz re - _)) as [r| | |] eqn:C2; try discriminate. cbn [bind] in E. apply ichk_inv in C2 as (-> & ?).
      destruct (ichk (sz im + _)) as [m| | |] eqn:C3; try discriminate. cbn [bind] in E. apply ichk_inv in C3 as (-> & ?).
      apply (IH (sz j + 1) (angle - t)%sint63 (re - (im >> j))%sint63 (im + (re >> j))%sint63 s); try lia; auto.
      all: rewrite ?s_sub, ?s_add by assumption; try lia. exact E.
    + destruct (Z.ltb_spec (sz im) 0); [lia|].
      destruct (ichk (sz angle + sz t)) as [an| | |] eqn:C1; try discriminate. cbn [bind] in E. apply ichk_inv in C1 as (-> & ?).
      destruct (ichk (sz re + _)) as [r| | |] eqn:C2; try discriminate. cbn [bind] in E. apply ichk_inv in C2 as (-> & ?).
      destruct (ichk (sz im - _)) as [m| | |] eqn:C3; try discriminate. cbn [bind] in E. apply ichk_inv in C3 as (-> & ?).
      apply (IH (sz j + 1) (angle + t)%sint63 (re + (im >> j))%sint63 (im - (re >> j))%sint63 s); try lia; auto.
      all: rewrite ?s_sub, ?s_add by assumption; try lia. exact E.
Qed.

Lemma iatan_ok BYTES l F B x y a : BYTES = 1 \/ BYTES = 2 -> length l = Z.to_nat (8 * BYTES) -> lmatch (BYTES * 2 ^ (8 * BYTES)) l 0 ->
  sz F = BYTES * 2 ^ (8 * BYTES) -> sz B = BYTES -> cordic_atan2 BYTES (sz y) (sz x) = Ok a ->
  Z.abs (sz (iatan l F B y x)) <= 2 ^ 40 /\ exists k, a = sz (iatan l F B y x) + k * 2 ^ (8 * BYTES).
Proof.
  intros HB Hl HM HF HBy E. unfold cordic_atan2 in E. cbv zeta in E.
  assert (HT : forall v, exists k, to_type (8 * BYTES) v = v + k * 2 ^ (8 * BYTES)).
  { intros v. unfold to_type. exists (- ((v + 2 ^ (8 * BYTES - 1)) / 2 ^ (8 * BYTES))).
    assert (0 < 2 ^ (8 * BYTES)) by (apply Z.pow_pos_nonneg; lia).
    pose proof (Z.div_mod (v + 2 ^ (8 * BYTES - 1)) (2 ^ (8 * BYTES)) ltac:(lia)). nia. }
  unfold shl_int in E.
  destruct (ichk (2 * sz x)) as [re| | |] eqn:C1; try discriminate. cbn [bind] in E. apply ichk_inv in C1 as (-> & ?).
  destruct (ichk (2 * sz y)) as [im| | |] eqn:C2; try discriminate. cbn [bind] in E. apply ichk_inv in C2 as (-> & ?).
  assert (IM : INT_MAX = 2147483647) by reflexivity.
  assert (Sx : sz (x + x)%sint63 = 2 * sz x) by (rewrite s_add; [lia|unfold fits; lia]).
  assert (Sy : sz (y + y)%sint63 = 2 * sz y) by (rewrite s_add; [lia|unfold fits; lia]).
  assert (FB : Z.abs (sz F) <= INT_MAX) by (rewrite HF; destruct HB; subst BYTES; cbn; lia).
  assert (L16 : 0 + Z.of_nat (length l) <= 16) by (rewrite Hl; destruct HB; subst BYTES; lia).
  unfold iatan. destruct (ltbP x 0) as [L|L]; rewrite to_Z_0 in L.
  - destruct (Z.ltb_spec (sz x) 0); [|lia].
    destruct (ichk (- (2 * sz x))) as [re| | |] eqn:C3; try discriminate. cbn [bind] in E. apply ichk_inv in C3 as (-> & ?).
    assert (Sn : sz (0 - (x + x))%sint63 = - (2 * sz x)) by (rewrite s_sub; rewrite Sx, to_Z_0; [lia|unfold fits; lia]).
    rewrite <- Sn, <- Sy in E. rewrite <- Hl in E. change 0 with (sz 0) in E at 2.
    destruct (for_loop _ _ _ _) as [(angle, v)| | |] eqn:EL; try discriminate. cbn [bind] in E.
    apply (iloop_ok _ l 0 0%uint63 (0 - (x + x))%sint63 (y + y)%sint63) in EL; [|lia|exact L16|exact HM|rewrite to_Z_0; lia|lia|lia]. cbn [fst] in EL. destruct EL as (EL & AB).
    destruct (ichk (BYTES * 2 ^ (8 * BYTES) - angle)) as [g| | |] eqn:C4; try discriminate. cbn [bind] in E. apply ichk_inv in C4 as (-> & ?).
    injection E as <-.
    assert (SF : sz (F - iloop l 0 (0 - (x + x)) (y + y))%sint63 = BYTES * 2 ^ (8 * BYTES) - angle)
      by (rewrite s_sub; rewrite EL, HF; [reflexivity|unfold fits; lia]).
    destruct (asr_abs (F - iloop l 0 (0 - (x + x)) (y + y))%sint63 B (2 ^ 32) ltac:(lia) ltac:(lia)) as (Q1 & Q2).
    split; [lia|]. rewrite Q1, HBy, SF. apply HT.
  - destruct (Z.ltb_spec (sz x) 0); [lia|]. cbn [bind] in E.
    rewrite <- Sx, <- Sy in E. rewrite <- Hl in E. change 0 with (sz 0) in E at 2.
    destruct (for_loop _ _ _ _) as [(angle, v)| | |] eqn:EL; try discriminate. cbn [bind] in E.
    apply (iloop_ok _ l 0 0%uint63 (x + x)%sint63 (y + y)%sint63) in EL; [|lia|exact L16|exact HM|rewrite to_Z_0; lia|lia|lia]. cbn [fst] in EL. destruct EL as (EL & AB).
    injection E as <-.
    destruct (asr_abs (iloop l 0 (x + x) (y + y))%sint63 B (2 ^ 32) ltac:(lia) ltac:(lia)) as (Q1 & Q2).
    split; [lia|]. rewrite Q1, HBy, EL. apply HT.
Qed.

(** ** the check of one direction *)
Section Check.
Variable l : list (int * int).
Variables (F B N A : int).

Definition close (y x n : int) : bool :=
  let d := (iatan l F B y x - n + 1)%sint63 in
  if ((0 <=? d) && (d <=? 2))%sint63 then true
  else if ((0 <=? d - N) && (d - N <=? 2))%sint63 then true
  else ((0 <=? d + N) && (d + N <=? 2))%sint63.
(** the integers within 1 of A*z/2^30 for a number known with an error of at most 8/2^30; there are two or three *)
Definition low (z : int) : int := ((A * z - 262145) >> 30)%sint63.
Definition high (z : int) : int := (((A * z + 262144) >> 30) + 1)%sint63.
Definition try3 (f : int -> bool) (lo hi : int) : bool :=
  f lo && f (lo + 1)%sint63 && (if (lo + 2 <=? hi)%sint63 then f (lo + 2)%sint63 else true).
Definition check (c s n : int) : bool :=
  let xl := low c in let xh := high c in let yl := low s in let yh := high s in
  try3 (fun x => try3 (fun y => close y x n) yl yh) xl xh.

Fixpoint inner (fine : list (int * int)) (c s n : int) : bool :=
  match fine with
  | [] => true
  | (c', s') :: fine => if check ((c * c' - s * s') >> 30)%sint63 ((c * s' + s * c') >> 30)%sint63 n then inner fine c s (n + 1)%sint63 else false
  end.
Fixpoint outer (coarse fine : list (int * int)) (n m : int) : bool :=
  match coarse with
  | [] => true
  | (c, s) :: coarse => if inner fine c s n then outer coarse fine (n + m)%sint63 m else false
  end.
End Check.

Definition ilut2 : list (int * int) := Eval vm_compute in map (fun i => (Uint63.of_Z (nth i lut2 0), Uint63.of_Z (Z.of_nat i))) (seq 0 16).
Definition ilut1 : list (int * int) := Eval vm_compute in map (fun i => (Uint63.of_Z (nth i lut1 0), Uint63.of_Z (Z.of_nat i))) (seq 0 8).
Fixpoint ztable (c s : Z) (k : nat) (z : Z * Z) : list (Z * Z) :=
  match k with O => [] | S k' => z :: ztable c s k' (tstep_fast 54 c s z) end.
Definition trunc (z : Z * Z) : int * int := (Uint63.of_Z (Z.shiftr (fst z) 24), Uint63.of_Z (Z.shiftr (snd z) 24)).
Definition coarse : list (int * int) := Eval vm_compute in map trunc (ztable c8 s8 256 (- SC, 0)).
Definition fine16 : list (int * int) := Eval vm_compute in map trunc (ztable c16 s16 256 (SC, 0)).
Lemma coarse_eq : coarse = map trunc (ztable c8 s8 256 (- SC, 0)).
Proof. vm_compute. reflexivity. Qed.
Lemma fine_eq : fine16 = map trunc (ztable c16 s16 256 (SC, 0)).
Proof. vm_compute. reflexivity. Qed.

Lemma lmatch1 : lmatch 256 ilut1 0.
Proof. repeat split; vm_compute; congruence. Qed.
Lemma lmatch2 : lmatch 131072 ilut2 0.
Proof. repeat split; vm_compute; congruence. Qed.


(** ** what the check says *)
Lemma abs_fits z : Z.abs z <= 2 ^ 60 -> fits z.
Proof. unfold fits. lia. Qed.
Ltac fit := apply abs_fits; lia.

Lemma close_ok l F B N y x n : Z.abs (sz (iatan l F B y x)) <= 2 ^ 40 -> Z.abs (sz n) <= 2 ^ 40 -> Z.abs (sz N) <= 2 ^ 40 ->
  close l F B N y x n = true -> exists k, Z.abs (sz (iatan l F B y x) - sz n - k * sz N) <= 1.
Proof.
  intros HI Hn HN. unfold close. set (w := iatan l F B y x) in *. clearbody w. set (d := (w - n + 1)%sint63).
  assert (S1 : sz 1 = 1) by reflexivity. assert (S0 : sz 0 = 0) by reflexivity. assert (S2 : sz 2 = 2) by reflexivity.
  assert (D : sz d = sz w - sz n + 1).
  { unfold d. rewrite s_add; rewrite s_sub; rewrite ?S1; try reflexivity; fit. }
  assert (Dm : sz (d - N)%sint63 = sz d - sz N) by (rewrite s_sub; [reflexivity|fit]).
  assert (Dp : sz (d + N)%sint63 = sz d + sz N) by (rewrite s_add; [reflexivity|fit]).
  destruct ((0 <=? d) && (d <=? 2))%sint63 eqn:E1.
  { intros _. apply andb_true_iff in E1 as (E1 & E2). apply leb_spec in E1, E2. exists 0. lia. }
  destruct ((0 <=? d - N) && (d - N <=? 2))%sint63 eqn:E2.
  { intros _. apply andb_true_iff in E2 as (E2 & E3). apply leb_spec in E2, E3. exists 1. lia. }
  intros E3. apply andb_true_iff in E3 as (E3 & E4). apply leb_spec in E3, E4. exists (-1). lia.
Qed.

Lemma try3_ok A z f (v : R) (x : Z) : 0 <= sz A <= 32767 -> Z.abs (sz z) <= 2 ^ 31 ->
  (Rabs (IZR (sz z) - 1073741824 * v) <= 8)%R -> (Rabs (IZR x - IZR (sz A) * v) <= 1)%R ->
  try3 f (low A z) (high A z) = true -> f (Uint63.of_Z x) = true.
Proof.
  intros HA Hz Hv Hx T.
  assert (P : Z.abs (sz A * sz z) <= 2 ^ 46) by (rewrite Z.abs_mul; nia).
  assert (SA : sz (A * z)%sint63 = sz A * sz z) by (apply s_mul; fit).
  assert (C1 : sz 262145 = 262145) by reflexivity. assert (C2 : sz 262144 = 262144) by reflexivity.
  assert (S1 : sz 1 = 1) by reflexivity. assert (S2 : sz 2 = 2) by reflexivity.
  assert (SL : sz (low A z) = (sz A * sz z - 262145) / 2 ^ 30).
  { unfold low. rewrite asr_spec, s_sub; rewrite SA, C1; [reflexivity|fit]. }
  set (L := (sz A * sz z - 262145) / 2 ^ 30) in *.
  set (H := (sz A * sz z + 262144) / 2 ^ 30).
  pose proof (Z.div_mod (sz A * sz z - 262145) (2 ^ 30) ltac:(lia)) as DL. pose proof (Z.mod_pos_bound (sz A * sz z - 262145) (2 ^ 30) ltac:(lia)) as BL.
  pose proof (Z.div_mod (sz A * sz z + 262144) (2 ^ 30) ltac:(lia)) as DH. pose proof (Z.mod_pos_bound (sz A * sz z + 262144) (2 ^ 30) ltac:(lia)) as BH.
  fold L in DL. fold H in DH.
  assert (SH : sz (high A z) = H + 1).
  { assert (Q : sz ((A * z + 262144) >> 30)%sint63 = H) by (rewrite asr_spec, s_add; rewrite SA, C2; [reflexivity|fit]).
    unfold high. rewrite s_add; rewrite Q, S1; [reflexivity|fit]. }
  assert (X : Z.abs (x * 2 ^ 30 - sz A * sz z) <= 2 ^ 30 + 262136).
  { apply le_IZR. rewrite abs_IZR, minus_IZR, plus_IZR, !mult_IZR. change (2 ^ 30) with 1073741824.
    assert (HA' : (0 <= IZR (sz A) <= 32767)%R) by (split; [apply (IZR_le 0)|apply (IZR_le _ 32767)]; lia).
    apply Rabs_le_inv in Hv, Hx. apply Rabs_le. set (q := (IZR (sz A) * v)%R) in *.
    assert (Z1 : (Rabs (IZR (sz A) * (IZR (sz z) - 1073741824 * v)) <= 32767 * 8)%R).
    { rewrite Rabs_mult, (Rabs_pos_eq (IZR (sz A))) by lra.
      apply Rmult_le_compat; try lra; [apply Rabs_pos|apply Rabs_le; lra]. }
    apply Rabs_le_inv in Z1. replace (IZR (sz A) * (IZR (sz z) - 1073741824 * v))%R with (IZR (sz A) * IZR (sz z) - 1073741824 * q)%R in Z1 by (unfold q; ring).
    lra. }
  assert (Fx : Z.abs x <= 2 ^ 40) by lia.
  assert (Sx : sz (Uint63.of_Z x) = x) by (apply s_of; fit).
  unfold try3 in T. apply andb_true_iff in T as (T & T3). apply andb_true_iff in T as (T1 & T2).
  assert (L2 : sz (low A z + 2)%sint63 = L + 2) by (rewrite s_add; rewrite SL, S2; [reflexivity|fit]).
  assert (L1 : sz (low A z + 1)%sint63 = L + 1) by (rewrite s_add; rewrite SL, S1; [reflexivity|fit]).
  assert (O : x = L \/ x = L + 1 \/ x = L + 2 /\ L + 2 <= H + 1) by lia.
  destruct O as [O|[O|(O & O')]].
  - replace (Uint63.of_Z x) with (low A z); [exact T1|]. apply to_Z_inj. lia.
  - replace (Uint63.of_Z x) with (low A z + 1)%sint63; [exact T2|]. apply to_Z_inj. lia.
  - replace (Uint63.of_Z x) with (low A z + 2)%sint63.
    + destruct (lebP (low A z + 2) (high A z)); [exact T3|lia].
    + apply to_Z_inj. lia.
Qed.

Lemma check_ok l F B N A c s n t x y : 0 <= sz A <= 32767 -> Z.abs (sz c) <= 2 ^ 31 -> Z.abs (sz s) <= 2 ^ 31 ->
  (Rabs (IZR (sz c) - 1073741824 * cos t) <= 8)%R -> (Rabs (IZR (sz s) - 1073741824 * sin t) <= 8)%R ->
  (Rabs (IZR x - IZR (sz A) * cos t) <= 1)%R -> (Rabs (IZR y - IZR (sz A) * sin t) <= 1)%R ->
  check l F B N A c s n = true -> close l F B N (Uint63.of_Z y) (Uint63.of_Z x) n = true.
Proof.
  intros HA Hc Hs Ec Es Ex Ey H. unfold check in H.
  apply (try3_ok A c _ _ x HA Hc Ec Ex) in H. apply (try3_ok A s _ _ y HA Hs Es Ey) in H. exact H.
Qed.

(** ** the tables *)
Definition approx (w : int * int) (t : R) : Prop :=
  (Rabs (IZR (sz (fst w)) - 1073741824 * cos t) <= 1.01)%R /\ (Rabs (IZR (sz (snd w)) - 1073741824 * sin t) <= 1.01)%R.

Lemma ztable_ok c s t0 : (Cmod (zc c s - IZR SC * circ t0)%C <= 2)%R ->
  forall k z t E, 0 <= E -> E + 4 * Z.of_nat k <= 2000 -> (Cmod (zc (fst z) (snd z) - IZR SC * circ t)%C <= IZR E)%R ->
  forall j w, nth_error (ztable c s k z) j = Some w -> (Cmod (zc (fst w) (snd w) - IZR SC * circ (t + INR j * t0))%C <= 2000)%R.
Proof.
  intros Hc. induction k as [|k IH]; intros z t E HE HE2 Hz j w Hj; [destruct j; discriminate|].
  cbn [ztable] in Hj. destruct j as [|j].
  - cbn in Hj. injection Hj as <-. cbn [INR]. rewrite Rmult_0_l, Rplus_0_r. apply Rle_trans with (1 := Hz). apply IZR_le. lia.
  - cbn [nth_error] in Hj. rewrite tstep_fast_ok in Hj by lia. change (2 ^ 54) with SC in Hj.
    assert (H1 : (Cmod (zc (fst (tstep SC c s z)) (snd (tstep SC c s z)) - IZR SC * circ (t + t0))%C <= IZR (E + 4))%R).
    { rewrite plus_IZR. apply (tstep_err SC c s t0); [reflexivity|exact Hc|exact Hz|].
      assert (Q : (IZR E <= 2000)%R) by (apply IZR_le; lia). unfold SC. lra. }
    specialize (IH (tstep SC c s z) (t + t0)%R (E + 4) ltac:(lia) ltac:(lia) H1 j w Hj).
    replace (t + INR (S j) * t0)%R with (t + t0 + INR j * t0)%R; [exact IH|]. rewrite S_INR. ring.
Qed.

Lemma trunc_ok z t : (Cmod (zc (fst z) (snd z) - IZR SC * circ t)%C <= 2000)%R -> approx (trunc z) t.
Proof.
  intros Hz.
  assert (P : (Rabs (IZR (fst z) - IZR SC * cos t) <= 2000 /\ Rabs (IZR (snd z) - IZR SC * sin t) <= 2000)%R).
  { split; apply Rle_trans with (2 := Hz).
    - apply Rle_trans with (2 := Rmax_Cmod _). apply Rle_trans with (2 := Rmax_l _ _). right. f_equal.
      unfold zc, circ, Cminus, Cplus, Copp, Cmult, RtoC. cbn. ring.
    - apply Rle_trans with (2 := Rmax_Cmod _). apply Rle_trans with (2 := Rmax_r _ _). right. f_equal.
      unfold zc, circ, Cminus, Cplus, Copp, Cmult, RtoC. cbn. ring. }
  assert (G : forall a (v : R), (-1 <= v <= 1)%R -> (Rabs (IZR a - IZR SC * v) <= 2000)%R ->
    (Rabs (IZR (sz (Uint63.of_Z (Z.shiftr a 24))) - 1073741824 * v) <= 1.01)%R).
  { intros a v Hv Ha. apply Rabs_le_inv in Ha. unfold SC in Ha.
    assert (Ba : Z.abs a <= 2 ^ 55).
    { apply le_IZR. rewrite abs_IZR. change (2 ^ 55) with 36028797018963968. apply Rabs_le. lra. }
    rewrite s_of.
    2:{ rewrite Z.shiftr_div_pow2 by lia. apply abs_fits. pose proof (Z.div_mod a (2 ^ 24) ltac:(lia)). pose proof (Z.mod_pos_bound a (2 ^ 24) ltac:(lia)). lia. }
    rewrite Z.shiftr_div_pow2 by lia.
    pose proof (Z.div_mod a (2 ^ 24) ltac:(lia)) as D. pose proof (Z.mod_pos_bound a (2 ^ 24) ltac:(lia)) as M.
    set (q := a / 2 ^ 24) in *. assert (M' : 0 <= a - 16777216 * q <= 16777216) by (change (2 ^ 24) with 16777216 in *; lia).
    destruct M' as (M1 & M2). apply IZR_le in M1, M2. rewrite minus_IZR, mult_IZR in M1, M2. apply Rabs_le. lra. }
  destruct P as (P1 & P2). split; cbn [trunc fst snd]; apply G; auto; [pose proof (COS_bound t)|pose proof (SIN_bound t)]; lra.
Qed.

Lemma coarse_ok j w : nth_error coarse j = Some w -> approx w (- PI + INR j * (2 * PI / 256)).
Proof.
  rewrite coarse_eq, nth_error_map. destruct (nth_error (ztable c8 s8 256 (- SC, 0)) j) as [z|] eqn:E; [|discriminate].
  intros H. injection H as <-. apply trunc_ok. 
  apply (ztable_ok c8 s8 _ base8 256 (- SC, 0) (- PI)%R 0); [lia|lia|apply start_ok; reflexivity|exact E].
Qed.
Lemma fine_ok j w : nth_error fine16 j = Some w -> approx w (INR j * (2 * PI / 65536)).
Proof.
  rewrite fine_eq, nth_error_map. destruct (nth_error (ztable c16 s16 256 (SC, 0)) j) as [z|] eqn:E; [|discriminate].
  intros H. injection H as <-. apply trunc_ok. rewrite <- (Rplus_0_l (INR j * _)).
  apply (ztable_ok c16 s16 _ base16 256 (SC, 0) 0%R 0); [lia|lia| |exact E].
  unfold circ. rewrite cos_0, sin_0. cbn [fst snd].
  replace (zc SC 0 - IZR SC * (1, 0)%R)%C with (RtoC 0); [rewrite Cmod_0; lra|].
  unfold zc, Cminus, Cplus, Copp, Cmult, RtoC. cbn [fst snd]. f_equal; ring.
Qed.
Lemma one_ok j w : nth_error [(1073741824, 0)%sint63] j = Some w -> approx w (INR j * 0).
Proof.
  destruct j as [|[|]]; try discriminate. intros H. injection H as <-. rewrite Rmult_0_r. unfold approx. cbn [fst snd].
  rewrite cos_0, sin_0. change (sz 1073741824) with 1073741824. change (sz 0) with 0. split; apply Rabs_le; lra.
Qed.

Lemma approx_bound w t : approx w t -> Z.abs (sz (fst w)) <= 2 ^ 30 + 1 /\ Z.abs (sz (snd w)) <= 2 ^ 30 + 1.
Proof.
  intros (H1 & H2). apply Rabs_le_inv in H1, H2. pose proof (COS_bound t). pose proof (SIN_bound t).
  split; apply Z.lt_succ_r, lt_IZR; rewrite abs_IZR; apply Rabs_def1; change (Z.succ (2 ^ 30 + 1)) with 1073741826; lra.
Qed.
Lemma prod_ok v w t u : approx v t -> approx w u ->
  let c := ((fst v * fst w - snd v * snd w) >> 30)%sint63 in let s := ((fst v * snd w + snd v * fst w) >> 30)%sint63 in
  Z.abs (sz c) <= 2 ^ 31 /\ Z.abs (sz s) <= 2 ^ 31 /\
  (Rabs (IZR (sz c) - 1073741824 * cos (t + u)) <= 8)%R /\ (Rabs (IZR (sz s) - 1073741824 * sin (t + u)) <= 8)%R.
Proof.
  intros Av Aw. destruct (approx_bound _ _ Av) as (Bv1 & Bv2). destruct (approx_bound _ _ Aw) as (Bw1 & Bw2).
  destruct v as (a, b), w as (a', b'). cbn [fst snd] in *. destruct Av as (V1 & V2), Aw as (W1 & W2). cbn [fst snd] in *. cbv zeta.
  assert (PB : forall p q, Z.abs p <= 2 ^ 30 + 1 -> Z.abs q <= 2 ^ 30 + 1 -> Z.abs (p * q) <= 2 ^ 60 + 2 ^ 32).
  { intros p q Hp Hq. rewrite Z.abs_mul. apply Z.le_trans with ((2 ^ 30 + 1) * (2 ^ 30 + 1)); [apply Z.mul_le_mono_nonneg; lia|lia]. }
  pose proof (PB _ _ Bv1 Bw1). pose proof (PB _ _ Bv2 Bw2). pose proof (PB _ _ Bv1 Bw2). pose proof (PB _ _ Bv2 Bw1).
  assert (M1 : sz (a * a')%sint63 = sz a * sz a') by (apply s_mul; unfold fits; lia).
  assert (M2 : sz (b * b')%sint63 = sz b * sz b') by (apply s_mul; unfold fits; lia).
  assert (M3 : sz (a * b')%sint63 = sz a * sz b') by (apply s_mul; unfold fits; lia).
  assert (M4 : sz (b * a')%sint63 = sz b * sz a') by (apply s_mul; unfold fits; lia).
  assert (C30 : sz 30 = 30) by reflexivity.
  assert (PS : forall p q, Z.abs p <= 2 ^ 60 + 2 ^ 32 -> Z.abs q <= 2 ^ 60 + 2 ^ 32 -> Z.abs (p - q) <= 2 ^ 61 + 2 ^ 33 /\ Z.abs (p + q) <= 2 ^ 61 + 2 ^ 33).
  { clear. intros; lia. }
  rewrite !asr_spec, C30. rewrite s_sub, s_add by (rewrite ?M1, ?M2, ?M3, ?M4; unfold fits; lia). rewrite M1, M2, M3, M4.
  assert (G : forall p (r : R), Z.abs p <= 2 ^ 61 + 2 ^ 33 -> (Rabs (IZR p - 1073741824 * (1073741824 * r)) <= 4.1 * 1073741824)%R ->
     (Rabs (IZR (p / 2 ^ 30) - 1073741824 * r) <= 8)%R).
  { intros p r Hp Hr. apply Rabs_le_inv in Hr. change (2 ^ 30) with 1073741824.
    pose proof (Z.div_mod p 1073741824 ltac:(lia)) as D. pose proof (Z.mod_pos_bound p 1073741824 ltac:(lia)) as Mo.
    set (q := p / 1073741824) in *. assert (M' : 0 <= p - 1073741824 * q <= 1073741824) by lia.
    destruct M' as (Q1 & Q2). apply IZR_le in Q1, Q2. rewrite minus_IZR, mult_IZR in Q1, Q2. apply Rabs_le. lra. }
  assert (E4 : forall x y x' y' e1 e2 e3 e4 : R, (-1 <= x <= 1 -> -1 <= y <= 1 -> -1 <= x' <= 1 -> -1 <= y' <= 1 ->
     Rabs e1 <= 1.01 -> Rabs e2 <= 1.01 -> Rabs e3 <= 1.01 -> Rabs e4 <= 1.01 ->
     Rabs ((1073741824 * x + e1) * (1073741824 * x' + e2) + (1073741824 * y + e3) * (1073741824 * y' + e4)
           - 1073741824 * (1073741824 * (x * x' + y * y'))) <= 4.1 * 1073741824)%R).
  { intros x y x' y' e1 e2 e3 e4 Hx Hy Hx' Hy' J1 J2 J3 J4.
    assert (T : forall p q P Q : R, (Rabs p <= P -> Rabs q <= Q -> Rabs (p * q) <= P * Q)%R).
    { intros p q P Q Hp Hq. rewrite Rabs_mult. apply Rmult_le_compat; try apply Rabs_pos; assumption. }
    assert (Rabs x <= 1 /\ Rabs y <= 1 /\ Rabs x' <= 1 /\ Rabs y' <= 1)%R as (Ax & Ay & Ax' & Ay') by (repeat split; apply Rabs_le; lra).
    pose proof (T _ _ _ _ Ax J2) as T1. pose proof (T _ _ _ _ Ax' J1) as T2. pose proof (T _ _ _ _ J1 J2) as T3.
    pose proof (T _ _ _ _ Ay J4) as T4. pose proof (T _ _ _ _ Ay' J3) as T5. pose proof (T _ _ _ _ J3 J4) as T6.
    apply Rabs_le_inv in T1, T2, T3, T4, T5, T6.
    match goal with |- (Rabs ?w <= _)%R => replace w with (1073741824 * (x * e2) + 1073741824 * (x' * e1) + e1 * e2 + (1073741824 * (y * e4) + 1073741824 * (y' * e3) + e3 * e4))%R by ring end.
    apply Rabs_le. lra. }
  pose proof (COS_bound t). pose proof (SIN_bound t). pose proof (COS_bound u). pose proof (SIN_bound u).
  assert (K1 : (Rabs (IZR ((sz a * sz a' - sz b * sz b') / 2 ^ 30) - 1073741824 * cos (t + u)) <= 8)%R).
  { apply G; [refine (proj1 (PS _ _ _ _)); assumption|]. rewrite minus_IZR, !mult_IZR, cos_plus.
    pose proof (E4 (cos t) (- sin t) (cos u) (sin u) _ _ (- (IZR (sz b) - 1073741824 * sin t)) _ ltac:(lra) ltac:(lra) ltac:(lra) ltac:(lra) V1 W1 ltac:(rewrite Rabs_Ropp; exact V2) W2)%R as Q.
    apply Rle_trans with (2 := Q). right. f_equal. ring. }
  assert (K2 : (Rabs (IZR ((sz a * sz b' + sz b * sz a') / 2 ^ 30) - 1073741824 * sin (t + u)) <= 8)%R).
  { apply G; [refine (proj2 (PS _ _ _ _)); assumption|]. rewrite plus_IZR, !mult_IZR, sin_plus.
    pose proof (E4 (cos t) (sin t) (sin u) (cos u) _ _ _ _ ltac:(lra) ltac:(lra) ltac:(lra) ltac:(lra) V1 W2 V2 W1)%R as Q.
    apply Rle_trans with (2 := Q). right. f_equal. ring. }
  split; [|split; [|split; assumption]].
  - pose proof (COS_bound (t + u)). apply Rabs_le_inv in K1. apply le_IZR. rewrite abs_IZR. apply Rabs_le. change (2 ^ 31) with 2147483648. lra.
  - pose proof (SIN_bound (t + u)). apply Rabs_le_inv in K2. apply le_IZR. rewrite abs_IZR. apply Rabs_le. change (2 ^ 31) with 2147483648. lra.
Qed.

(** ** the scan *)
Lemma inner_ok l F B N A : 0 <= sz A <= 32767 -> forall fine c s n j w, Z.abs (sz n) + Z.of_nat (length fine) <= 2 ^ 40 -> inner l F B N A fine c s n = true ->
  nth_error fine j = Some w -> exists n', sz n' = sz n + Z.of_nat j /\
    check l F B N A ((c * fst w - s * snd w) >> 30)%sint63 ((c * snd w + s * fst w) >> 30)%sint63 n' = true.
Proof.
  intros HA. induction fine as [|(c', s') fine IH]; intros c s n j w Hn H Hj; [destruct j; discriminate|].
  cbn [inner] in H. destruct (check _ _ _ _ _ _ _ _) eqn:C in H; [|discriminate]. cbn [length] in Hn.
  destruct j as [|j]; cbn [nth_error] in Hj.
  - injection Hj as <-. exists n. split; [lia|exact C].
  - assert (S1 : sz (n + 1)%sint63 = sz n + 1) by (rewrite s_add; [reflexivity|change (sz 1) with 1; fit]).
    destruct (IH c s (n + 1)%sint63 j w ltac:(lia) H Hj) as (n' & E & K). exists n'. split; [lia|exact K].
Qed.
Lemma outer_ok l F B N A m : 0 <= sz m <= 2 ^ 16 -> forall cs fine n j v, Z.abs (sz n) + 2 ^ 16 * Z.of_nat (length cs) <= 2 ^ 39 ->
  outer l F B N A cs fine n m = true -> nth_error cs j = Some v ->
  exists n', sz n' = sz n + Z.of_nat j * sz m /\ inner l F B N A fine (fst v) (snd v) n' = true.
Proof.
  intros Hm. induction cs as [|(c, s) cs IH]; intros fine n j v Hn H Hj; [destruct j; discriminate|].
  cbn [outer] in H. destruct (inner _ _ _ _ _ _ _ _ _) eqn:C in H; [|discriminate]. cbn [length] in Hn.
  destruct j as [|j]; cbn [nth_error] in Hj.
  - injection Hj as <-. exists n. split; [lia|exact C].
  - assert (S1 : sz (n + m)%sint63 = sz n + sz m) by (rewrite s_add; [reflexivity|fit]).
    destruct (IH fine (n + m)%sint63 j v ltac:(lia) H Hj) as (n' & E & K). exists n'. split; [lia|exact K].
Qed.

Lemma outer_all l F B N A fine tf n0 m i j (x y : Z) :
  0 <= sz A <= 32767 -> 0 <= sz m <= 2 ^ 16 -> Z.abs (sz n0) <= 2 ^ 16 -> (length fine <= 256)%nat ->
  (forall j w, nth_error fine j = Some w -> approx w (INR j * tf)) ->
  outer l F B N A coarse fine n0 m = true -> (i < 256)%nat -> (j < length fine)%nat ->
  (Rabs (IZR x - IZR (sz A) * cos (- PI + INR i * (2 * PI / 256) + INR j * tf)) <= 1)%R ->
  (Rabs (IZR y - IZR (sz A) * sin (- PI + INR i * (2 * PI / 256) + INR j * tf)) <= 1)%R ->
  exists n, sz n = sz n0 + Z.of_nat i * sz m + Z.of_nat j /\ close l F B N (Uint63.of_Z y) (Uint63.of_Z x) n = true.
Proof.
  intros HA Hm Hn0 Hf HF HO Hi Hj Hx Hy.
  assert (Lc : length coarse = 256%nat) by reflexivity.
  destruct (nth_error coarse i) as [v|] eqn:Ev; [|apply nth_error_None in Ev; lia].
  destruct (nth_error fine j) as [w|] eqn:Ew; [|apply nth_error_None in Ew; lia].
  destruct (outer_ok l F B N A m Hm coarse fine n0 i v ltac:(lia) HO Ev) as (n' & En & HI).
  assert (Bi : 0 <= Z.of_nat i * sz m <= 2 ^ 24) by nia.
  destruct (inner_ok l F B N A HA fine _ _ n' j w ltac:(lia) HI Ew) as (n & En2 & HC).
  exists n. split; [lia|].
  destruct (prod_ok v w _ _ (coarse_ok _ _ Ev) (HF _ _ Ew)) as (P1 & P2 & P3 & P4).
  exact (check_ok l F B N A _ _ n _ x y HA P1 P2 P3 P4 Hx Hy HC).
Qed.

Lemma all16_true : outer ilut2 131072 2 65536 32767 coarse fine16 (-32768)%sint63 256 = true.
Proof. vm_cast_no_check (eq_refl true). Qed.
Lemma all8_true : outer ilut1 256 1 256 127 coarse [(1073741824, 0)%sint63] (-128)%sint63 1 = true.
Proof. vm_cast_no_check (eq_refl true). Qed.

Lemma any16 n x y : -32768 <= n < 32768 -> -32768 <= x < 32768 -> -32768 <= y < 32768 ->
  (Rabs (IZR x - 32767 * cos (IZR n * (2 * PI / 65536))) <= 1)%R -> (Rabs (IZR y - 32767 * sin (IZR n * (2 * PI / 65536))) <= 1)%R ->
  exists a k, cordic_atan2 2 y x = Ok a /\ Z.abs (a - n - k * 65536) <= 1.
Proof.
  intros Hn Hx Hy Ex Ey.
  destruct (cordic_safe 2 x y ltac:(auto) Hx Hy) as (a & Ea & _).
  set (q := n + 32768). set (i := Z.to_nat (q / 256)). set (j := Z.to_nat (q mod 256)).
  pose proof (Z.div_mod q 256 ltac:(lia)) as D. pose proof (Z.mod_pos_bound q 256 ltac:(lia)) as M.
  assert (Q : 0 <= q / 256 < 256) by (unfold q in *; lia).
  assert (Ang : (IZR n * (2 * PI / 65536) = - PI + INR i * (2 * PI / 256) + INR j * (2 * PI / 65536))%R).
  { rewrite !INR_IZR_INZ. unfold i, j. rewrite !Z2Nat.id by lia.
    replace n with (256 * (q / 256) + q mod 256 - 32768) by (unfold q in *; lia).
    rewrite minus_IZR, plus_IZR, mult_IZR. field. }
  rewrite Ang in Ex, Ey.
  assert (H0 : exists n', sz n' = sz (-32768)%sint63 + Z.of_nat i * sz 256 + Z.of_nat j /\
            close ilut2 131072 2 65536 (Uint63.of_Z y) (Uint63.of_Z x) n' = true).
  { apply (outer_all ilut2 131072 2 65536 32767 fine16 (2 * PI / 65536) (-32768)%sint63 256 i j x y).
    - change (sz 32767) with 32767. lia.
    - change (sz 256) with 256. lia.
    - change (sz (-32768)%sint63) with (-32768). lia.
    - reflexivity.
    - exact fine_ok.
    - exact all16_true.
    - unfold i. lia.
    - change (length fine16) with 256%nat. unfold j. lia.
    - exact Ex.
    - exact Ey. }
  destruct H0 as (n' & En & HC). change (sz (-32768)%sint63) with (-32768) in En. change (sz 256) with 256 in En.
  assert (En' : sz n' = n) by (unfold i, j in En; rewrite !Z2Nat.id in En by lia; unfold q in *; lia). clear En.
  assert (Sx : sz (Uint63.of_Z x) = x) by (apply s_of; fit). assert (Sy : sz (Uint63.of_Z y) = y) by (apply s_of; fit).
  destruct (iatan_ok 2 ilut2 131072 2 (Uint63.of_Z x) (Uint63.of_Z y) a) as (B1 & k & Ek);
    [auto|reflexivity|exact lmatch2|reflexivity|reflexivity|rewrite Sx, Sy; exact Ea|].
  destruct (close_ok ilut2 131072 2 65536 _ _ n' B1 ltac:(lia) ltac:(change (sz 65536) with 65536; lia) HC) as (k' & K).
  change (sz 65536) with 65536 in K. exists a, (k + k'). split; [exact Ea|]. rewrite Ek, <- En'. change (2 ^ (8 * 2)) with 65536. lia.
Qed.

Lemma any8 n x y : -128 <= n < 128 -> -128 <= x < 128 -> -128 <= y < 128 ->
  (Rabs (IZR x - 127 * cos (IZR n * (2 * PI / 256))) <= 1)%R -> (Rabs (IZR y - 127 * sin (IZR n * (2 * PI / 256))) <= 1)%R ->
  exists a k, cordic_atan2 1 y x = Ok a /\ Z.abs (a - n - k * 256) <= 1.
Proof.
  intros Hn Hx Hy Ex Ey.
  destruct (cordic_safe 1 x y ltac:(auto) Hx Hy) as (a & Ea & _).
  set (i := Z.to_nat (n + 128)).
  assert (Ang : (IZR n * (2 * PI / 256) = - PI + INR i * (2 * PI / 256) + INR 0 * 0)%R).
  { rewrite !INR_IZR_INZ. unfold i. rewrite !Z2Nat.id by lia. rewrite plus_IZR. change (Z.of_nat 0) with 0. field. }
  rewrite Ang in Ex, Ey.
  assert (H0 : exists n', sz n' = sz (-128)%sint63 + Z.of_nat i * sz 1 + Z.of_nat 0 /\
            close ilut1 256 1 256 (Uint63.of_Z y) (Uint63.of_Z x) n' = true).
  { apply (outer_all ilut1 256 1 256 127 [(1073741824, 0)%sint63] 0 (-128)%sint63 1 i 0 x y).
    - change (sz 127) with 127. lia.
    - change (sz 1) with 1. lia.
    - change (sz (-128)%sint63) with (-128). lia.
    - cbn [length]. lia.
    - exact one_ok.
    - exact all8_true.
    - unfold i. lia.
    - cbn [length]. lia.
    - exact Ex.
    - exact Ey. }
  destruct H0 as (n' & En & HC). change (sz (-128)%sint63) with (-128) in En. change (sz 1) with 1 in En.
  assert (En' : sz n' = n) by (unfold i in En; rewrite !Z2Nat.id in En by lia; lia). clear En.
  assert (Sx : sz (Uint63.of_Z x) = x) by (apply s_of; fit). assert (Sy : sz (Uint63.of_Z y) = y) by (apply s_of; fit).
  destruct (iatan_ok 1 ilut1 256 1 (Uint63.of_Z x) (Uint63.of_Z y) a) as (B1 & k & Ek);
    [auto|reflexivity|exact lmatch1|reflexivity|reflexivity|rewrite Sx, Sy; exact Ea|].
  destruct (close_ok ilut1 256 1 256 _ _ n' B1 ltac:(lia) ltac:(change (sz 256) with 256; lia) HC) as (k' & K).
  change (sz 256) with 256 in K. exists a, (k + k'). split; [exact Ea|]. rewrite Ek, <- En'. change (2 ^ (8 * 1)) with 256. lia.
Qed.

(** ** rounding to nearest: no full turn is added *)
Lemma full16 n u v : -32768 <= n < 32768 ->
  (Rabs (u - 32767 * cos (IZR n * (2 * PI / 65536))) <= / 262144)%R ->
  (Rabs (v - 32767 * sin (IZR n * (2 * PI / 65536))) <= / 262144)%R ->
  exists a, cordic_atan2 2 (ZnearestE v) (ZnearestE u) = Ok a /\ Z.abs (a - n) <= 1.
Proof.
  intros Hn Hu Hv.
  assert (RB : forall p r : R, (-1 <= r <= 1 -> Rabs (p - 32767 * r) <= / 262144 ->
     Rabs (IZR (ZnearestE p) - 32767 * r) <= 1)%R /\ ((-1 <= r <= 1)%R -> (Rabs (p - 32767 * r) <= / 262144)%R -> -32768 <= ZnearestE p < 32768)).
  { intros p r. pose proof (Znearest_half (fun x => negb (Z.even x)) p) as Hh. apply Rabs_le_inv in Hh. split; intros Hr Hp; apply Rabs_le_inv in Hp.
    - apply Rabs_le. lra.
    - split; [apply Z.lt_succ_r|]; apply lt_IZR; rewrite ?succ_IZR; lra. }
  set (t := (IZR n * (2 * PI / 65536))%R) in *.
  pose proof (COS_bound t) as Bc. pose proof (SIN_bound t) as Bs.
  destruct (RB u (cos t)) as (U1 & U2). destruct (RB v (sin t)) as (V1 & V2).
  destruct (any16 n (ZnearestE u) (ZnearestE v) Hn (U2 Bc Hu) (V2 Bs Hv) (U1 Bc Hu) (V1 Bs Hv)) as (a & k & Ea & Ha).
  exists a. split; [exact Ea|].
  destruct (cordic_safe 2 (ZnearestE u) (ZnearestE v) ltac:(auto) (U2 Bc Hu) (V2 Bs Hv)) as (a' & Ea' & Ra).
  rewrite Ea in Ea'. injection Ea' as <-. cbn in Ra.
  destruct (Z.eq_dec n (-32768)) as [->|N1].
  { assert (T : t = (- PI)%R) by (unfold t; field). rewrite T, cos_neg, cos_PI in Hu. rewrite T, sin_neg, sin_PI in Hv.
    apply Rabs_le_inv in Hu, Hv. rewrite (Znearest_imp _ u (-32767)), (Znearest_imp _ v 0) in Ea by (apply Rabs_def1; lra).
    assert (E : cordic_atan2 2 0 (-32767) = Ok (-32768)) by (vm_compute; reflexivity). rewrite E in Ea. injection Ea as <-. lia. }
  destruct (Z.eq_dec n 32767) as [->|N2].
  { assert (C : (-32767 <= 32767 * cos t <= -32766.9 /\ 3.1 <= 32767 * sin t <= 3.2)%R) by (unfold t; split; interval).
    apply Rabs_le_inv in Hu, Hv. rewrite (Znearest_imp _ u (-32767)), (Znearest_imp _ v 3) in Ea by (apply Rabs_def1; lra).
    assert (E : cordic_atan2 2 3 (-32767) = Ok 32766) by (vm_compute; reflexivity). rewrite E in Ea. injection Ea as <-. lia. }
  assert (k = 0) by lia. subst k. lia.
Qed.
