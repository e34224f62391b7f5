(* The radix kernels compute short transforms *)
From Coq Require Import Reals ZArith Lia Lra List.
From Coquelicot Require Import Complex.
From Verif Require Import Proofs.BaseLemmas Spec.Dft Model.Fft Proofs.FftAlg Proofs.FftSplit.
Import ListNotations.
Open Scope R_scope.
Open Scope C_scope.

(** exact sine, cosine and 1/sqrt(2) *)
Definition exact_trig : trig R := {|
  tcos := fun n N => cos (2 * PI * IZR n / IZR N);
  tsin := fun n N => sin (2 * PI * IZR n / IZR N);
  trsqrt2 := (/ sqrt 2)%R |}.

Notation kadd := (cadd Rn).
Notation kernelR := (kernel Rn exact_trig).
Notation dftR := (dft Rn exact_trig).

Ltac ceq := apply C_eq; unfold creal, cimag, cconj, cmk, cofr, Cplus, Cminus, Cmult, Copp, RtoC, Cconj, Ci;
  cbn -[IZR PI cos sin sqrt Rinv Rdiv INR];
  unfold creal, cimag, cplx; cbn -[IZR PI cos sin sqrt Rinv Rdiv INR];
  match goal with |- @eq ?t ?a ?b => change (@eq R a b) end.

Lemma root_1 N m : root 1 N m = (cos (2 * PI * IZR m / IZR N), sin (2 * PI * IZR m / IZR N)).
Proof. unfold root, cis. f_equal; f_equal; unfold Rdiv; ring. Qed.

(** ** odd radices *)
Lemma fold_add_sum {A} (g : A -> C) d l : forall i, fold_left (fun acc x => acc + g x) l i = i + Csum (length l) (fun j => g (nth j l d)).
Proof.
  induction l as [|x l IH]; intros i; cbn [fold_left length]; [cbn; ring|]. rewrite IH, Csum_S. cbn [nth]. ring.
Qed.

Lemma fold_ext {A B} (f g : B -> A -> B) l : forall i, (forall b a, f b a = g b a) -> fold_left f l i = fold_left g l i.
Proof. induction l as [|x l IH]; intros i H; cbn; auto. rewrite H. auto. Qed.

Lemma crow_sum p : forall idx (a : list C), length idx = length a ->
  crow Rn exact_trig p idx a = Csum (length a) (fun j => RtoC (fst (root 1 p (nth j idx 0%Z))) * nth j a 0).
Proof.
  intros idx a L. unfold crow. destruct idx as [|i0 idx], a as [|a0 a]; cbn in L; try lia; [reflexivity|].
  cbn [combine]. injection L as L. cbn [length]. rewrite Csum_S. cbn [nth].
  transitivity (fold_left (fun acc (q : Z * C) => acc + RtoC (fst (root 1 p (fst q))) * snd q) (combine idx a) (RtoC (fst (root 1 p i0)) * a0)).
  - assert (E : cx Rn exact_trig i0 p a0 = RtoC (fst (root 1 p i0)) * a0) by (rewrite root_1; ceq; ring).
    rewrite E. apply (@fold_ext (Z * C) C). intros c [i x]. rewrite root_1. ceq; ring.
  - rewrite (fold_add_sum _ (0%Z, RtoC 0)). f_equal. rewrite combine_length, L, Nat.min_id. apply Csum_ext. intros j Hj.
    rewrite combine_nth by auto. reflexivity.
Qed.

Lemma srow_sum p : forall idx (t : list C), length idx = length t -> (0 <= nth 0 idx 0)%Z ->
  srow Rn exact_trig p idx t = Csum (length t) (fun j => RtoC (snd (root 1 p (nth j idx 0%Z))) * nth j t 0).
Proof.
  intros idx t L H0. unfold srow. destruct idx as [|i0 idx], t as [|t0 t]; cbn in L; try lia; [reflexivity|].
  cbn [combine]. injection L as L. cbn [length]. rewrite Csum_S. cbn [nth].
  transitivity (fold_left (fun acc (q : Z * C) => acc + RtoC (snd (root 1 p (fst q))) * snd q) (combine idx t) (RtoC (snd (root 1 p i0)) * t0)).
  - assert (E : sx Rn exact_trig i0 p t0 = RtoC (snd (root 1 p i0)) * t0) by (rewrite root_1; ceq; ring).
    rewrite E. apply (@fold_ext (Z * C) C). intros c [i x]. cbn [fst snd]. destruct (Z.ltb_spec i 0).
    + replace (root 1 p i) with (Cconj (root 1 p (- i))) by (rewrite <- root_opp; f_equal; lia). rewrite root_1. ceq; ring.
    + rewrite root_1. ceq; ring.
  - rewrite (fold_add_sum _ (0%Z, RtoC 0)). f_equal. rewrite combine_length, L, Nat.min_id. apply Csum_ext. intros j Hj.
    rewrite combine_nth by auto. reflexivity.
Qed.

(** the index tables are right *)
Definition entry_ok (p k : Z) (j : nat) (ci si : list Z) : bool :=
  ((((nth j ci 0 - k * Z.of_nat (S j)) mod p =? 0) || ((nth j ci 0 + k * Z.of_nat (S j)) mod p =? 0))
  && ((nth j si 0 - k * Z.of_nat (S j)) mod p =? 0))%Z.
Definition row_ok (p : Z) (h k : nat) (row : list Z * list Z) : bool :=
  (Nat.eqb (length (fst row)) h && Nat.eqb (length (snd row)) h && (0 <=? nth 0 (snd row) 0)%Z
  && forallb (fun j => entry_ok p (Z.of_nat (S k)) j (fst row) (snd row)) (seq 0 h))%bool.
Definition table_ok (p : Z) (tab : list (list Z * list Z)) : bool :=
  ((Z.of_nat (S (2 * length tab)) =? p)%Z && forallb (fun k => row_ok p (length tab) k (nth k tab ([], []))) (seq 0 (length tab)))%bool.

Lemma odd_tables p tab : odd_table p = Some tab -> table_ok p tab = true.
Proof.
  unfold odd_table. intros H.
  repeat match type of H with
  | (if (?x =? ?y)%Z then _ else _) = _ => destruct (Z.eqb_spec x y) as [->|]; [injection H as <-; vm_compute; reflexivity|]
  end. discriminate.
Qed.

Lemma nth_map_in {A B} (f : A -> B) l d d' n : (n < length l)%nat -> nth n (map f l) d = f (nth n l d').
Proof. revert n. induction l as [|x l IH]; intros [|n] H; cbn in *; try lia; auto. apply IH. lia. Qed.
Lemma nth_rev' {A} (l : list A) d n : (n < length l)%nat -> nth n (rev l) d = nth (length l - S n) l d.
Proof. intros. apply rev_nth. auto. Qed.

Lemma kernel_odd_ok p tab (in0 : C) (rest : list C) : table_ok p tab = true -> length rest = (2 * length tab)%nat ->
  let ins : list C := in0 :: rest in
  let outs : list C := kernel_odd Rn exact_trig p tab ins in
  length outs = length ins /\
  forall l, (l < length ins)%nat -> nth l outs 0 = Csum (length ins) (fun j => nth j ins 0 * root 1 p (Z.of_nat j * Z.of_nat l)).
Proof.
  intros OK LR ins outs. unfold outs, ins. clear outs ins. set (h := length tab) in *.
  unfold table_ok in OK. apply andb_prop in OK as [EP OK]. apply Z.eqb_eq in EP. fold h in EP, OK.
  pose (ps := (firstn h (combine rest (rev rest)) : list (C * C))).
  pose (a := map (fun '((x, y) : C * C) => x + y) ps). pose (t := map (fun '((x, y) : C * C) => (twiddle Rn x y : C)) ps).
  pose (cs := (map (fun '(ci, si) => (crow Rn exact_trig p ci a, srow Rn exact_trig p si t)) tab : list (C * C))).
  pose (K := ((fold_left (fun acc x => acc + x) a in0
    :: map (fun '((c, s) : C * C) => in0 + c - s) cs ++ rev (map (fun '((c, s) : C * C) => in0 + c + s) cs)) : list C)).
  change (kernel_odd Rn exact_trig p tab (in0 :: rest)) with K. unfold K.
  assert (Lp : length ps = h). { unfold ps. rewrite firstn_length, combine_length, rev_length. lia. }
  assert (La : length a = h) by (unfold a; rewrite map_length; auto).
  assert (Lt : length t = h) by (unfold t; rewrite map_length; auto).
  assert (Lc : length cs = h) by (unfold cs; rewrite map_length; auto).
  assert (NP : forall j, (j < h)%nat -> nth j ps (RtoC 0, RtoC 0) = (nth (S j) (in0 :: rest) 0, nth (2 * h - j) (in0 :: rest) 0)).
  { intros j Hj. unfold ps. rewrite <- (firstn_skipn h (combine rest (rev rest))) at 1.
    assert (NF : forall A n (l : list A) d i, (i < n)%nat -> nth i (firstn n l) d = nth i l d).
    { intros A n. induction n; intros [|x l] d [|i] Hi; cbn; auto; try lia. apply IHn. lia. }
    rewrite NF by auto. rewrite firstn_skipn. rewrite combine_nth by now rewrite rev_length. cbn [nth]. rewrite rev_nth by lia.
    replace (2 * h - j)%nat with (S (length rest - S j)) by lia. reflexivity. }
  assert (NA : forall j, (j < h)%nat -> nth j a 0 = nth (S j) (in0 :: rest) 0 + nth (2 * h - j) (in0 :: rest) 0).
  { intros j Hj. unfold a. rewrite (nth_map_in _ _ _ (RtoC 0, RtoC 0)) by lia. rewrite NP by auto. reflexivity. }
  assert (NT : forall j, (j < h)%nat -> nth j t 0 = - Ci * (nth (S j) (in0 :: rest) 0 - nth (2 * h - j) (in0 :: rest) 0)).
  { intros j Hj. unfold t. rewrite (nth_map_in _ _ _ (RtoC 0, RtoC 0)) by lia. rewrite NP by auto. unfold twiddle. ceq; ring. }
  assert (NC : forall k, (k < h)%nat -> nth k cs (RtoC 0, RtoC 0) =
    (Csum h (fun j => RtoC (fst (root 1 p (Z.of_nat (S j) * Z.of_nat (S k)))) * nth j a 0),
     Csum h (fun j => RtoC (snd (root 1 p (Z.of_nat (S j) * Z.of_nat (S k)))) * nth j t 0))).
  { intros k Hk. unfold cs. rewrite (nth_map_in _ _ _ ([], [])) by auto. rewrite forallb_forall in OK.
    specialize (OK k ltac:(apply in_seq; lia)). destruct (nth k tab ([], [])) as [ci si]. unfold row_ok in OK. cbn [fst snd] in OK.
    apply andb_prop in OK as [OK OE]. apply andb_prop in OK as [OK O0]. apply andb_prop in OK as [OC OS].
    apply Nat.eqb_eq in OC, OS. apply Z.leb_le in O0. rewrite crow_sum, srow_sum by lia. rewrite La, Lt.
    rewrite forallb_forall in OE.
    f_equal; apply Csum_ext; intros j Hj; f_equal; f_equal; specialize (OE j ltac:(apply in_seq; lia)); unfold entry_ok in OE;
      apply andb_prop in OE as [EC ES].
    - apply orb_prop in EC as [E|E]; apply Z.eqb_eq in E.
      + rewrite (Z.mul_comm (Z.of_nat (S j))). f_equal. apply root_mod; auto. lia.
      + transitivity (fst (root 1 p (- (Z.of_nat (S j) * Z.of_nat (S k))))).
        * f_equal. apply root_mod; [lia|]. etransitivity; [|exact E]. f_equal. ring.
        * rewrite root_opp. reflexivity.
    - apply Z.eqb_eq in ES. rewrite (Z.mul_comm (Z.of_nat (S j))). f_equal. apply root_mod; auto. lia. }
  assert (CONJ : forall j l, (j < h)%nat -> root 1 p (Z.of_nat (2 * h - j) * Z.of_nat l) = Cconj (root 1 p (Z.of_nat (S j) * Z.of_nat l))).
  { intros j l Hj. rewrite <- root_opp. apply root_mod; [lia|]. rewrite <- EP.
    replace (Z.of_nat (2 * h - j) * Z.of_nat l - - (Z.of_nat (S j) * Z.of_nat l))%Z with (Z.of_nat l * Z.of_nat (S (2 * h)))%Z by nia.
    apply Z.mod_mul. lia. }
  assert (TGT : forall l, Csum (length (in0 :: rest)) (fun j => nth j (in0 :: rest) 0 * root 1 p (Z.of_nat j * Z.of_nat l)) =
     in0 + (Csum h (fun j => RtoC (fst (root 1 p (Z.of_nat (S j) * Z.of_nat l))) * nth j a 0)
          - Csum h (fun j => RtoC (snd (root 1 p (Z.of_nat (S j) * Z.of_nat l))) * nth j t 0))).
  { intros l. cbn [length]. rewrite LR. rewrite Csum_pair. f_equal.
    { change (in0 * root 1 p 0 = in0). rewrite root_0, Cmult_1_r. auto. }
    rewrite <- Csum_minus. apply Csum_ext. intros j Hj. rewrite NA, NT, CONJ by auto.
    generalize (nth (S j) (in0 :: rest) 0) (nth (2 * h - j) (in0 :: rest) 0) (root 1 p (Z.of_nat (S j) * Z.of_nat l)).
    intros x y r. ceq; ring. }
  clear K. clearbody cs t a.
  split.
  { cbn [length]. rewrite app_length, rev_length, !map_length, Lc, LR. lia. }
  intros l Hl. rewrite TGT. cbn [length] in Hl. rewrite LR in Hl.
  destruct l as [|l].
  - cbn [nth].
    transitivity (in0 + Csum (length a) (fun j => nth j a 0)).
    + rewrite <- (fold_add_sum (fun x => x) (RtoC 0)). reflexivity.
    + f_equal. rewrite La, <- Csum_minus. apply Csum_ext. intros j Hj. change (Z.of_nat 0) with 0%Z. rewrite Z.mul_0_r, root_0. ceq; ring.
  - cbn [nth]. destruct (Nat.lt_ge_cases l h) as [Hlh|Hlh].
    + rewrite app_nth1 by (rewrite map_length; lia). rewrite (nth_map_in _ _ _ (RtoC 0, RtoC 0)) by lia. rewrite NC by auto.
      generalize (Csum h (fun j : nat => RtoC (fst (root 1 p (Z.of_nat (S j) * Z.of_nat (S l)))) * nth j a 0))
       (Csum h (fun j : nat => RtoC (snd (root 1 p (Z.of_nat (S j) * Z.of_nat (S l)))) * nth j t 0)). intros u v. ceq; ring.
    + rewrite app_nth2 by (rewrite map_length; lia). rewrite map_length, Lc. rewrite rev_nth by (rewrite map_length; lia).
      rewrite map_length, Lc. rewrite (nth_map_in _ _ _ (RtoC 0, RtoC 0)) by lia. rewrite NC by lia.
      set (k := (h - S (l - h))%nat).
      assert (E : forall j, root 1 p (Z.of_nat (S j) * Z.of_nat (S l)) = Cconj (root 1 p (Z.of_nat (S j) * Z.of_nat (S k)))).
      { intros j. rewrite <- root_opp. apply root_mod; [lia|]. rewrite <- EP.
        replace (Z.of_nat (S j) * Z.of_nat (S l) - - (Z.of_nat (S j) * Z.of_nat (S k)))%Z with (Z.of_nat (S j) * Z.of_nat (S (2 * h)))%Z by (unfold k; nia).
        apply Z.mod_mul. lia. }
      rewrite (Csum_ext h (fun j => RtoC (fst (root 1 p (Z.of_nat (S j) * Z.of_nat (S l)))) * nth j a 0)
                          (fun j => RtoC (fst (root 1 p (Z.of_nat (S j) * Z.of_nat (S k)))) * nth j a 0)) by (intros; now rewrite E).
      rewrite (Csum_ext h (fun j => RtoC (snd (root 1 p (Z.of_nat (S j) * Z.of_nat (S l)))) * nth j t 0)
                          (fun j => RtoC (-1) * (RtoC (snd (root 1 p (Z.of_nat (S j) * Z.of_nat (S k)))) * nth j t 0)))
        by (intros; rewrite E; ceq; ring).
      rewrite Csum_scal.
      generalize (Csum h (fun j : nat => RtoC (fst (root 1 p (Z.of_nat (S j) * Z.of_nat (S k)))) * nth j a 0))
       (Csum h (fun j : nat => RtoC (snd (root 1 p (Z.of_nat (S j) * Z.of_nat (S k)))) * nth j t 0)). intros u v. ceq; ring.
Qed.

(** ** radices 2, 4, 8 *)
Lemma root_2_1 : root 1 2 1 = -1.
Proof. rewrite root_1. apply C_eq; cbn; replace (2 * PI * 1 / 2)%R with PI by field; [apply cos_PI|apply sin_PI]. Qed.
Lemma root_4_1 : root 1 4 1 = Ci.
Proof. rewrite root_1. apply C_eq; cbn; replace (2 * PI * 1 / 4)%R with (PI / 2)%R by field; [apply cos_PI2|apply sin_PI2]. Qed.
Lemma root_8_1 : root 1 8 1 = ((/ sqrt 2)%R, (/ sqrt 2)%R).
Proof.
  rewrite root_1. apply C_eq; cbn; replace (2 * PI * 1 / 8)%R with (PI / 4)%R by field; [rewrite cos_PI4|rewrite sin_PI4]; unfold Rdiv; ring.
Qed.

(** powers of the first root, for small exponents *)
Fixpoint rpow (r : C) (n : nat) : C := match n with O => 1 | S n => r * rpow r n end.
Lemma root_pow N n : root 1 N (Z.of_nat n) = rpow (root 1 N 1) n.
Proof.
  induction n as [|n IH]; [apply root_0|]. rewrite Nat2Z.inj_succ. unfold Z.succ. rewrite Z.add_comm, root_add, IH. reflexivity.
Qed.

Lemma kernel2_ok (i0 i1 : C) l : (l < 2)%nat ->
  nth l (kernel2 Rn i0 i1 : list C) 0 = Csum 2 (fun j => nth j [i0; i1] 0 * root 1 2 (Z.of_nat j * Z.of_nat l)).
Proof.
  intros Hl. assert (E : forall j l, (Z.of_nat j * Z.of_nat l = Z.of_nat (j * l))%Z) by (intros; lia).
  cbn [Csum]. rewrite !E, !root_pow, root_2_1.
  destruct l as [|[|l]]; try lia; ceq; ring.
Qed.
Lemma kernel4_ok (i0 i1 i2 i3 : C) l : (l < 4)%nat ->
  nth l (kernel4 Rn i0 i1 i2 i3 : list C) 0 = Csum 4 (fun j => nth j [i0; i1; i2; i3] 0 * root 1 4 (Z.of_nat j * Z.of_nat l)).
Proof.
  intros Hl. assert (E : forall j l, (Z.of_nat j * Z.of_nat l = Z.of_nat (j * l))%Z) by (intros; lia).
  cbn [Csum]. rewrite !E, !root_pow, root_4_1.
  destruct l as [|[|[|[|l]]]]; try lia; ceq; ring.
Qed.
Lemma kernel8_ok (i0 i1 i2 i3 i4 i5 i6 i7 : C) l : (l < 8)%nat ->
  nth l (kernel8 Rn exact_trig i0 i1 i2 i3 i4 i5 i6 i7 : list C) 0 =
  Csum 8 (fun j => nth j [i0; i1; i2; i3; i4; i5; i6; i7] 0 * root 1 8 (Z.of_nat j * Z.of_nat l)).
Proof.
  intros Hl. 
  assert (P : forall j l, root 1 8 (Z.of_nat j * Z.of_nat l) = rpow (root 1 8 1) ((j * l) mod 8)).
  { intros j k. rewrite <- root_pow. rewrite <- root_mod' by lia. f_equal. rewrite Nat2Z.inj_mod. f_equal. lia. }
  cbn [Csum]. rewrite !P, root_8_1.
  assert (S2 : (/ sqrt 2 * / sqrt 2 = / 2)%R) by (rewrite <- Rinv_mult, sqrt_sqrt; lra).
  set (s := (/ sqrt 2)%R) in *.
  assert (Q2 : (s, s) * (s, s) = (0%R, 1%R)) by (ceq; lra).
  assert (R0 : rpow (s, s) 0 = 1) by reflexivity.
  assert (R1 : rpow (s, s) 1 = (s, s)) by (cbn; ring).
  assert (R2 : rpow (s, s) 2 = (0%R, 1%R)) by (cbn [rpow]; rewrite Cmult_1_r; auto).
  assert (R3 : rpow (s, s) 3 = ((- s)%R, s)) by (change (rpow (s, s) 3) with ((s, s) * rpow (s, s) 2); rewrite R2; ceq; ring).
  assert (R4 : rpow (s, s) 4 = ((-1)%R, 0%R)) by (change (rpow (s, s) 4) with ((s, s) * rpow (s, s) 3); rewrite R3; ceq; lra).
  assert (R5 : rpow (s, s) 5 = ((- s)%R, (- s)%R)) by (change (rpow (s, s) 5) with ((s, s) * rpow (s, s) 4); rewrite R4; ceq; ring).
  assert (R6 : rpow (s, s) 6 = (0%R, (-1)%R)) by (change (rpow (s, s) 6) with ((s, s) * rpow (s, s) 5); rewrite R5; ceq; lra).
  assert (R7 : rpow (s, s) 7 = (s, (- s)%R)) by (change (rpow (s, s) 7) with ((s, s) * rpow (s, s) 6); rewrite R6; ceq; ring).
  do 8 (destruct l as [|l]; [cbn [Nat.mul Nat.add Nat.modulo Nat.divmod fst snd Nat.sub]; rewrite ?R0, ?R1, ?R2, ?R3, ?R4, ?R5, ?R6, ?R7; clear - s; ceq; fold s; clearbody s; ring|]). lia.
Qed.

(** ** all radices, both signs *)
Lemma kernel_ok R (ins : list C) : In R radices -> Z.of_nat (length ins) = R ->
  exists outs : list C, kernelR R ins = Ok outs /\ length outs = length ins /\
  forall l, (l < length ins)%nat -> nth l outs 0 = Csum (length ins) (fun j => nth j ins 0 * root 1 R (Z.of_nat j * Z.of_nat l)).
Proof.
  intros I L.
  assert (ODD : forall tab, odd_table R = Some tab -> kernelR R ins = Ok (kernel_odd Rn exact_trig R tab ins) ->
    exists outs : list C, kernelR R ins = Ok outs /\ length outs = length ins /\
    forall l, (l < length ins)%nat -> nth l outs 0 = Csum (length ins) (fun j => nth j ins 0 * root 1 R (Z.of_nat j * Z.of_nat l))).
  { intros tab E EK. apply odd_tables in E. destruct ins as [|in0 rest].
    - cbn in L. subst R. cbn in I. intuition lia.
    - assert (LR : length rest = (2 * length tab)%nat).
      { unfold table_ok in E. apply andb_prop in E as [E _]. apply Z.eqb_eq in E. cbn [length] in L. lia. }
      destruct (kernel_odd_ok R tab in0 rest E LR) as [H1 H2]. eexists. split; [exact EK|]. split; auto. }
  assert (D : forall n, length ins = n -> Z.of_nat n = R -> 
    (exists i0 i1, ins = [i0; i1] /\ R = 2%Z) \/ (exists i0 i1 i2 i3, ins = [i0; i1; i2; i3] /\ R = 4%Z) \/
    (exists i0 i1 i2 i3 i4 i5 i6 i7, ins = [i0; i1; i2; i3; i4; i5; i6; i7] /\ R = 8%Z) \/
    (exists tab, odd_table R = Some tab /\ kernelR R ins = Ok (kernel_odd Rn exact_trig R tab ins))).
  { intros n Ln En. subst n. clear ODD. 
    unfold radices in I. cbn in I.
    repeat (destruct I as [<-|I]; [
      do 32 (destruct ins as [|?x ins]; [try discriminate; try solve [left; eauto | right; left; do 4 eexists; eauto | right; right; left; do 8 eexists; eauto | right; right; right; eexists; split; reflexivity]|]); cbn [length] in L; lia|]).
    contradiction. }
  destruct (D _ eq_refl L) as [(i0 & i1 & -> & ->)|[(i0 & i1 & i2 & i3 & -> & ->)|[(i0 & i1 & i2 & i3 & i4 & i5 & i6 & i7 & -> & ->)|(tab & E1 & E2)]]].
  - eexists. split; [reflexivity|]. split; [reflexivity|]. intros l Hl. apply kernel2_ok. exact Hl.
  - eexists. split; [reflexivity|]. split; [reflexivity|]. intros l Hl. apply kernel4_ok. exact Hl.
  - eexists. split; [reflexivity|]. split; [reflexivity|]. intros l Hl. apply kernel8_ok. exact Hl.
  - eapply ODD; eauto.
Qed.

Lemma dft_ok SIGN R (ins : list C) : SIGN = 1%Z \/ SIGN = (-1)%Z -> In R radices -> Z.of_nat (length ins) = R ->
  exists outs : list C, dftR SIGN R ins = Ok outs /\ length outs = length ins /\
  forall l, (l < length ins)%nat -> nth l outs 0 = Csum (length ins) (fun j => nth j ins 0 * root SIGN R (Z.of_nat j * Z.of_nat l)).
Proof.
  intros HS I L. destruct (kernel_ok R ins I L) as (outs & E & LO & V). unfold dft. rewrite E. cbn [bind].
  pose proof (radices_bound R I) as HR.
  destruct HS as [->| ->]; cbn [Z.eqb Pos.eqb].
  - exists outs. auto.
  - destruct outs as [|o0 outs]; [cbn in LO; lia|]. eexists. split; [reflexivity|]. cbn [length] in *. rewrite rev_length. split; auto.
    intros l Hl. 
    assert (G : Csum (length ins) (fun j => nth j ins 0 * root (-1) R (Z.of_nat j * Z.of_nat l)) =
                Csum (length ins) (fun j => nth j ins 0 * root 1 R (Z.of_nat j * Z.of_nat ((length ins - l) mod length ins)))).
    { apply Csum_ext. intros j Hj. f_equal. change (-1)%Z with (- (1))%Z. rewrite root_sign. apply root_mod; [lia|].
      rewrite Nat2Z.inj_mod. rewrite L. rewrite (Z.mod_eq (Z.of_nat (length ins - l)) R) by lia. rewrite Nat2Z.inj_sub by lia. rewrite L.
      match goal with |- (?x mod R = 0)%Z => replace x with ((Z.of_nat j * ((R - Z.of_nat l) / R - 1)) * R)%Z by ring end. apply Z.mod_mul. lia. }
    rewrite G. rewrite <- V by (apply Nat.mod_upper_bound; lia).
    destruct l as [|l].
    + rewrite Nat.sub_0_r, Nat.mod_same by lia. reflexivity.
    + rewrite Nat.mod_small by lia. etransitivity; [exact (@rev_nth C outs 0 l ltac:(lia))|].
      replace (length ins - S l)%nat with (S (length outs - S l)) by lia. reflexivity.
Qed.
