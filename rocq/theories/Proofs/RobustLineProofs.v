(* Proofs about Model/RobustLine.v *)
From Coq Require Import ZArith List Lia Bool Permutation.
From Verif Require Import Model.RobustLine Spec.Sorting Proofs.BaseLemmas Proofs.QuickProofs.
Open Scope Z_scope.

Definition filled {T} (size : Z) (st : list T * Z) (L : list T) : Prop :=
  zlen (fst st) = size /\ snd st = zlen L /\ firstn (length L) (fst st) = L.

Lemma filled_le {T} size (st : list T * Z) L : filled size st L -> zlen L <= size.
Proof. intros (A & _ & F). apply (f_equal (@length T)) in F. rewrite firstn_length in F. unfold zlen in *. lia. Qed.
Lemma filled_nil {T} (a : list T) : filled (zlen a) (a, 0) [].
Proof. repeat split. Qed.
Lemma firstn_upd {T} (a : list T) k v : (k < length a)%nat -> firstn (S k) (upd a k v) = firstn k a ++ [v].
Proof. revert k; induction a as [|h t IH]; intros [|k] H; cbn in *; try lia; [reflexivity|]. f_equal. apply IH. lia. Qed.
Lemma filled_push {T} size (a : list T) c L v : filled size (a, c) L -> c < size ->
  set a c v = Ok (zupd a c v) /\ filled size (zupd a c v, c + 1) (L ++ [v]).
Proof.
  intros (A & B & F) H. cbn [fst snd] in *. assert (0 <= c) by (subst c; apply zlen_nonneg).
  split; [apply set_in_range; lia|]. unfold filled; cbn [fst snd]. rewrite zlen_zupd, zlen_app. split; [auto|]. split; [unfold zlen in *; cbn; lia|].
  rewrite app_length. cbn [length]. rewrite Nat.add_1_r. unfold zupd. replace (Z.to_nat c) with (length L) by (unfold zlen in B; lia).
  rewrite firstn_upd by (unfold zlen in *; lia). now rewrite F.
Qed.

Lemma for_loop_fail {S} (P : Z -> S -> Prop) body n i0 s k : P i0 s -> i0 <= k < i0 + Z.of_nat n ->
  (forall i s, i0 <= i < k -> P i s -> exists s', body i s = Ok s' /\ P (i + 1) s') ->
  (forall s, P k s -> body k s = Undefined) -> for_loop n i0 body s = Undefined.
Proof.
  revert i0 s. induction n as [|n IH]; intros i0 s H Hk Hb Hf; [lia|]. cbn [for_loop].
  destruct (Z.eq_dec i0 k) as [->|N]; [rewrite Hf; auto|].
  destruct (Hb i0 s) as (s' & E & P'); [lia|auto|]. rewrite E. cbn [bind]. apply IH; auto; [lia|]. intros; apply Hb; auto; lia.
Qed.
Lemma for_loop_assert {S} (P : Z -> S -> Prop) body n i0 s : P i0 s ->
  (forall i s, i0 <= i < i0 + Z.of_nat n -> P i s -> body i s = AssertFail \/ exists s', body i s = Ok s' /\ P (i + 1) s') ->
  for_loop n i0 body s = AssertFail \/ exists s', for_loop n i0 body s = Ok s' /\ P (i0 + Z.of_nat n) s'.
Proof.
  revert i0 s. induction n as [|n IH]; intros i0 s H Hb.
  - right. exists s. split; [reflexivity|]. now rewrite Z.add_0_r.
  - cbn [for_loop]. destruct (Hb i0 s) as [E|(s' & E & P')]; [lia|auto| |].
    + left. now rewrite E.
    + rewrite E. cbn [bind]. replace (i0 + Z.of_nat (Datatypes.S n)) with (i0 + 1 + Z.of_nat n) by lia. apply IH; auto. intros; apply Hb; auto; lia.
Qed.

Section Generic.
Context {T : Type} (M : num T).
Hypothesis irr : forall v, nltb M v v = false.
Definition eln (l : list T) (i : nat) : T := nth i l (n0 M).
Lemma get_eln l i : 0 <= i < zlen l -> get l i = Ok (eln l (Z.to_nat i)).
Proof. intros H. apply get_Some. rewrite znth_nonneg by lia. apply nth_error_nth'. unfold zlen in H. lia. Qed.

(** selection from a partly filled array *)
Lemma sel_filled size st L k : filled size st L -> 0 <= k < zlen L ->
  exists a' v, sel M (fst st) k (snd st) = Ok (a', v) /\ zlen a' = size /\ In v L /\
    (strict_weak_order (nltb M) -> kth_smallest (nltb M) (Z.to_nat k) L v).
Proof.
  intros F H. destruct F as (A & B & E). pose proof (filled_le _ _ _ (conj A (conj B E))) as Le.
  destruct (quick_select_ok (nltb M) (fun u v => nltb M v u) irr irr (fst st) k (snd st)) as (a' & v & Q & Hv & P & F' & K); [lia|lia|].
  exists a', v. split; [exact Q|]. rewrite B in *. unfold zlen in *. rewrite !Nat2Z.id in *. rewrite E in *. split.
  - apply Permutation_length in P. apply (f_equal (@length T)) in F'. rewrite !skipn_length in F'. rewrite !firstn_length in P. lia.
  - split; [|intros W; destruct (K W) as (K1 & _); [intros u w; reflexivity|exact K1]].
    apply Permutation_in with (firstn (length L) a'); [now symmetry|].
    rewrite znth_nonneg in Hv by lia. rewrite <- (nth_error_firstn a' (length L)) in Hv by lia. eapply nth_error_In; eauto.
Qed.

Variables (x y : list T).
Definition pt (f : T -> T -> T -> T -> T) (i j : nat) : list T :=
  if neqb M (eln x j) (eln x i) then [] else [f (eln x i) (eln y i) (eln x j) (eln y j)].
Definition colL f (n i : nat) : list T := flat_map (pt f i) (seq 0 n).

Lemma colL_S f n i : colL f (S n) i = colL f n i ++ pt f i n.
Proof. unfold colL. rewrite seq_S, flat_map_app. cbn. now rewrite app_nil_r. Qed.
Lemma colL_mono f m n i : (m <= n)%nat -> (length (colL f m i) <= length (colL f n i))%nat.
Proof. intros H. induction H; [lia|]. rewrite colL_S, app_length. lia. Qed.
Lemma colL_len f n i : (length (colL f n i) <= n)%nat.
Proof. induction n as [|n IH]; [cbn; lia|]. rewrite colL_S, app_length. unfold pt. destruct (neqb M (eln x n) (eln x i)); cbn [length]; lia. Qed.
Lemma colL_len_refl f n i : (i < n)%nat -> neqb M (eln x i) (eln x i) = true -> (length (colL f n i) <= n - 1)%nat.
Proof.
  intros H E. induction n as [|n IH]; [lia|]. rewrite colL_S, app_length. destruct (Nat.eq_dec i n) as [->|].
  - pose proof (colL_len f n n). unfold pt. rewrite E. cbn [length]. lia.
  - assert (length (colL f n i) <= n - 1)%nat by (apply IH; lia). unfold pt. destruct (neqb M (eln x n) (eln x i)); cbn [length]; lia.
Qed.
Lemma colL_full f n i : (forall j, (j < n)%nat -> neqb M (eln x j) (eln x i) = false) -> length (colL f n i) = n.
Proof. induction n as [|n IH]; intros H; [reflexivity|]. rewrite colL_S, app_length, IH by auto. unfold pt. rewrite H by auto. cbn. lia. Qed.
Lemma colL_nonempty f n i j : (j < n)%nat -> neqb M (eln x j) (eln x i) = false -> (1 <= length (colL f n i))%nat.
Proof. intros H E. apply Nat.le_trans with (length (colL f (S j) i)); [|apply colL_mono; lia]. rewrite colL_S, app_length. unfold pt. rewrite E. cbn [length]. lia. Qed.

Section Rows.
Variable n : nat.
Hypotheses (Hx : (n <= length x)%nat) (Hy : (n <= length y)%nat).

Definition rm_body (f : T -> T -> T -> T -> T) (i j : Z) (st : list T * Z) : outcome (list T * Z) :=
  let '(inner, count) := st in
    xj <- get x j ;; xi <- get x i ;;
    if negb (neqb M xj xi) then
      yj <- get y j ;; yi <- get y i ;;
      inner <- set inner count (f xi yi xj yj) ;; Ok (inner, count + 1)
    else Ok (inner, count).
Lemma rm_body_step f i j size st : 0 <= i < Z.of_nat n -> 0 <= j < Z.of_nat n -> filled size st (colL f (Z.to_nat j) (Z.to_nat i)) ->
  zlen (colL f (S (Z.to_nat j)) (Z.to_nat i)) <= size ->
  exists st', rm_body f i j st = Ok st' /\ filled size st' (colL f (Z.to_nat (j + 1)) (Z.to_nat i)).
Proof.
  intros Hi Hj F Hs. replace (Z.to_nat (j + 1)) with (S (Z.to_nat j)) by lia. destruct st as (a, c). unfold rm_body.
  rewrite !get_eln by (unfold zlen; lia). cbn [bind]. rewrite colL_S in *. unfold pt in *.
  destruct neqb; cbn [negb].
  - exists (a, c). rewrite app_nil_r. auto.
  - rewrite zlen_app in Hs. cbn in Hs. destruct (filled_push size a c _ (f (eln x (Z.to_nat i)) (eln y (Z.to_nat i)) (eln x (Z.to_nat j)) (eln y (Z.to_nat j))) F) as (E & F').
    { destruct F as (_ & B & _). cbn in B. unfold zlen in *. cbn in Hs. lia. }
    rewrite E. cbn [bind]. eauto.
Qed.

Lemma rm_col_ok f i inner : 0 <= i < Z.of_nat n -> zlen (colL f n (Z.to_nat i)) <= zlen inner ->
  exists st, rm_col M f x y (Z.of_nat n) i inner = Ok st /\ filled (zlen inner) st (colL f n (Z.to_nat i)).
Proof.
  intros Hi H. unfold rm_col. rewrite Nat2Z.id.
  destruct (for_loop_inv (fun j st => filled (zlen inner) st (colL f (Z.to_nat j) (Z.to_nat i))) (rm_body f i) n 0 (inner, 0)) as (st & E & F).
  - apply filled_nil.
  - intros j st Hj F. apply rm_body_step; auto; try lia. pose proof (colL_mono f (S (Z.to_nat j)) n (Z.to_nat i)). unfold zlen in *. lia.
  - exists st. rewrite Z.add_0_l, Nat2Z.id in F. split; auto.
Qed.
Lemma rm_col_overrun f i inner : 0 <= i < Z.of_nat n -> (forall j, (j < n)%nat -> neqb M (eln x j) (eln x (Z.to_nat i)) = false) -> zlen inner = Z.of_nat n - 1 ->
  rm_col M f x y (Z.of_nat n) i inner = Undefined.
Proof.
  intros Hi N L. unfold rm_col. rewrite Nat2Z.id.
  apply (for_loop_fail (fun j st => filled (zlen inner) st (colL f (Z.to_nat j) (Z.to_nat i))) (rm_body f i) n 0 (inner, 0) (Z.of_nat n - 1)).
  - apply filled_nil.
  - lia.
  - intros j st Hj F. apply rm_body_step; auto; try lia. unfold zlen at 1. rewrite colL_full by (intros; apply N; lia). lia.
  - intros (a, c) (A & B & _). cbn [fst snd] in *. unfold zlen at 1 in B. rewrite colL_full in B by (intros; apply N; lia).
    unfold rm_body. rewrite !get_eln by (unfold zlen; lia). cbn [bind]. rewrite N by lia. cbn [negb].
    unfold set. rewrite (proj2 (Z.ltb_ge c (zlen a))) by lia. rewrite andb_false_r. reflexivity.
Qed.

(** one outer row *)
Definition row_body (f : T -> T -> T -> T -> T) (i : Z) (st : list T * list T) : outcome (list T * list T) :=
  let '(inner, outer) := st in
    '(inner, count) <- rm_col M f x y (Z.of_nat n) i inner ;;
    '(inner, v) <- sel M inner (count / 2) count ;;
    outer <- set outer i v ;; Ok (inner, outer).
Definition row_ok (f : T -> T -> T -> T -> T) (i : nat) (v : T) : Prop := In v (colL f n i) /\
  (strict_weak_order (nltb M) -> kth_smallest (nltb M) (length (colL f n i) / 2) (colL f n i) v).
Definition rowsP f (si so : Z) (i : Z) (st : list T * list T) : Prop :=
  zlen (fst st) = si /\ zlen (snd st) = so /\ (forall j, 0 <= j < i -> exists v, znth (snd st) j = Some v /\ row_ok f (Z.to_nat j) v).
Lemma row_step f si so i st : 0 <= i < Z.of_nat n -> Z.of_nat n <= so -> zlen (colL f n (Z.to_nat i)) <= si ->
  (1 <= length (colL f n (Z.to_nat i)))%nat -> rowsP f si so i st ->
  exists st', row_body f i st = Ok st' /\ rowsP f si so (i + 1) st'.
Proof.
  intros Hi Ho Hs Hl (A & B & R). destruct st as (inner, outer). cbn [fst snd] in *. unfold row_body.
  destruct (rm_col_ok f i inner Hi ltac:(lia)) as ((inner1, c) & E & F). rewrite E. cbn [bind].
  destruct (sel_filled _ _ _ (zlen (colL f n (Z.to_nat i)) / 2) F) as (a' & v & S & La & Iv & K).
  { unfold zlen. split; [apply Z.div_pos; lia|apply Z.div_lt; lia]. }
  destruct F as (_ & B' & _). cbn [fst snd] in *. rewrite <- B' in S. rewrite S. cbn [bind]. rewrite set_in_range by lia. cbn [bind].
  exists (a', zupd outer i v). split; [reflexivity|]. split; [cbn [fst]; lia|]. split; [cbn [snd]; now rewrite zlen_zupd|].
  intros j Hj. cbn [snd]. rewrite znth_zupd by lia. destruct (Z.eqb_spec j i) as [->|]; [|apply R; lia].
  exists v. split; [reflexivity|]. split; [exact Iv|]. intros W. specialize (K W). revert K. unfold zlen. rewrite Z2Nat.inj_div, Nat2Z.id by lia. auto.
Qed.
Lemma row_step_assert f si so i st : 0 <= i < Z.of_nat n -> Z.of_nat n <= so -> zlen (colL f n (Z.to_nat i)) <= si -> rowsP f si so i st ->
  row_body f i st = AssertFail \/ exists st', row_body f i st = Ok st' /\ rowsP f si so (i + 1) st'.
Proof.
  intros Hi Ho Hs R. destruct (length (colL f n (Z.to_nat i))) eqn:L; [left|right; apply row_step; auto; lia].
  destruct R as (A & B & R). destruct st as (inner, outer). unfold row_body. cbn [fst snd] in *.
  destruct (rm_col_ok f i inner Hi ltac:(lia)) as ((inner1, c) & E & F). rewrite E. cbn [bind].
  destruct F as (_ & B' & _). cbn in B'. unfold zlen in B'. rewrite L in B'. subst c. unfold sel. rewrite quick_select_asserts by auto. reflexivity.
Qed.
Lemma rows_assert f inner outer : Z.of_nat n <= zlen outer -> (forall i, (i < n)%nat -> zlen (colL f n i) <= zlen inner) ->
  rm_rows M f x y (Z.of_nat n) inner outer = AssertFail \/
  exists st, rm_rows M f x y (Z.of_nat n) inner outer = Ok st /\ rowsP f (zlen inner) (zlen outer) (Z.of_nat n) st.
Proof.
  intros Ho H. unfold rm_rows. rewrite Nat2Z.id.
  apply (for_loop_assert (rowsP f (zlen inner) (zlen outer)) (row_body f) n 0 (inner, outer)).
  - split; [reflexivity|]. split; [reflexivity|]. intros; lia.
  - intros i s Hi R. apply row_step_assert; auto; try lia. apply H. lia.
Qed.
Lemma rows_ok f inner outer : Z.of_nat n <= zlen outer -> (forall i, (i < n)%nat -> zlen (colL f n i) <= zlen inner) ->
  (forall i, (i < n)%nat -> (1 <= length (colL f n i))%nat) ->
  exists st, rm_rows M f x y (Z.of_nat n) inner outer = Ok st /\ rowsP f (zlen inner) (zlen outer) (Z.of_nat n) st.
Proof.
  intros Ho H H1. unfold rm_rows. rewrite Nat2Z.id.
  destruct (for_loop_inv (rowsP f (zlen inner) (zlen outer)) (row_body f) n 0 (inner, outer)) as (st & E & R).
  - split; [reflexivity|]. split; [reflexivity|]. intros; lia.
  - intros i s Hi R. apply row_step; auto; try lia; [apply H|apply H1]; lia.
  - exists st. split; auto.
Qed.
(** what the second selection sees *)
Lemma rows_list f si so st : rowsP f si so (Z.of_nat n) st -> Z.of_nat n <= so ->
  exists L, filled so (snd st, Z.of_nat n) L /\ length L = n /\ forall i, (i < n)%nat -> row_ok f i (eln L i).
Proof.
  intros (A & B & R) H. exists (firstn n (snd st)). assert (Le : (n <= length (snd st))%nat) by (unfold zlen in B; lia).
  assert (L : length (firstn n (snd st)) = n) by (rewrite firstn_length; lia). split.
  - split; [exact B|]. cbn [fst snd]. rewrite L. split; [unfold zlen; now rewrite L|reflexivity].
  - split; [exact L|]. intros i Hi. destruct (R (Z.of_nat i)) as (v & Ev & Rv); [lia|]. rewrite Nat2Z.id in Rv.
    rewrite znth_nth_error in Ev. rewrite <- (nth_error_firstn _ n) in Ev by lia. unfold eln. rewrite (nth_error_nth _ _ _ Ev). exact Rv.
Qed.

Lemma sel_rows f si so st : rowsP f si so (Z.of_nat n) st -> Z.of_nat n <= so -> (1 <= n)%nat ->
  exists a' v L, sel M (snd st) (Z.quot (Z.of_nat n) 2) (Z.of_nat n) = Ok (a', v) /\ zlen a' = so /\
    length L = n /\ (forall i, (i < n)%nat -> row_ok f i (eln L i)) /\ (strict_weak_order (nltb M) -> kth_smallest (nltb M) (n / 2) L v).
Proof.
  intros R Ho Hn. destruct (rows_list _ _ _ _ R Ho) as (L & F & Ln & Ro). rewrite Z.quot_div_nonneg by lia.
  destruct (sel_filled _ _ _ (Z.of_nat n / 2) F) as (a' & v & S & La & _ & K).
  { unfold zlen. rewrite Ln. split; [apply Z.div_pos; lia|apply Z.div_lt; lia]. }
  exists a', v, L. cbn [fst snd] in S. rewrite Z2Nat.inj_div, Nat2Z.id in K by lia. repeat (split; auto).
Qed.
Lemma sel_assert a LEN : LEN <= 0 -> sel M a (Z.quot LEN 2) LEN = AssertFail.
Proof.
  intros H. unfold sel. apply quick_select_asserts. destruct (Z.eq_dec LEN 0); [auto|right].
  replace LEN with (- (- LEN)) by lia. rewrite Z.quot_opp_l by lia. rewrite Z.quot_div_nonneg by lia.
  assert (- LEN / 2 <= - LEN) by (apply Z.div_le_upper_bound; lia). lia.
Qed.

Definition row_spec f (L : list T) : Prop := length L = n /\ forall i, (i < n)%nat -> row_ok f i (eln L i).
Definition rm_spec (s' : rmed (T:=T)) : Prop :=
  exists Ls Li, row_spec (slope_of M) Ls /\ row_spec (icept_of M) Li /\
    (strict_weak_order (nltb M) -> kth_smallest (nltb M) (n / 2) Ls (ln_slope (rm_line s')) /\ kth_smallest (nltb M) (n / 2) Li (ln_yint (rm_line s'))) /\
    ln_xint (rm_line s') = ndiv M (nopp M (ln_yint (rm_line s'))) (ln_slope (rm_line s')).
Definition rm2_spec (s' : rmed (T:=T)) : Prop :=
  exists Ls, row_spec (slope_of M) Ls /\
    (strict_weak_order (nltb M) -> kth_smallest (nltb M) (n / 2) Ls (ln_slope (rm_line s')) /\
       kth_smallest (nltb M) (n / 2) (map (fun i => nsub M (eln y i) (nmul M (ln_slope (rm_line s')) (eln x i))) (seq 0 n)) (ln_yint (rm_line s'))) /\
    ln_xint (rm_line s') = ndiv M (nopp M (ln_yint (rm_line s'))) (ln_slope (rm_line s')).

Definition sized (SIZE : Z) (s : rmed (T:=T)) := zlen (rm_inner s) = SIZE - 1 /\ zlen (rm_outer s) = SIZE.

Lemma resid_loop outer slope : Z.of_nat n <= zlen outer ->
  exists outer', for_loop n 0 (fun i outer => yi <- get y i ;; xi <- get x i ;; set outer i (nsub M yi (nmul M slope xi))) outer = Ok outer' /\
    filled (zlen outer) (outer', Z.of_nat n) (map (fun i => nsub M (eln y i) (nmul M slope (eln x i))) (seq 0 n)).
Proof.
  intros H. set (g := fun i : nat => nsub M (eln y i) (nmul M slope (eln x i))).
  destruct (for_loop_inv (fun i o => filled (zlen outer) (o, i) (map g (seq 0 (Z.to_nat i))))
    (fun i outer => yi <- get y i ;; xi <- get x i ;; set outer i (nsub M yi (nmul M slope xi))) n 0 outer) as (o & E & F).
  - apply filled_nil.
  - intros i o Hi F. rewrite !get_eln by (unfold zlen; lia). cbn [bind].
    destruct (filled_push _ _ _ _ (nsub M (eln y (Z.to_nat i)) (nmul M slope (eln x (Z.to_nat i)))) F ltac:(lia)) as (E & F').
    eexists. split; [exact E|]. replace (Z.to_nat (i + 1)) with (S (Z.to_nat i)) by lia. rewrite seq_S, map_app. exact F'.
  - exists o. split; [exact E|]. rewrite Z.add_0_l, Nat2Z.id in F. exact F.
Qed.
Lemma sel_map o so g : filled so (o, Z.of_nat n) (map g (seq 0 n)) -> (1 <= n)%nat ->
  exists a' v, sel M o (Z.quot (Z.of_nat n) 2) (Z.of_nat n) = Ok (a', v) /\ zlen a' = so /\
    (strict_weak_order (nltb M) -> kth_smallest (nltb M) (n / 2) (map g (seq 0 n)) v).
Proof.
  intros F Hn. rewrite Z.quot_div_nonneg by lia.
  destruct (sel_filled _ _ _ (Z.of_nat n / 2) F) as (a' & v & S & La & _ & K).
  { unfold zlen. rewrite map_length, seq_length. split; [apply Z.div_pos; lia|apply Z.div_lt; lia]. }
  exists a', v. cbn [fst snd] in S. rewrite Z2Nat.inj_div, Nat2Z.id in K by lia. repeat (split; auto).
Qed.

Section Compute.
Variables (SIZE LEN : Z) (s : rmed (T:=T)).
Hypotheses (HS : sized SIZE s) (Hn : Z.of_nat n = Z.max 0 (Z.min LEN SIZE)) (HSIZE : 1 <= SIZE).
Hypothesis refl : forall i, (i < n)%nat -> neqb M (eln x i) (eln x i) = true.
Lemma col_fits f i : (i < n)%nat -> zlen (colL f n i) <= SIZE - 1.
Proof. intros Hi. pose proof (colL_len_refl f n i Hi (refl i Hi)). unfold zlen. lia. Qed.

Lemma len_eq : 1 <= LEN -> (if SIZE <? LEN then SIZE else LEN) = Z.of_nat n.
Proof. intros H. destruct (Z.ltb_spec SIZE LEN); lia. Qed.
Lemma compute_assert : LEN <= 0 -> rm_compute M SIZE s x y LEN = AssertFail /\ rm2_compute M SIZE s x y LEN = AssertFail.
Proof.
  intros H. unfold rm_compute, rm2_compute. rewrite (proj2 (Z.ltb_ge SIZE LEN)) by lia.
  assert (E : rm_rows M (slope_of M) x y LEN (rm_inner s) (rm_outer s) = Ok (rm_inner s, rm_outer s)).
  { unfold rm_rows. replace (Z.to_nat LEN) with O by lia. reflexivity. }
  rewrite E. cbn [bind]. rewrite sel_assert by auto. split; reflexivity.
Qed.

Lemma compute_ok : 1 <= LEN -> (forall i, (i < n)%nat -> exists j, (j < n)%nat /\ neqb M (eln x j) (eln x i) = false) ->
  (exists s', rm_compute M SIZE s x y LEN = Ok s' /\ sized SIZE s' /\ rm_spec s') /\
  (exists s', rm2_compute M SIZE s x y LEN = Ok s' /\ sized SIZE s' /\ rm2_spec s').
Proof.
  intros H D. unfold rm_compute, rm2_compute. rewrite len_eq by auto. destruct HS as (Si & So).
  assert (NE : forall f i, (i < n)%nat -> (1 <= length (colL f n i))%nat) by (intros f i Hi; destruct (D i Hi) as (j & Hj & E); eapply colL_nonempty; eauto).
  destruct (rows_ok (slope_of M) (rm_inner s) (rm_outer s)) as ((in1, out1) & E1 & R1); [lia|intros; rewrite Si; now apply col_fits|auto|].
  rewrite E1. cbn [bind]. destruct (sel_rows _ _ _ _ R1) as (out2 & slope & Ls & E2 & L2 & Ln & Ro & K2); [lia|lia|]. cbn [fst snd] in E2. rewrite E2. cbn [bind].
  destruct R1 as (Li1 & Lo1 & _). cbn [fst snd] in *. split.
  - destruct (rows_ok (icept_of M) in1 out2) as ((in3, out3) & E3 & R3); [lia|intros; rewrite Li1, Si; now apply col_fits|auto|].
    rewrite E3. cbn [bind]. destruct (sel_rows _ _ _ _ R3) as (out4 & yint & Li & E4 & L4 & Ln' & Ro' & K4); [lia|lia|]. cbn [fst snd] in E4. rewrite E4. cbn [bind].
    eexists. split; [reflexivity|]. split.
    { destruct R3 as (A3 & _). cbn [fst] in A3. split; cbn [rm_inner rm_outer]; lia. }
    exists Ls, Li. cbn [rm_line ln_slope ln_yint ln_xint]. repeat (split; auto).
  - rewrite Nat2Z.id. destruct (resid_loop out2 slope) as (out3 & E3 & F3); [lia|]. rewrite E3. cbn [bind].
    destruct (sel_map _ _ _ F3 ltac:(lia)) as (out4 & yint & E4 & L4 & K4). rewrite E4. cbn [bind].
    eexists. split; [reflexivity|]. split; [split; cbn [rm_inner rm_outer]; lia|].
    exists Ls. cbn [rm_line ln_slope ln_yint ln_xint]. repeat (split; auto).
Qed.

Lemma compute_safe : (rm_compute M SIZE s x y LEN = AssertFail \/ exists s', rm_compute M SIZE s x y LEN = Ok s' /\ sized SIZE s') /\
  (rm2_compute M SIZE s x y LEN = AssertFail \/ exists s', rm2_compute M SIZE s x y LEN = Ok s' /\ sized SIZE s').
Proof.
  destruct (Z_le_gt_dec LEN 0) as [H|H]; [destruct (compute_assert H); auto|].
  unfold rm_compute, rm2_compute. rewrite len_eq by lia. destruct HS as (Si & So).
  destruct (rows_assert (slope_of M) (rm_inner s) (rm_outer s)) as [->|((in1, out1) & E1 & R1)]; [lia|intros; rewrite Si; now apply col_fits|split; left; reflexivity|].
  rewrite E1. cbn [bind]. destruct (sel_rows _ _ _ _ R1) as (out2 & slope & Ls & E2 & L2 & Ln & Ro & K2); [lia|lia|]. cbn [fst snd] in E2. rewrite E2. cbn [bind].
  destruct R1 as (Li1 & Lo1 & _). cbn [fst snd] in *. split.
  - destruct (rows_assert (icept_of M) in1 out2) as [->|((in3, out3) & E3 & R3)]; [lia|intros; rewrite Li1, Si; now apply col_fits|left; reflexivity|].
    right. rewrite E3. cbn [bind]. destruct (sel_rows _ _ _ _ R3) as (out4 & yint & Li & E4 & L4 & Ln' & Ro' & K4); [lia|lia|]. cbn [fst snd] in E4. rewrite E4. cbn [bind].
    eexists. split; [reflexivity|]. destruct R3 as (A3 & _). cbn [fst] in A3. split; cbn [rm_inner rm_outer]; lia.
  - right. rewrite Nat2Z.id. destruct (resid_loop out2 slope) as (out3 & E3 & F3); [lia|]. rewrite E3. cbn [bind].
    destruct (sel_map _ _ _ F3 ltac:(lia)) as (out4 & yint & E4 & L4 & K4). rewrite E4. cbn [bind].
    eexists. split; [reflexivity|]. split; cbn [rm_inner rm_outer]; lia.
Qed.
End Compute.

(** an element unequal to everything including itself makes a full-size data set overrun inner_ *)
Lemma compute_overrun SIZE LEN s i : sized SIZE s -> Z.of_nat n = SIZE -> SIZE <= LEN -> (i < n)%nat ->
  (forall j, (j < n)%nat -> neqb M (eln x j) (eln x i) = false /\ neqb M (eln x i) (eln x j) = false) ->
  rm_compute M SIZE s x y LEN = Undefined /\ rm2_compute M SIZE s x y LEN = Undefined.
Proof.
  intros (Si & So) Hn HL Hi N.
  assert (X : rm_rows M (slope_of M) x y (Z.of_nat n) (rm_inner s) (rm_outer s) = Undefined).
  { (* the first row that is too long *)
    assert (Q : forall k, (k <= n)%nat -> (exists m, (m < k)%nat /\ (length (colL (slope_of M) n m) = n)) \/ (forall m, (m < k)%nat -> (length (colL (slope_of M) n m) < n)%nat)).
    { induction k as [|k IH]; intros Hk; [right; intros; lia|]. destruct IH as [(m & A & B)|A]; [lia|left; exists m; split; [lia|auto]|].
      pose proof (colL_len (slope_of M) n k). destruct (Nat.eq_dec (length (colL (slope_of M) n k)) n); [left; exists k; split; [lia|auto]|].
      right. intros m Hm. destruct (Nat.eq_dec m k) as [->|]; [lia|apply A; lia]. }
    assert (Fi : exists k, (k < n)%nat /\ length (colL (slope_of M) n k) = n /\ forall m, (m < k)%nat -> (length (colL (slope_of M) n m) < n)%nat).
    { assert (Ei : length (colL (slope_of M) n i) = n) by (apply colL_full; intros; apply N; auto).
      revert Ei. clear N. pattern i. revert Hi. pattern i. apply (well_founded_induction lt_wf). intros k IH Hk Ek.
      destruct (Q k ltac:(lia)) as [(m & A & B)|A]; [apply (IH m); auto; lia|]. exists k. auto. }
    destruct Fi as (k & Hk & Ek & Bk). unfold rm_rows. rewrite Nat2Z.id.
    apply (for_loop_fail (rowsP (slope_of M) (SIZE - 1) SIZE) (row_body (slope_of M)) n 0 (rm_inner s, rm_outer s) (Z.of_nat k)).
    - split; [exact Si|]. split; [exact So|]. intros; lia.
    - lia.
    - intros j st Hj R. apply row_step; auto; try lia.
      + unfold zlen. pose proof (Bk (Z.to_nat j)). lia.
      + apply colL_nonempty with i; auto. apply N. lia.
    - intros (inner, outer) (A & B & _). cbn [fst snd] in *. unfold row_body. rewrite rm_col_overrun; auto; try lia.
      intros j Hj. rewrite Nat2Z.id. destruct (neqb M (eln x j) (eln x k)) eqn:Ej; [|reflexivity]. exfalso.
      assert (length (colL (slope_of M) n k) <= n - 1)%nat; [|lia]. clear - Hj Ej.
      induction n as [|n' IH]; [lia|]. rewrite colL_S, app_length. destruct (Nat.eq_dec j n') as [->|].
      + pose proof (colL_len (slope_of M) n' k). unfold pt. rewrite Ej. cbn [length]. lia.
      + assert (length (colL (slope_of M) n' k) <= n' - 1)%nat by (apply IH; lia). unfold pt. destruct (neqb M (eln x n') (eln x k)); cbn [length]; lia. }
  unfold rm_compute, rm2_compute. replace (if SIZE <? LEN then SIZE else LEN) with (Z.of_nat n) by (destruct (Z.ltb_spec SIZE LEN); lia).
  rewrite X. split; reflexivity.
Qed.
End Rows.

(** Theil-Sen *)
Definition pairL (n : nat) : list T := flat_map (fun i => flat_map (pt (slope_of M) i) (seq (S i) (n - S i))) (seq 0 n).
Definition tfilled (size : Z) (st : list T * Z) (P : list T) : Prop := filled size st (firstn (Z.to_nat size) P).
Lemma tfilled_push size a c P v : 0 <= size -> tfilled size (a, c) P ->
  exists st, (if c <? size then (temp <- set a c v ;; Ok (temp, c + 1)) else Ok (a, c)) = Ok st /\ tfilled size st (P ++ [v]).
Proof.
  intros Hs F. unfold tfilled in *. pose proof F as (A & B & _). cbn [fst snd] in *. unfold zlen in B. rewrite firstn_length in B.
  rewrite firstn_app. destruct (Z.ltb_spec c size).
  - destruct (filled_push _ _ _ _ v F ltac:(lia)) as (E & F'). rewrite E. cbn [bind]. eexists. split; [reflexivity|].
    rewrite (firstn_all2 [v]) by (cbn [length]; lia). exact F'.
  - eexists. split; [reflexivity|]. replace (Z.to_nat size - length P)%nat with O by lia. rewrite app_nil_r. exact F.
Qed.

Section Ts.
Variables (n : nat) (size : Z).
Hypotheses (Hx : (n <= length x)%nat) (Hy : (n <= length y)%nat) (Hs : 0 <= size).
Lemma ts_slopes_ok temp : zlen temp = size -> exists st, ts_slopes M size x y (Z.of_nat n) temp = Ok st /\ tfilled size st (pairL n).
Proof.
  intros Ht. unfold ts_slopes. rewrite Nat2Z.id.
  set (upto := fun i => flat_map (fun i => flat_map (pt (slope_of M) i) (seq (S i) (n - S i))) (seq 0 i)).
  set (inner := fun i j '(temp, count) =>
      if count <? size then
        xj <- get x j ;; xi <- get x i ;;
        if negb (neqb M xj xi) then
          yj <- get y j ;; yi <- get y i ;;
          temp <- set temp count (slope_of M xi yi xj yj) ;; Ok (temp, count + 1)
        else Ok (temp, count)
      else Ok (temp, count)).
  destruct (for_loop_inv (fun i st => tfilled size st (upto (Z.to_nat i))) (fun i st => for_loop (Z.to_nat (Z.of_nat n - (i + 1))) (i + 1) (inner i) st) n 0 (temp, 0)) as (st & E & F).
  - unfold upto, tfilled. cbn [Z.to_nat seq flat_map]. rewrite firstn_nil, <- Ht. apply filled_nil.
  - intros i st Hi F.
    destruct (for_loop_inv (fun j st => tfilled size st (upto (Z.to_nat i) ++ flat_map (pt (slope_of M) (Z.to_nat i)) (seq (S (Z.to_nat i)) (Z.to_nat j - S (Z.to_nat i)))))
      (inner i) (Z.to_nat (Z.of_nat n - (i + 1))) (i + 1) st) as (st' & E & F').
    + replace (Z.to_nat (i + 1) - S (Z.to_nat i))%nat with O by lia. cbn [seq flat_map]. rewrite app_nil_r. exact F.
    + intros j (a, c) Hj Fj. replace (Z.to_nat (j + 1) - S (Z.to_nat i))%nat with (S (Z.to_nat j - S (Z.to_nat i))) by lia.
      rewrite seq_S, flat_map_app, app_assoc. replace (S (Z.to_nat i) + (Z.to_nat j - S (Z.to_nat i)))%nat with (Z.to_nat j) by lia.
      cbn [flat_map]. rewrite app_nil_r. unfold inner. rewrite !get_eln by (unfold zlen; lia). cbn [bind]. unfold pt at 2.
      destruct (neqb M (eln x (Z.to_nat j)) (eln x (Z.to_nat i))); cbn [negb].
      * exists (a, c). rewrite app_nil_r. split; [destruct (c <? size); reflexivity|exact Fj].
      * apply tfilled_push; auto.
    + exists st'. split; [exact E|]. replace (Z.to_nat (i + 1)) with (S (Z.to_nat i)) by lia. unfold upto at 1. rewrite seq_S, flat_map_app. cbn [flat_map Nat.add]. rewrite app_nil_r.
      replace (Z.to_nat (i + 1 + Z.of_nat (Z.to_nat (Z.of_nat n - (i + 1))))) with n in F' by lia. exact F'.
  - exists st. split; [exact E|]. rewrite Z.add_0_l, Nat2Z.id in F. exact F.
Qed.
Lemma ts_icepts_ok slope temp : zlen temp = size -> exists st, ts_icepts M size x y (Z.of_nat n) slope temp = Ok st /\
  tfilled size st (map (fun i => nsub M (eln y i) (nmul M slope (eln x i))) (seq 0 n)).
Proof.
  intros Ht. unfold ts_icepts. rewrite Nat2Z.id. set (g := fun i : nat => nsub M (eln y i) (nmul M slope (eln x i))).
  destruct (for_loop_inv (fun i st => tfilled size st (map g (seq 0 (Z.to_nat i)))) (fun i '(temp, count) =>
    if count <? size then
      yi <- get y i ;; xi <- get x i ;;
      temp <- set temp count (nsub M yi (nmul M slope xi)) ;; Ok (temp, count + 1)
    else Ok (temp, count)) n 0 (temp, 0)) as (st & E & F).
  - unfold tfilled. cbn [Z.to_nat seq map]. rewrite firstn_nil, <- Ht. apply filled_nil.
  - intros i (a, c) Hi F. replace (Z.to_nat (i + 1)) with (S (Z.to_nat i)) by lia. rewrite seq_S, map_app. cbn [map Nat.add].
    rewrite !get_eln by (unfold zlen; lia). cbn [bind]. apply tfilled_push; auto.
  - exists st. split; [exact E|]. rewrite Z.add_0_l, Nat2Z.id in F. exact F.
Qed.
Lemma ts_sel st P : tfilled size st P -> 1 <= size -> (1 <= length P)%nat ->
  exists a' v, sel M (fst st) (snd st / 2) (snd st) = Ok (a', v) /\ zlen a' = size /\ In v P /\
    (strict_weak_order (nltb M) -> zlen P <= size -> kth_smallest (nltb M) (length P / 2) P v).
Proof.
  intros F H1 HP. pose proof F as (A & B & _).
  assert (Z1 : 1 <= zlen (firstn (Z.to_nat size) P)) by (unfold zlen; rewrite firstn_length; lia).
  destruct (sel_filled _ _ _ (snd st / 2) F) as (a' & v & S & La & Iv & K).
  { rewrite B. split; [apply Z.div_pos; lia|apply Z.div_lt; lia]. }
  exists a', v. split; [exact S|]. split; [exact La|]. split.
  - rewrite <- (firstn_skipn (Z.to_nat size) P). apply in_or_app. auto.
  - intros W L. specialize (K W). rewrite B in K. rewrite !(firstn_all2 P) in K by (unfold zlen in L; lia).
    unfold zlen in K. rewrite Z2Nat.inj_div, Nat2Z.id in K by lia. exact K.
Qed.
Definition ts_spec (s' : tsen (T:=T)) : Prop :=
  (strict_weak_order (nltb M) -> (zlen (pairL n) <= size -> kth_smallest (nltb M) (length (pairL n) / 2) (pairL n) (ln_slope (ts_line s'))) /\
    (Z.of_nat n <= size -> kth_smallest (nltb M) (n / 2) (map (fun i => nsub M (eln y i) (nmul M (ln_slope (ts_line s')) (eln x i))) (seq 0 n)) (ln_yint (ts_line s')))) /\
  In (ln_slope (ts_line s')) (pairL n) /\
  In (ln_yint (ts_line s')) (map (fun i => nsub M (eln y i) (nmul M (ln_slope (ts_line s')) (eln x i))) (seq 0 n)) /\
  ln_xint (ts_line s') = ndiv M (nopp M (ln_yint (ts_line s'))) (ln_slope (ts_line s')).
Lemma pairL_O : pairL 0 = []. Proof. reflexivity. Qed.
Lemma ts_compute_ok LEN_MAX s : size = ts_size LEN_MAX -> zlen (ts_temp s) = size -> 1 <= size -> (1 <= length (pairL n))%nat ->
  exists s', ts_compute M LEN_MAX s x y (Z.of_nat n) = Ok s' /\ zlen (ts_temp s') = size /\ ts_spec s'.
Proof.
  intros Es Ht H1 HP. unfold ts_compute. rewrite <- Es. destruct (ts_slopes_ok _ Ht) as ((t1, c1) & E1 & F1). rewrite E1. cbn [bind].
  destruct (ts_sel _ _ F1 H1 HP) as (t2 & slope & E2 & L2 & I2 & K2). cbn [fst snd] in E2. rewrite E2. cbn [bind].
  destruct (ts_icepts_ok slope t2 L2) as ((t3, c3) & E3 & F3). rewrite E3. cbn [bind].
  destruct (ts_sel _ _ F3 H1) as (t4 & yint & E4 & L4 & I4 & K4).
  { rewrite map_length, seq_length. destruct n; [cbn in HP; lia|lia]. }
  cbn [fst snd] in E4. rewrite E4. cbn [bind]. eexists. split; [reflexivity|]. split; [exact L4|].
  unfold ts_spec. cbn [ts_line ln_slope ln_yint ln_xint]. split; [|auto].
  intros W. split; [auto|]. intros L. specialize (K4 W). unfold zlen in K4. rewrite map_length, seq_length in K4. apply K4. exact L.
Qed.
Lemma ts_compute_assert LEN_MAX s : size = ts_size LEN_MAX -> zlen (ts_temp s) = size -> size = 0 \/ pairL n = [] ->
  ts_compute M LEN_MAX s x y (Z.of_nat n) = AssertFail.
Proof.
  intros Es Ht H. unfold ts_compute. rewrite <- Es. destruct (ts_slopes_ok _ Ht) as ((t1, c1) & E1 & F1). rewrite E1. cbn [bind].
  destruct F1 as (_ & B & _). cbn [snd] in B. assert (c1 = 0) as -> by (rewrite B; destruct H as [->| ->]; rewrite ?firstn_nil; reflexivity).
  unfold sel. rewrite quick_select_asserts by auto. reflexivity.
Qed.
End Ts.
End Generic.
