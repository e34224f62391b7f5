(* The test programs pass *)
From Coq Require Import Permutation.
From Verif Require Import Proofs.BaseLemmas Proofs.MovExtProofs Proofs.ContainerProofs Proofs.WindowInst Proofs.QuickProofs Spec.Sorting Spec.Window Spec.Reduce Model.TestPrograms.
From Verif Require Import Props.PQuick Props.PWindow.
Open Scope Z_scope.

Lemma for_inv {S} (P : S -> Prop) (body : Z -> S -> outcome S) :
  (forall i s, P s -> exists s', body i s = Ok s' /\ P s') ->
  forall n i s, P s -> exists s', for_loop n i body s = Ok s' /\ P s'.
Proof.
  intros H n. induction n as [|n IH]; intros i s Hs; cbn [for_loop]; [eauto|].
  destruct (H i s Hs) as (s' & -> & H'). cbn [bind]. auto.
Qed.

Lemma dis_range rs lo hi p : lo <= hi -> lo <= dis rs lo hi p <= hi.
Proof. intros H. unfold dis. pose proof (Z.mod_pos_bound (rs p) (hi - lo + 1) ltac:(lia)). lia. Qed.

(** * deque_test *)
Section Dq.
Context (rs : nat -> Z) (SIZE : Z) (HS : 0 < SIZE).
Notation DR := (@deque_R Z SIZE).
Lemma dR_size d l : DR d l -> deque_size d = zlen l.
Proof. intros (_ & _ & H & _). exact H. Qed.
Lemma dR_le d l : DR d l -> zlen l <= SIZE.
Proof. intros (_ & _ & _ & H & _). exact H. Qed.
Lemma dR_empty d l : DR d l -> deque_empty d = std_empty l.
Proof. intros H. unfold deque_empty. pose proof (dR_size _ _ H) as E. unfold deque_size in E. rewrite E. destruct l; auto. Qed.
Lemma dR_front d x l : DR d (x :: l) -> deque_front d = Ok x.
Proof.
  intros H. pose proof (deque_step_R SIZE HS d _ DFront H) as G. cbn [deque_spec deque_step] in G. destruct G as (d' & G & _).
  destruct (deque_front d); cbn [bind] in G; congruence.
Qed.
Lemma dR_back d x l : DR d (x :: l) -> deque_back d = Ok (last (x :: l) x).
Proof.
  intros H. pose proof (deque_step_R SIZE HS d _ DBack H) as G. cbn [deque_spec deque_step] in G. destruct G as (d' & G & _).
  destruct (deque_back d); cbn [bind] in G; congruence.
Qed.
Lemma dR_popf d x l : DR d (x :: l) -> exists d', deque_pop_front SIZE d = Ok d' /\ DR d' l.
Proof.
  intros H. pose proof (deque_step_R SIZE HS d _ DPopFront H) as G. cbn [deque_spec deque_step] in G. destruct G as (d' & G & R).
  destruct (deque_pop_front SIZE d); cbn [bind] in G; try congruence. eexists. split; [reflexivity|]. congruence.
Qed.
Lemma dR_popb d x l : DR d (x :: l) -> exists d', deque_pop_back SIZE d = Ok d' /\ DR d' (removelast (x :: l)).
Proof.
  intros H. pose proof (deque_step_R SIZE HS d _ DPopBack H) as G. cbn [deque_spec deque_step] in G. destruct G as (d' & G & R).
  destruct (deque_pop_back SIZE d); cbn [bind] in G; try congruence. eexists. split; [reflexivity|]. congruence.
Qed.
Lemma dR_pushf d x l : zlen l < SIZE -> DR d l -> exists d', deque_push_front SIZE d x = Ok d' /\ DR d' (x :: l).
Proof.
  intros L H. pose proof (deque_step_R SIZE HS d _ (DPushFront x) H) as G. cbn [deque_spec deque_step] in G.
  destruct (Z.ltb_spec (zlen l) SIZE); [|lia]. destruct G as (d' & G & R).
  destruct (deque_push_front SIZE d x); cbn [bind] in G; try congruence. eexists. split; [reflexivity|]. congruence.
Qed.
Lemma dR_pushb d x l : zlen l < SIZE -> DR d l -> exists d', deque_push_back SIZE d x = Ok d' /\ DR d' (l ++ [x]).
Proof.
  intros L H. pose proof (deque_step_R SIZE HS d _ (DPushBack x) H) as G. cbn [deque_spec deque_step] in G.
  destruct (Z.ltb_spec (zlen l) SIZE); [|lia]. destruct G as (d' & G & R).
  destruct (deque_push_back SIZE d x); cbn [bind] in G; try congruence. eexists. split; [reflexivity|]. congruence.
Qed.

Definition Dinv (s : list Z * deque Z * nat) : Prop := let '(ref, dut, _) := s in DR dut ref.

Lemma popf_loop n : forall i ref dut p, DR dut ref -> Z.of_nat n <= zlen ref ->
  exists s', for_loop n i (fun _ s => let '(ref, dut, p) := s in
      ref <- std_pop_front ref ;; dut <- deque_pop_front SIZE dut ;; Ok (ref, dut, p)) (ref, dut, p) = Ok s' /\ Dinv s'.
Proof.
  induction n as [|n IH]; intros i ref dut p H L; cbn [for_loop]; [eexists; split; [reflexivity|exact H]|].
  destruct ref as [|x l]; [unfold zlen in L; cbn in L; lia|]. cbn [std_pop_front bind].
  destruct (dR_popf _ _ _ H) as (d' & -> & H'). cbn [bind]. apply IH; auto. rewrite zlen_cons in L. lia.
Qed.
Lemma popb_loop n : forall i ref dut p, DR dut ref -> Z.of_nat n <= zlen ref ->
  exists s', for_loop n i (fun _ s => let '(ref, dut, p) := s in
      ref <- std_pop_back ref ;; dut <- deque_pop_back SIZE dut ;; Ok (ref, dut, p)) (ref, dut, p) = Ok s' /\ Dinv s'.
Proof.
  induction n as [|n IH]; intros i ref dut p H L; cbn [for_loop]; [eexists; split; [reflexivity|exact H]|].
  destruct ref as [|x l]; [unfold zlen in L; cbn in L; lia|]. cbn [std_pop_back bind].
  destruct (dR_popb _ _ _ H) as (d' & -> & H'). cbn [bind]. apply IH; auto.
  destruct (removelast_spec (x :: l)) as [E _]; [discriminate|]. rewrite E. lia.
Qed.
Lemma pushf_loop n : forall i ref dut p, DR dut ref -> Z.of_nat n <= SIZE - zlen ref ->
  exists s', for_loop n i (fun _ s => let '(ref, dut, p) := s in
      let val := rs p in dut <- deque_push_front SIZE dut val ;; Ok (val :: ref, dut, S p)) (ref, dut, p) = Ok s' /\ Dinv s'.
Proof.
  induction n as [|n IH]; intros i ref dut p H L; cbn [for_loop]; [eexists; split; [reflexivity|exact H]|].
  cbv zeta. destruct (dR_pushf dut (rs p) ref ltac:(lia) H) as (d' & -> & H'). cbn [bind]. apply IH; auto. rewrite zlen_cons. lia.
Qed.
Lemma pushb_loop n : forall i ref dut p, DR dut ref -> Z.of_nat n <= SIZE - zlen ref ->
  exists s', for_loop n i (fun _ s => let '(ref, dut, p) := s in
      let val := rs p in dut <- deque_push_back SIZE dut val ;; Ok (ref ++ [val], dut, S p)) (ref, dut, p) = Ok s' /\ Dinv s'.
Proof.
  induction n as [|n IH]; intros i ref dut p H L; cbn [for_loop]; [eexists; split; [reflexivity|exact H]|].
  cbv zeta. destruct (dR_pushb dut (rs p) ref ltac:(lia) H) as (d' & -> & H'). cbn [bind]. apply IH; auto. rewrite zlen_app, zlen_single. lia.
Qed.

Lemma deque_round_ok s : Dinv s -> exists s', deque_round rs SIZE s = Ok s' /\ Dinv s'.
Proof.
  destruct s as [[ref dut] p]. intros H. change (DR dut ref) in H. unfold deque_round. rewrite (dR_size _ _ H), Z.eqb_refl. cbn [cassert bind].
  rewrite (dR_empty _ _ H), eqb_reflx. cbn [cassert bind]. pose proof (zlen_nonneg ref). pose proof (dR_le _ _ H).
  set (op := dis rs 0 5 p). 
  destruct (op =? 0). { destruct ref as [|x l]; cbn [std_empty negb std_front bind]; [eexists; split; [reflexivity|exact H]|].
    rewrite (dR_front _ _ _ H). cbn [bind]. rewrite Z.eqb_refl. eexists; split; [reflexivity|exact H]. }
  destruct (op =? 1). { destruct ref as [|x l]; cbn [std_empty negb std_back bind]; [eexists; split; [reflexivity|exact H]|].
    rewrite (dR_back _ _ _ H). cbn [bind]. rewrite Z.eqb_refl. eexists; split; [reflexivity|exact H]. }
  destruct (op =? 2). { apply popf_loop; auto. pose proof (dis_range rs 0 (zlen ref) (S p)). lia. }
  destruct (op =? 3). { apply popb_loop; auto. pose proof (dis_range rs 0 (zlen ref) (S p)). lia. }
  destruct (op =? 4). { apply pushf_loop; auto. unfold deque_max_size. pose proof (dis_range rs 0 (SIZE - zlen ref) (S p)). lia. }
  destruct (op =? 5). { apply pushb_loop; auto. unfold deque_max_size. pose proof (dis_range rs 0 (SIZE - zlen ref) (S p)). lia. }
  eexists; split; [reflexivity|exact H].
Qed.
Lemma deque_test_ok rounds : deque_test rs SIZE rounds = Ok tt.
Proof.
  unfold deque_test. destruct (for_inv Dinv (fun _ => deque_round rs SIZE)) with (n := rounds) (i := 0) (s := (@nil Z, @deque_new Z SIZE, O)) as (s' & -> & _); auto.
  - intros _ s. apply deque_round_ok.
  - exact (deque_new_R SIZE HS).
Qed.
End Dq.

(** * quick sort and quick select tests *)
Lemma set_ok {A} (a : list A) i v : 0 <= i < zlen a -> set a i v = Ok (zupd a i v).
Proof. intros. apply set_in_range; auto. Qed.

Lemma fill_ok rs lo hi size a p : size <= zlen a -> exists a' p', fill rs lo hi size a p = Ok (a', p') /\ zlen a' = zlen a.
Proof.
  intros H. unfold fill.
  assert (G : forall n i a p, 0 <= i -> i + Z.of_nat n <= zlen a -> exists a' p', for_loop n i (fun i s => let '(a, p) := s in a <- set a i (dis rs lo hi p) ;; Ok (a, S p)) (a, p) = Ok (a', p') /\ zlen a' = zlen a).
  { induction n as [|n IH]; intros i b q Hi Hn; cbn [for_loop]; [eauto|]. rewrite set_ok by lia. cbn [bind].
    destruct (IH (i + 1) (zupd b i (dis rs lo hi q)) (S q)) as (a' & p' & E & L); [lia|rewrite zlen_zupd; lia|]. rewrite zlen_zupd in L. eauto. }
  destruct (Z.le_gt_cases size 0). { replace (Z.to_nat size) with O by lia. cbn. eauto. }
  apply G; lia.
Qed.
Lemma checked_ok lo hi check : (forall i, lo <= i < hi -> check i = Ok true) -> all_checked lo hi check = Ok tt.
Proof.
  intros H. unfold all_checked.
  assert (G : forall n i, lo <= i -> i + Z.of_nat n <= hi -> for_loop n i (fun i _ => b <- check i ;; cassert b) tt = Ok tt).
  { induction n as [|n IH]; intros i H1 H2; cbn [for_loop]; auto. rewrite H by lia. cbn [bind cassert]. apply IH; lia. }
  destruct (Z.le_gt_cases hi lo). { replace (Z.to_nat (hi - lo)) with O by lia. auto. } apply G; lia.
Qed.

Lemma sort_test_ok rs MAX_N a0 rounds : 0 <= MAX_N -> MAX_N <= zlen a0 -> sort_test rs MAX_N a0 rounds = Ok tt.
Proof.
  intros H0 HL. unfold sort_test.
  match goal with |- context [for_loop _ _ ?b _] => destruct (for_inv (fun s : list Z * nat => MAX_N <= zlen (fst s)) b) with (n := rounds) (i := 0) (s := (a0, O)) as (s' & -> & _); auto end.
  intros _ [a p] L. cbn [fst] in L. cbv zeta. pose proof (dis_range rs 0 MAX_N p H0) as R. set (size := dis rs 0 MAX_N p) in *.
  destruct (fill_ok rs 0 MAX_N size a (S p)) as (a1 & p1 & -> & L1); [lia|]. cbn [bind].
  destruct (quick_sort_ok Z.ltb Z.gtb Z.ltb_irrefl ltac:(intros; rewrite Z.gtb_ltb; apply Z.ltb_irrefl) a1 size) as (a2 & -> & P & K & A); [lia|]. cbn [bind].
  specialize (A Zltb_swo ltac:(intros x y; rewrite Z.gtb_ltb; auto)).
  assert (L2 : zlen a2 = zlen a1).
  { rewrite <- (firstn_skipn (Z.to_nat size) a2), <- (firstn_skipn (Z.to_nat size) a1), !zlen_app, K. unfold zlen. rewrite (Permutation_length P). auto. }
  rewrite checked_ok; [cbn [bind]; eexists; split; [reflexivity|cbn [fst]; lia]|].
  intros i Hi. destruct (get_in_range a2 (i - 1)) as (x & Ex & ->); [lia|]. destruct (get_in_range a2 i) as (y & Ey & ->); [lia|]. cbn [bind]. f_equal.
  apply Z.leb_le. rewrite znth_nonneg in Ex, Ey by lia. apply Z.ltb_ge. apply (A (Z.to_nat (i - 1)) (Z.to_nat i)); [lia|rewrite nth_error_firstn by lia; auto..].
Qed.
Lemma select_test_ok rs MAX_N a0 rounds : 1 <= MAX_N -> MAX_N <= zlen a0 -> select_test rs MAX_N a0 rounds = Ok tt.
Proof.
  intros H0 HL. unfold select_test.
  match goal with |- context [for_loop _ _ ?b _] => destruct (for_inv (fun s : list Z * nat => MAX_N <= zlen (fst s)) b) with (n := rounds) (i := 0) (s := (a0, O)) as (s' & -> & _); auto end.
  intros _ [a p] L. cbn [fst] in L. cbv zeta. pose proof (dis_range rs 1 MAX_N p H0) as R. set (size := dis rs 1 MAX_N p) in *.
  destruct (fill_ok rs 1 MAX_N size a (S p)) as (a1 & p1 & -> & L1); [lia|]. cbn [bind].
  pose proof (Z.mod_pos_bound (dis rs 1 MAX_N p1) size ltac:(lia)) as Hk. set (k := dis rs 1 MAX_N p1 mod size) in *.
  destruct (quick_select_ok Z.ltb Z.gtb Z.ltb_irrefl ltac:(intros; rewrite Z.gtb_ltb; apply Z.ltb_irrefl) a1 k size) as (a2 & v & -> & V & P & K & A); [lia|lia|]. cbn [bind].
  destruct (A Zltb_swo ltac:(intros x y; rewrite Z.gtb_ltb; auto)) as (_ & A1 & A2).
  assert (L2 : zlen a2 = zlen a1).
  { rewrite <- (firstn_skipn (Z.to_nat size) a2), <- (firstn_skipn (Z.to_nat size) a1), !zlen_app, K. unfold zlen. rewrite (Permutation_length P). auto. }
  rewrite (get_Some _ _ _ V). cbn [bind]. rewrite Z.eqb_refl. cbn [cassert bind].
  rewrite checked_ok; cbn [bind]. 2:{ intros i Hi. destruct (get_in_range a2 i) as (x & Ex & ->); [lia|]. cbn [bind]. f_equal. apply Z.leb_le, Z.ltb_ge. eauto. }
  rewrite checked_ok; cbn [bind]. 2:{ intros i Hi. destruct (get_in_range a2 i) as (x & Ex & ->); [lia|]. cbn [bind]. f_equal. apply Z.leb_le, Z.ltb_ge. apply (A2 i x); auto; lia. }
  eexists; split; [reflexivity|cbn [fst]; lia].
Qed.

(** * movext_test *)
Lemma window_lastn {A} n (pad : A) xs : (0 < n)%nat -> (forall y, In y (window n pad xs) -> y = pad \/ In y (lastn n xs)) /\ (forall y, In y (lastn n xs) -> In y (window n pad xs)).
Proof.
  intros Hn. unfold window, lastn. rewrite skipn_app, repeat_length. destruct (Nat.le_gt_cases (length xs) n) as [L|L].
  - replace (length xs - n)%nat with O by lia. split; intros y Hy.
    + apply in_app_or in Hy. destruct Hy as [Hy|Hy]; auto. left. apply (repeat_spec n pad). rewrite <- (firstn_skipn (length xs) (repeat pad n)). apply in_or_app. auto.
    + apply in_or_app. auto.
  - rewrite skipn_all2 by (rewrite repeat_length; lia). cbn [app]. split; auto.
Qed.
Lemma reduce_min d l x : In x l -> (forall y, In y l -> x <= y) -> reduce Z.min d l = x.
Proof.
  destruct l as [|z l]; [intros []|]. unfold reduce. revert z. induction l as [|w l IH]; intros z Hx Hy; cbn [fold_left].
  - destruct Hx as [|[]]; auto.
  - apply IH.
    + pose proof (Hy z (or_introl eq_refl)). pose proof (Hy w (or_intror (or_introl eq_refl))). destruct Hx as [<-|[<-|Hx]]; [left; lia|left; lia|right; auto].
    + intros y [<-|Hin]; [|apply Hy; right; right; auto]. pose proof (Hy z (or_introl eq_refl)). pose proof (Hy w (or_intror (or_introl eq_refl))). lia.
Qed.
Lemma reduce_max d l x : In x l -> (forall y, In y l -> y <= x) -> reduce Z.max d l = x.
Proof.
  destruct l as [|z l]; [intros []|]. unfold reduce. revert z. induction l as [|w l IH]; intros z Hx Hy; cbn [fold_left].
  - destruct Hx as [|[]]; auto.
  - apply IH.
    + pose proof (Hy z (or_introl eq_refl)). pose proof (Hy w (or_intror (or_introl eq_refl))). destruct Hx as [<-|[<-|Hx]]; [left; lia|left; lia|right; auto].
    + intros y [<-|Hin]; [|apply Hy; right; right; auto]. pose proof (Hy z (or_introl eq_refl)). pose proof (Hy w (or_intror (or_introl eq_refl))). lia.
Qed.
Lemma prefixes_nth {A} (xs : list A) t : (t < length xs)%nat -> nth_error (prefixes xs) t = Some (firstn (S t) xs).
Proof.
  intros H. unfold prefixes. rewrite nth_error_map. rewrite (nth_error_nth' _ O) by (rewrite seq_length; auto). rewrite seq_nth by auto. auto.
Qed.
Lemma outs_eq (op : Z -> Z -> Z) d NUM (xs vs : list Z) :
  length vs = length xs -> (forall t v, nth_error vs t = Some v -> reduce op d (window NUM d (firstn (S t) xs)) = v) ->
  map (fun h => reduce op d (window NUM d h)) (prefixes xs) = vs.
Proof.
  intros L H. assert (L2 : length (map (fun h => reduce op d (window NUM d h)) (prefixes xs)) = length vs).
  { rewrite map_length. unfold prefixes. rewrite map_length, seq_length. auto. }
  apply (nth_ext _ _ 0 0); auto. intros t Ht. rewrite map_length in *. unfold prefixes in Ht. rewrite map_length, seq_length in Ht.
  destruct (nth_error vs t) as [v|] eqn:E; [|apply nth_error_None in E; lia].
  rewrite (nth_error_nth vs t 0 E). rewrite <- (H t v E). apply nth_error_nth. rewrite nth_error_map, prefixes_nth by auto. auto.
Qed.

Section Loop.
Context {S1 S2 S3 S4 : Type} (f : S1 -> Z -> outcome (S1 * Z)) (g : S2 -> Z -> outcome (S2 * Z)) (h : S3 -> Z -> outcome (S3 * Z)) (k : S4 -> Z -> outcome (S4 * Z)) (x : nat -> Z).
Lemma runs_agree n : forall i p s1 s2 s3 s4 a b, observe (run f s1 (map x (seq p n))) = Ok a -> observe (run g s2 (map x (seq p n))) = Ok a ->
  observe (run h s3 (map x (seq p n))) = Ok b -> observe (run k s4 (map x (seq p n))) = Ok b ->
  exists s, for_loop n i (fun _ s => let '(s1, s2, s3, s4, p) := s in
    let val := x p in
    '(s1, a) <- f s1 val ;; '(s2, b) <- g s2 val ;; _ <- cassert (a =? b) ;;
    '(s3, a) <- h s3 val ;; '(s4, b) <- k s4 val ;; _ <- cassert (a =? b) ;; Ok (s1, s2, s3, s4, S p)) (s1, s2, s3, s4, p) = Ok s.
Proof.
  induction n as [|n IH]; intros i p s1 s2 s3 s4 a b A B C D; cbn [for_loop]; [eauto|].
  cbn [seq map run] in A, B, C, D. cbv zeta.
  destruct (f s1 (x p)) as [[t1 a1]| | |]; cbn [bind observe] in A; try discriminate.
  destruct (g s2 (x p)) as [[t2 a2]| | |]; cbn [bind observe] in B; try discriminate.
  destruct (h s3 (x p)) as [[t3 a3]| | |]; cbn [bind observe] in C; try discriminate.
  destruct (k s4 (x p)) as [[t4 a4]| | |]; cbn [bind observe] in D; try discriminate.
  specialize (IH (i + 1) (S p) t1 t2 t3 t4).
  destruct (run f t1 _) as [[? o1]| | |]; cbn [bind observe] in A; try discriminate.
  destruct (run g t2 _) as [[? o2]| | |]; cbn [bind observe] in B; try discriminate.
  destruct (run h t3 _) as [[? o3]| | |]; cbn [bind observe] in C; try discriminate.
  destruct (run k t4 _) as [[? o4]| | |]; cbn [bind observe] in D; try discriminate.
  assert (a1 = a2 /\ o1 = o2) as [<- <-] by (split; congruence). assert (a3 = a4 /\ o3 = o4) as [<- <-] by (split; congruence).
  cbn [bind]. rewrite !Z.eqb_refl. cbn [cassert bind]. apply (IH o1 o3); auto.
Qed.
End Loop.

Lemma movext_test_ok rs SIZE rounds : 0 < SIZE -> movext_test rs SIZE rounds = Ok tt.
Proof.
  intros HS. unfold movext_test. set (x := dis rs INT_MIN INT_MAX). set (xs := map x (seq 0 rounds)).
  assert (R : forall y, In y xs -> INT_MIN <= y <= INT_MAX). { intros y Hy. apply in_map_iff in Hy. destruct Hy as (p & <- & _). apply dis_range. vm_compute. discriminate. }
  destruct (movmin_int_ok SIZE xs HS R) as (m1 & v1 & E1 & L1 & G1). destruct (movmax_int_ok SIZE xs HS R) as (m2 & v2 & E2 & L2 & G2).
  unfold movmin_int, movmax_int, movext_run in E1, E2.
  destruct (movext_new SIZE INT_MAX) as [n1| | |]; cbn [bind] in E1; try discriminate.
  destruct (movext_new SIZE INT_MIN) as [n2| | |]; cbn [bind] in E2; try discriminate. cbn [bind].
  assert (Hn : (0 < Z.to_nat SIZE)%nat) by lia.
  pose proof (C05_swa_reduces_window Z Z.min SIZE HS Z.min_assoc Z.min_comm INT_MAX (Z.min_id _) xs) as W1.
  pose proof (C05_swa_reduces_window Z Z.max SIZE HS Z.max_assoc Z.max_comm INT_MIN (Z.max_id _) xs) as W2.
  rewrite (outs_eq _ _ _ _ v1) in W1; auto.
  2:{ intros t v Hv. destruct (G1 t v Hv) as [I1 I2]. destruct (window_lastn (Z.to_nat SIZE) INT_MAX (firstn (S t) xs) Hn) as [Q1 Q2]. apply reduce_min; auto.
      intros y Hy. destruct (Q1 y Hy) as [->|Hy']; auto. apply R. apply lastn_incl in I1. rewrite <- (firstn_skipn (S t) xs). apply in_or_app. auto. }
  rewrite (outs_eq _ _ _ _ v2) in W2; auto.
  2:{ intros t v Hv. destruct (G2 t v Hv) as [I1 I2]. destruct (window_lastn (Z.to_nat SIZE) INT_MIN (firstn (S t) xs) Hn) as [Q1 Q2]. apply reduce_max; auto.
      intros y Hy. destruct (Q1 y Hy) as [->|Hy']; auto. apply R. apply lastn_incl in I1. rewrite <- (firstn_skipn (S t) xs). apply in_or_app. auto. }
  destruct (runs_agree (swa_call Z.min SIZE) (movext_call Z.eqb Z.ltb SIZE) (swa_call Z.max SIZE) (movext_call Z.eqb Z.gtb SIZE) x rounds 0 O
    (swa_new SIZE INT_MAX) n1 (swa_new SIZE INT_MIN) n2 v1 v2) as (s & E); auto.
  - fold xs. rewrite E1. auto.
  - fold xs. rewrite E2. auto.
  - transitivity (_ <- Ok s ;; Ok tt); [rewrite <- E; reflexivity|reflexivity].
Qed.
