From Verif Require Import Proofs.BaseLemmas Model.Stack Model.Deque Model.Delay Model.BipBuffer.
Open Scope Z_scope.

(** * Simulation *)
Section Refine.
Context {S T I O : Type} (sm : S -> I -> outcome (S * O)) (ss : T -> I -> outcome (T * O))
        (R : S -> T -> Prop).
Hypothesis step_ok : forall s t o, R s t ->
  match ss t o with
  | Ok (t', r) => exists s', sm s o = Ok (s', r) /\ R s' t'
  | AssertFail => sm s o = AssertFail
  | Undefined => sm s o = Undefined
  | NoFuel => sm s o = NoFuel
  end.

Lemma refine_run os : forall s t, R s t -> observe (run sm s os) = observe (run ss t os).
Proof.
  induction os as [|o os IH]; intros s t H; simpl; auto.
  specialize (step_ok s t o H). destruct (ss t o) as [[t' r]| | |].
  - destruct step_ok as (s' & -> & HR). simpl. specialize (IH _ _ HR).
    destruct (run sm s' os) as [[? ?]| | |], (run ss t' os) as [[? ?]| | |]; simpl in *; congruence.
  - now rewrite step_ok.
  - now rewrite step_ok.
  - now rewrite step_ok.
Qed.
End Refine.

Lemma zlen_nil {A} : zlen (@nil A) = 0. Proof. reflexivity. Qed.
Lemma zlen_single {A} (x : A) : zlen [x] = 1. Proof. reflexivity. Qed.
Lemma zlen_cons {A} (x : A) l : zlen (x :: l) = zlen l + 1.
Proof. unfold zlen. cbn [length]. lia. Qed.

Lemma last_znth {A} (l : list A) d : l <> [] -> znth l (zlen l - 1) = Some (last l d).
Proof.
  intros H. destruct (exists_last H) as (l' & a & ->).
  rewrite last_last. pose proof (zlen_nonneg l').
  assert (E : zlen (l' ++ [a]) - 1 = zlen l') by (unfold zlen; rewrite app_length; cbn [length]; lia).
  rewrite E, znth_app by lia. destruct (Z.ltb_spec (zlen l') (zlen l')); [lia|].
  rewrite Z.sub_diag. reflexivity.
Qed.

Lemma removelast_spec {A} (l : list A) : l <> [] ->
  zlen (removelast l) = zlen l - 1 /\
  forall i, i < zlen l - 1 -> znth (removelast l) i = znth l i.
Proof.
  intros H. destruct (exists_last H) as (l' & a & ->). rewrite removelast_last, zlen_app.
  split; [rewrite zlen_single; lia|]. intros i Hi. rewrite zlen_single in Hi.
  destruct (Z.ltb_spec i 0).
  - rewrite !znth_out; auto; lia.
  - rewrite znth_app by lia. destruct (Z.ltb_spec i (zlen l')); auto; lia.
Qed.

Lemma znth_snoc {A} (l : list A) x i : 
  znth (l ++ [x]) i = if i =? zlen l then Some x else znth l i.
Proof.
  destruct (Z.ltb_spec i 0).
  - destruct (Z.eqb_spec i (zlen l)); [unfold zlen in *; lia|]. rewrite !znth_out; auto; lia.
  - rewrite znth_app by lia. destruct (Z.ltb_spec i (zlen l)), (Z.eqb_spec i (zlen l)); auto; try lia.
    + subst. rewrite Z.sub_diag. reflexivity.
    + rewrite !znth_out; auto; rewrite ?zlen_single; lia.
Qed.

Lemma znth_cons {A} (l : list A) x i :
  znth (x :: l) i = if i =? 0 then Some x else znth l (i - 1).
Proof.
  unfold znth. destruct (Z.eqb_spec i 0) as [->|]; [reflexivity|].
  destruct (Z.ltb_spec i 0), (Z.ltb_spec (i-1) 0); auto; try lia.
  replace (Z.to_nat i) with (Datatypes.S (Z.to_nat (i-1))) by lia. reflexivity.
Qed.

(** * Stack *)
Section StackP.
Context {A : Type} (SIZE : Z) (Hsize : 0 < SIZE).

Definition stack_R (s : stack A) (l : list A) : Prop :=
  zlen (s_buf s) = SIZE /\ s_pos s = zlen l - 1 /\ zlen l <= SIZE /\
  forall i, 0 <= i < zlen l -> znth (s_buf s) i = option_map Some (znth l i).

Lemma stack_step_R s l o : stack_R s l ->
  match stack_spec SIZE l o with
  | Ok (l', r) => exists s', stack_step SIZE s o = Ok (s', r) /\ stack_R s' l'
  | AssertFail => stack_step SIZE s o = AssertFail
  | Undefined => stack_step SIZE s o = Undefined
  | NoFuel => stack_step SIZE s o = NoFuel
  end.
Proof.
  intros (Hb & Hp & Hl & Hc). pose proof (zlen_nonneg l) as Hnn.
  assert (Hempty : forall {B} (x y : B), (match l with [] => x | _ :: _ => y end) = if zlen l =? 0 then x else y).
  { intros. destruct l; reflexivity. }
  assert (HR : stack_R s l) by (repeat split; auto).
  destruct o; cbn [stack_spec stack_step].
  - eexists; split; [reflexivity|]. unfold stack_clear; repeat split; cbn [s_buf s_pos]; auto.
    all: rewrite (@zlen_nil A); intros; lia.
  - unfold stack_push, cassert. destruct (Z.ltb_spec (zlen l) SIZE), (Z.ltb_spec (s_pos s) (SIZE - 1)); try lia; auto.
    simpl. rewrite set_in_range by lia. simpl. eexists; split; [reflexivity|].
    repeat split; simpl.
    + now rewrite zlen_zupd.
    + rewrite zlen_app, zlen_single; lia.
    + rewrite zlen_app, zlen_single; lia.
    + rewrite zlen_app, zlen_single. intros i Hi. rewrite znth_zupd, znth_snoc by lia.
      replace (s_pos s + 1) with (zlen l) by lia.
      destruct (Z.eqb_spec i (zlen l)); auto. apply Hc. lia.
  - rewrite Hempty. unfold stack_pop, cassert.
    destruct (Z.eqb_spec (zlen l) 0), (Z.leb_spec 0 (s_pos s)); try lia; auto. simpl.
    eexists; split; [reflexivity|].
    assert (Hne : l <> []) by (intros ->; unfold zlen in *; simpl in *; lia).
    destruct (removelast_spec l Hne) as [H1 H2].
    repeat split; simpl; auto; try lia. intros i Hi. rewrite H2 by lia. apply Hc. lia.
  - unfold stack_top, cassert. destruct l as [|x l'].
    + rewrite (@zlen_nil A) in Hp. rewrite Hp. reflexivity.
    + rewrite zlen_cons in *. pose proof (zlen_nonneg l'). destruct (Z.leb_spec 0 (s_pos s)); [|lia]. cbn [bind].
      rewrite (geti_Some (s_buf s) (s_pos s) (last (x :: l') x)).
      * cbn [bind]. eexists; split; [reflexivity|auto].
      * rewrite Hc by lia. rewrite Hp, <- (zlen_cons x l'). rewrite (last_znth _ x); [reflexivity|discriminate].
  - unfold stack_first, cassert. destruct l as [|x l'].
    + rewrite (@zlen_nil A) in Hp. rewrite Hp. reflexivity.
    + rewrite zlen_cons in *. pose proof (zlen_nonneg l'). destruct (Z.leb_spec 0 (s_pos s)); [|lia]. cbn [bind].
      rewrite (geti_Some (s_buf s) 0 x).
      * cbn [bind]. eexists; split; [reflexivity|auto].
      * rewrite Hc by lia. reflexivity.
  - eexists; split; [|exact HR]. unfold stack_empty. do 3 f_equal. rewrite Hp.
    destruct (Z.eqb_spec (zlen l) 0), (Z.eqb_spec (zlen l - 1) (-1)); auto; lia.
  - eexists; split; [|exact HR]. unfold stack_full. do 3 f_equal. rewrite Hp.
    destruct (Z.eqb_spec (zlen l) SIZE), (Z.eqb_spec (zlen l - 1) (SIZE - 1)); auto; lia.
  - eexists; split; [|exact HR]. unfold stack_size. do 3 f_equal. lia.
  - eexists; split; [|exact HR]. reflexivity.
Qed.

Lemma stack_new_R : stack_R (stack_new SIZE) [].
Proof.
  unfold stack_new, stack_R. simpl. rewrite zlen_repeat, (@zlen_nil A). repeat split; try lia.
Qed.

Lemma stack_refines ops :
  observe (run (stack_step SIZE) (stack_new SIZE) ops) = observe (run (stack_spec SIZE) (@nil A) ops).
Proof. apply (refine_run _ _ stack_R stack_step_R). apply stack_new_R. Qed.
End StackP.

(** * Ring index arithmetic *)
Lemma ring_neq n p i j : 0 < n -> 0 <= i < n -> 0 <= j < n -> i <> j ->
  (p + i) mod n <> (p + j) mod n.
Proof.
  intros Hn Hi Hj Hne E. apply Hne.
  assert (((p + i) - (p + j)) mod n = 0).
  { rewrite Zminus_mod, E, Z.sub_diag. apply Zmod_0_l. }
  apply Z.mod_divide in H; [|lia]. destruct H as [k Hk].
  assert (k = 0) by nia. lia.
Qed.

Lemma ring_inj n p i j : 0 < n -> 0 <= i < n -> 0 <= j < n ->
  (p + i) mod n = (p + j) mod n -> i = j.
Proof. intros. destruct (Z.eq_dec i j); auto. now apply ring_neq in H2. Qed.

Lemma inc_wrap n p : 0 < n -> 0 <= p < n -> (if n <=? p + 1 then 0 else p + 1) = (p + 1) mod n.
Proof.
  intros. destruct (Z.leb_spec n (p+1)).
  - replace (p + 1) with n by lia. now rewrite Z_mod_same_full.
  - rewrite Z.mod_small; lia.
Qed.

Lemma dec_wrap n p : 0 < n -> 0 <= p < n -> (if p - 1 <? 0 then n - 1 else p - 1) = (p - 1) mod n.
Proof.
  intros. destruct (Z.ltb_spec (p-1) 0).
  - replace (p - 1) with (n - 1 + (-1) * n) by lia. rewrite Z_mod_plus_full, Z.mod_small; lia.
  - rewrite Z.mod_small; lia.
Qed.

(** * Deque *)
Section DequeP.
Context {A : Type} (SIZE : Z) (Hsize : 0 < SIZE).

(** cell of the [i]-th value counted from the front *)
Definition dcell (head i : Z) : Z := (head - i) mod SIZE.

Definition deque_R (d : deque A) (l : list A) : Prop :=
  zlen (d_buf d) = SIZE /\ 0 <= d_head d < SIZE /\ d_count d = zlen l /\ zlen l <= SIZE /\
  d_tail d = dcell (d_head d) (zlen l - 1) /\
  forall i, 0 <= i < zlen l -> znth (d_buf d) (dcell (d_head d) i) = option_map Some (znth l i).

Lemma dcell_range h i : 0 <= dcell h i < SIZE.
Proof. unfold dcell. apply Z.mod_pos_bound. lia. Qed.

Lemma dcell_inj h i j : 0 <= i < SIZE -> 0 <= j < SIZE -> dcell h i = dcell h j -> i = j.
Proof.
  unfold dcell. intros Hi Hj E.
  replace (h - i) with ((h - (SIZE - 1)) + (SIZE - 1 - i)) in E by lia.
  replace (h - j) with ((h - (SIZE - 1)) + (SIZE - 1 - j)) in E by lia.
  apply ring_inj in E; lia.
Qed.

Lemma dcell_succ h i : (dcell h i + 1) mod SIZE = dcell h (i - 1).
Proof. unfold dcell. rewrite Zplus_mod_idemp_l. f_equal. lia. Qed.
Lemma dcell_pred h i : (dcell h i - 1) mod SIZE = dcell h (i + 1).
Proof. unfold dcell. rewrite Zminus_mod_idemp_l. f_equal. lia. Qed.
Lemma dcell_head_inc h i : dcell ((h + 1) mod SIZE) i = dcell h (i - 1).
Proof. unfold dcell. rewrite Zminus_mod_idemp_l. f_equal. lia. Qed.
Lemma dcell_head_dec h i : dcell ((h - 1) mod SIZE) i = dcell h (i + 1).
Proof. unfold dcell. rewrite Zminus_mod_idemp_l. f_equal. lia. Qed.

Lemma deque_step_R d l o : deque_R d l ->
  match deque_spec SIZE l o with
  | Ok (l', r) => exists d', deque_step SIZE d o = Ok (d', r) /\ deque_R d' l'
  | AssertFail => deque_step SIZE d o = AssertFail
  | Undefined => deque_step SIZE d o = Undefined
  | NoFuel => deque_step SIZE d o = NoFuel
  end.
Proof.
  intros HR. pose proof HR as (Hb & Hh & Hn & Hl & Ht & Hc). pose proof (zlen_nonneg l) as Hnn.
  assert (Ht' : 0 <= d_tail d < SIZE) by (rewrite Ht; apply dcell_range).
  assert (Hempty : forall {B} (x y : B), (match l with [] => x | _ :: _ => y end) = if zlen l =? 0 then x else y).
  { intros. destruct l; reflexivity. }
  destruct o; cbn [deque_spec deque_step].
  - eexists; split; [reflexivity|]. unfold deque_clear, deque_R; cbn [d_buf d_head d_tail d_count].
    rewrite (@zlen_nil A). repeat split; auto; try lia.
    unfold dcell. replace (SIZE - 1 - (0 - 1)) with SIZE by lia. now rewrite Z_mod_same_full.
  - unfold deque_push_back, cassert. rewrite Hn.
    destruct (Z.ltb_spec (zlen l) SIZE); auto. cbn [bind]. rewrite dec_wrap by lia.
    pose proof (Z.mod_pos_bound (d_tail d - 1) SIZE Hsize).
    rewrite set_in_range by lia. cbn [bind]. eexists; split; [reflexivity|].
    assert (Hnt : (d_tail d - 1) mod SIZE = dcell (d_head d) (zlen l)).
    { rewrite Ht, dcell_pred. f_equal. lia. }
    unfold deque_R; cbn [d_buf d_head d_tail d_count].
    rewrite zlen_zupd, zlen_app, zlen_single. repeat split; auto; try lia.
    + rewrite Hnt. f_equal. lia.
    + intros i Hi. rewrite znth_zupd, znth_snoc by lia. rewrite Hnt.
      destruct (Z.eqb_spec i (zlen l)) as [->|].
      * now rewrite Z.eqb_refl.
      * destruct (Z.eqb_spec (dcell (d_head d) i) (dcell (d_head d) (zlen l))) as [E|E].
        -- apply dcell_inj in E; lia.
        -- apply Hc. lia.
  - unfold deque_push_front, cassert. rewrite Hn.
    destruct (Z.ltb_spec (zlen l) SIZE); auto. cbn [bind]. rewrite inc_wrap by lia.
    pose proof (Z.mod_pos_bound (d_head d + 1) SIZE Hsize).
    rewrite set_in_range by lia. cbn [bind]. eexists; split; [reflexivity|].
    unfold deque_R; cbn [d_buf d_head d_tail d_count].
    rewrite zlen_zupd, zlen_cons. repeat split; auto; try lia.
    + rewrite dcell_head_inc, Ht. f_equal. lia.
    + intros i Hi. rewrite dcell_head_inc.
      assert (Hm : (d_head d + 1) mod SIZE = dcell (d_head d) (-1)) by (unfold dcell; f_equal; lia).
      rewrite znth_zupd, znth_cons by lia.
      destruct (Z.eqb_spec i 0) as [->|].
      * rewrite Hm. cbn. now rewrite Z.eqb_refl.
      * destruct (Z.eqb_spec (dcell (d_head d) (i - 1)) ((d_head d + 1) mod SIZE)) as [E|E].
        -- exfalso. unfold dcell in E.
           replace (d_head d + 1) with ((d_head d - (SIZE - 2)) + (SIZE - 1)) in E by lia.
           replace (d_head d - (i - 1)) with ((d_head d - (SIZE - 2)) + (SIZE - 1 - i)) in E by lia.
           apply ring_inj in E; lia.
        -- apply Hc. lia.
  - rewrite Hempty. unfold deque_pop_back, cassert. rewrite Hn.
    destruct (Z.eqb_spec (zlen l) 0), (Z.ltb_spec 0 (zlen l)); try lia; auto. cbn [bind].
    rewrite inc_wrap by lia. eexists; split; [reflexivity|].
    assert (Hne : l <> []) by (intros ->; unfold zlen in *; simpl in *; lia).
    destruct (removelast_spec l Hne) as [H1 H2].
    unfold deque_R; cbn [d_buf d_head d_tail d_count]. rewrite H1. repeat split; auto; try lia.
    + rewrite Ht, dcell_succ. reflexivity.
    + intros i Hi. rewrite H2 by lia. apply Hc. lia.
  - unfold deque_pop_front, cassert. rewrite Hn. destruct l as [|x l'].
    + reflexivity.
    + rewrite zlen_cons in *. pose proof (zlen_nonneg l').
      destruct (Z.ltb_spec 0 (zlen l' + 1)); [|lia]. cbn [bind]. rewrite dec_wrap by lia.
      pose proof (Z.mod_pos_bound (d_head d - 1) SIZE Hsize).
      eexists; split; [reflexivity|].
      unfold deque_R; cbn [d_buf d_head d_tail d_count]. repeat split; auto; try lia.
      * rewrite dcell_head_dec, Ht. f_equal. lia.
      * intros i Hi. rewrite dcell_head_dec, Hc by lia. rewrite znth_cons.
        destruct (Z.eqb_spec (i + 1) 0); [lia|]. repeat f_equal; lia.
  - unfold deque_back, cassert. rewrite Hn. destruct l as [|x l'].
    + reflexivity.
    + rewrite zlen_cons in *. pose proof (zlen_nonneg l').
      destruct (Z.ltb_spec 0 (zlen l' + 1)); [|lia]. cbn [bind].
      rewrite (geti_Some (d_buf d) (d_tail d) (last (x :: l') x)).
      * cbn [bind]. eexists; split; [reflexivity|exact HR].
      * rewrite Ht, Hc by lia. rewrite <- (zlen_cons x l'). rewrite (last_znth _ x); [reflexivity|discriminate].
  - unfold deque_front, cassert. rewrite Hn. destruct l as [|x l'].
    + reflexivity.
    + rewrite zlen_cons in *. pose proof (zlen_nonneg l').
      destruct (Z.ltb_spec 0 (zlen l' + 1)); [|lia]. cbn [bind].
      rewrite (geti_Some (d_buf d) (d_head d) x).
      * cbn [bind]. eexists; split; [reflexivity|exact HR].
      * specialize (Hc 0 ltac:(lia)). unfold dcell in Hc. rewrite Z.sub_0_r, Z.mod_small in Hc by lia. exact Hc.
  - eexists; split; [|exact HR]. unfold deque_empty. now rewrite Hn.
  - eexists; split; [|exact HR]. unfold deque_full. now rewrite Hn.
  - eexists; split; [|exact HR]. unfold deque_size. now rewrite Hn.
  - eexists; split; [|exact HR]. reflexivity.
Qed.

Lemma deque_new_R : deque_R (deque_new SIZE) [].
Proof.
  unfold deque_new, deque_R; cbn [d_buf d_head d_tail d_count]. rewrite zlen_repeat, (@zlen_nil A). repeat split; try lia.
  unfold dcell. replace (SIZE - 1 - (0 - 1)) with SIZE by lia. now rewrite Z_mod_same_full.
Qed.

Lemma deque_refines ops :
  observe (run (deque_step SIZE) (deque_new SIZE) ops) = observe (run (deque_spec SIZE) (@nil A) ops).
Proof. apply (refine_run _ _ deque_R deque_step_R). apply deque_new_R. Qed.
End DequeP.

(** * Ring buffers holding a window *)
Section Ring.
Context {A : Type}.
(** [buf] is a ring whose oldest element is at [pos]. *)
Definition ring (n : Z) (buf : list A) (pos : Z) (w : list A) : Prop :=
  0 < n /\ zlen buf = n /\ 0 <= pos < n /\ zlen w = n /\
  forall i, 0 <= i < n -> znth buf ((pos + i) mod n) = znth w i.

Lemma ring_init n (v : A) : 0 < n -> ring n (repeat v (Z.to_nat n)) 0 (repeat v (Z.to_nat n)).
Proof.
  intros H. unfold ring. rewrite zlen_repeat. repeat split; try lia.
  intros i Hi. now rewrite Z.add_0_l, Z.mod_small by lia.
Qed.

Lemma ring_head n buf pos w : ring n buf pos w -> znth buf pos = znth w 0.
Proof.
  intros (Hn & Hb & Hp & Hw & H). specialize (H 0 ltac:(lia)). now rewrite Z.add_0_r, Z.mod_small in H by lia.
Qed.

Lemma znth_tl (w : list A) i : 0 <= i -> znth (tl w) i = znth w (i + 1).
Proof.
  intros. destruct w; simpl. 
  - rewrite !znth_out; auto; rewrite (@zlen_nil A); lia.
  - rewrite znth_cons. destruct (Z.eqb_spec (i+1) 0); [lia|]. f_equal. lia.
Qed.

Lemma zlen_tl (w : list A) : 0 < zlen w -> zlen (tl w) = zlen w - 1.
Proof. destruct w; unfold zlen; cbn [tl length]; lia. Qed.

Lemma ring_push n buf pos w x : ring n buf pos w ->
  set buf pos x = Ok (zupd buf pos x) /\
  ring n (zupd buf pos x) ((pos + 1) mod n) (tl w ++ [x]).
Proof.
  intros (Hn & Hb & Hp & Hw & H). split; [apply set_in_range; lia|].
  assert (Hm := Z.mod_pos_bound (pos + 1) n Hn).
  unfold ring. rewrite zlen_zupd, zlen_app, zlen_tl, zlen_single by lia. repeat split; try lia.
  intros i Hi. rewrite Zplus_mod_idemp_l.
  rewrite znth_zupd, znth_snoc, zlen_tl by lia.
  destruct (Z.eqb_spec i (zlen w - 1)) as [->|].
  - replace (pos + 1 + (zlen w - 1)) with (pos + 1 * n) by lia.
    rewrite Z_mod_plus_full, Z.mod_small, Z.eqb_refl by lia. reflexivity.
  - destruct (Z.eqb_spec ((pos + 1 + i) mod n) pos) as [E|E].
    + exfalso. rewrite <- (Z.mod_small pos n) in E at 2 by lia.
      replace (pos + 1 + i) with (pos + (i + 1)) in E by lia. rewrite <- (Z.add_0_r pos) in E at 2.
      apply ring_inj in E; lia.
    + rewrite znth_tl by lia. rewrite <- H by lia. f_equal. f_equal. lia.
Qed.
End Ring.

Lemma zlen_window {A} n (pad : A) xs : zlen (window n pad xs) = Z.of_nat n.
Proof. unfold zlen. now rewrite window_length. Qed.

(** * Delay *)
Section DelayP.
Context {A : Type} (NUM : Z) (Hnum : 0 < NUM) (init : A).

Definition delay_inv (xs : list A) (d : delay A) : Prop :=
  ring NUM (dl_buf d) (dl_pos d) (window (Z.to_nat NUM) init xs).

Lemma delay_new_inv : delay_inv [] (delay_new NUM init).
Proof. unfold delay_inv, delay_new. cbn [dl_buf dl_pos]. rewrite window_nil. now apply ring_init. Qed.

Lemma delay_call_inv xs d x : delay_inv xs d ->
  exists d' y, delay_call NUM d x = Ok (d', y) /\
    nth_error (repeat init (Z.to_nat NUM) ++ xs) (length xs) = Some y /\ delay_inv (xs ++ [x]) d'.
Proof.
  intros H. unfold delay_call. pose proof H as (_ & Hb & Hp & Hw & _).
  destruct (get_in_range (dl_buf d) (dl_pos d)) as (y & Hy & ->); [lia|].
  destruct (ring_push _ _ _ _ x H) as (-> & HR). cbn [bind]. rewrite inc_wrap by lia.
  eexists _, y. split; [reflexivity|]. split.
  - rewrite (ring_head _ _ _ _ H) in Hy. rewrite <- Hy. rewrite znth_nonneg by lia.
    rewrite window_nth. now rewrite Nat.add_0_r.
  - unfold delay_inv. cbn [dl_buf dl_pos]. rewrite window_snoc by lia. exact HR.
Qed.

Definition delay_spec_out (ys : list A) : A := nth (pred (length ys)) (repeat init (Z.to_nat NUM) ++ ys) init.

Lemma delay_run_inv xs : exists d, run (delay_call NUM) (delay_new NUM init) xs
    = Ok (d, map delay_spec_out (prefixes xs)) /\ delay_inv xs d.
Proof.
  apply run_inv; [|apply delay_new_inv].
  intros h s x H. destruct (delay_call_inv h s x H) as (d' & y & E & Hy & HI).
  exists d'. split; [|exact HI]. rewrite E. do 2 f_equal. unfold delay_spec_out.
  rewrite app_length. simpl. rewrite Nat.add_1_r. simpl.
  symmetry. apply nth_error_nth. rewrite app_assoc. rewrite nth_error_app1; auto.
  rewrite app_length, repeat_length. lia.
Qed.

Lemma delay_outputs xs : observe (run (delay_call NUM) (delay_new NUM init) xs) =
  Ok (firstn (length xs) (repeat init (Z.to_nat NUM) ++ xs)).
Proof.
  destruct (delay_run_inv xs) as (d & -> & _). simpl. f_equal. apply list_eq_nth.
  - rewrite map_length, prefixes_length, firstn_length, app_length. lia.
  - intros i Hi. rewrite map_length, prefixes_length in Hi. rewrite nth_error_firstn by lia.
    rewrite (map_nth_error delay_spec_out i (prefixes xs) (d := firstn (S i) xs)).
    2: now apply prefixes_nth.
    unfold delay_spec_out. rewrite firstn_length, Nat.min_l by lia. simpl pred.
    destruct (Nat.ltb_spec i (Z.to_nat NUM)).
    + rewrite app_nth1, nth_error_app1 by (rewrite repeat_length; lia).
      symmetry. rewrite nth_error_repeat by lia. f_equal. symmetry.
      apply nth_error_nth. now apply nth_error_repeat.
    + rewrite app_nth2, nth_error_app2 by (rewrite repeat_length; lia). rewrite repeat_length.
      symmetry. assert (Hl : (i - Z.to_nat NUM < length (firstn (S i) xs))%nat) by (rewrite firstn_length; lia).
      rewrite <- (nth_error_nth' _ init Hl). rewrite nth_error_firstn by lia. reflexivity.
Qed.
End DelayP.

(** * BipBuffer *)
Section BipP.
Context {A : Type} (NUM : Z) (Hnum : 0 < NUM) (zero : A).

Definition bip_inv (xs : list A) (b : bip A) : Prop :=
  let n := zlen xs in let w := window (Z.to_nat NUM) zero xs in
  zlen (b_buf b) = 2 * NUM /\ b_pos0 b = n mod (2 * NUM) /\ b_pos1 b = (n + NUM) mod (2 * NUM) /\
  forall i, 0 <= i < NUM ->
    znth (b_buf b) ((n + i) mod (2 * NUM)) = znth w i /\
    znth (b_buf b) ((n + NUM + i) mod (2 * NUM)) = znth w i.

Lemma bip_new_inv : bip_inv [] (bip_new NUM zero).
Proof.
  unfold bip_inv, bip_new; cbn [b_buf b_pos0 b_pos1]. rewrite window_nil, zlen_repeat, (@zlen_nil A), !Z.add_0_l. 
  rewrite Zmod_0_l, Z.mod_small by lia. repeat split; try lia; rewrite Z.mod_small by lia;
  rewrite !znth_repeat; auto; lia.
Qed.

Lemma bip_ptr_val xs b : bip_inv xs b -> bip_ptr b = zlen xs mod NUM.
Proof.
  intros (Hb & H0 & H1 & _). unfold bip_ptr. rewrite H0, H1. pose proof (zlen_nonneg xs).
  set (n := zlen xs) in *. clearbody n.
  assert (n mod NUM = (n mod (2 * NUM)) mod NUM).
  { rewrite <- Znumtheory.Zmod_div_mod; try lia. exists 2. lia. }
  rewrite <- Zplus_mod_idemp_l. rewrite H2.
  pose proof (Z.mod_pos_bound n (2 * NUM) ltac:(lia)).
  set (m := n mod (2 * NUM)) in *.
  destruct (Z.ltb_spec m NUM).
  - rewrite (Z.mod_small m NUM), (Z.mod_small (m + NUM)) by lia. lia.
  - replace (m + NUM) with ((m - NUM) + 1 * (2 * NUM)) by lia. rewrite Z_mod_plus_full, Z.mod_small by lia.
    replace m with ((m - NUM) + 1 * NUM) at 3 by lia. rewrite Z_mod_plus_full, Z.mod_small by lia. lia.
Qed.

Lemma bip_read_inv xs b : bip_inv xs b -> forall i, 0 <= i < NUM ->
  znth (b_buf b) (bip_ptr b + i) = znth (window (Z.to_nat NUM) zero xs) i.
Proof.
  intros H i Hi. rewrite (bip_ptr_val _ _ H). destruct H as (Hb & H0 & H1 & Hc).
  destruct (Hc i Hi) as [E1 E2]. set (n := zlen xs) in *.
  pose proof (Z.mod_pos_bound n NUM Hnum).
  assert (Hk : exists k, n = n mod NUM + NUM * k) by (exists (n / NUM); pose proof (Z.div_mod n NUM); lia).
  destruct Hk as [k Hk]. set (m := n mod NUM) in *.
  destruct (Z.Even_or_Odd k) as [[q ->]|[q ->]].
  - rewrite <- E1. rewrite Hk. replace (m + NUM * (2 * q) + i) with ((m + i) + q * (2 * NUM)) by lia.
    rewrite Z_mod_plus_full, Z.mod_small by lia. reflexivity.
  - rewrite <- E2. rewrite Hk. replace (m + NUM * (2 * q + 1) + NUM + i) with ((m + i) + (q + 1) * (2 * NUM)) by lia.
    rewrite Z_mod_plus_full, Z.mod_small by lia. reflexivity.
Qed.

Lemma bip_view_from_ok (b : bip A) p n w : (forall i, 0 <= i < Z.of_nat n -> znth (b_buf b) (p + i) = znth w i) ->
  zlen w = Z.of_nat n -> bip_view_from b p n = Ok w.
Proof.
  revert p w. induction n as [|n IH]; intros p w H Hw; simpl.
  - destruct w; auto. rewrite zlen_cons in Hw. pose proof (zlen_nonneg w). lia.
  - destruct w as [|x w]. { rewrite (@zlen_nil A) in Hw. lia. } rewrite zlen_cons in Hw.
    pose proof (H 0 ltac:(lia)) as H0. rewrite Z.add_0_r in H0. rewrite (get_Some _ _ _ H0). simpl.
    rewrite (IH (p + 1) w); auto; try lia.
    intros i Hi. rewrite <- Z.add_assoc, H by lia. rewrite znth_cons.
    destruct (Z.eqb_spec (1 + i) 0); [lia|]. f_equal. lia.
Qed.

Lemma bip_view_inv xs b : bip_inv xs b -> bip_view NUM b (bip_ptr b) = Ok (window (Z.to_nat NUM) zero xs).
Proof.
  intros H. apply bip_view_from_ok.
  - intros i Hi. apply bip_read_inv; auto. lia.
  - apply zlen_window.
Qed.

Lemma bip_push_inv xs b x : bip_inv xs b -> exists b', bip_push NUM b x = Ok (b', bip_ptr b') /\ bip_inv (xs ++ [x]) b'.
Proof.
  intros (Hb & H0 & H1 & Hc). unfold bip_push.
  pose proof (Z.mod_pos_bound (zlen xs) (2 * NUM) ltac:(lia)).
  pose proof (Z.mod_pos_bound (zlen xs + NUM) (2 * NUM) ltac:(lia)).
  rewrite set_in_range by lia. cbn [bind]. rewrite set_in_range by (rewrite zlen_zupd; lia). cbn [bind].
  rewrite !inc_wrap by lia. eexists; split; [reflexivity|].
  unfold bip_inv. cbn [b_buf b_pos0 b_pos1]. rewrite !zlen_zupd, zlen_app, zlen_single.
  rewrite H0, H1. rewrite !Zplus_mod_idemp_l.
  repeat split; auto.
  - f_equal; lia.
  - rewrite window_snoc by lia. rewrite !znth_zupd, znth_snoc by (rewrite ?zlen_zupd; lia).
    rewrite zlen_tl, zlen_window, Z2Nat.id by (rewrite ?zlen_window; lia).
    destruct (Z.eqb_spec i (NUM - 1)) as [->|].
    + replace (zlen xs + 1 + (NUM - 1)) with (zlen xs + NUM) by lia. rewrite Z.eqb_refl.
      destruct (_ =? _); auto.
    + replace (zlen xs + 1 + i) with (zlen xs + (i + 1)) by lia.
      destruct (Z.eqb_spec ((zlen xs + (i + 1)) mod (2 * NUM)) (zlen xs mod (2 * NUM))) as [E|E].
      { exfalso. rewrite <- (Z.add_0_r (zlen xs)) in E at 2. apply ring_inj in E; lia. }
      destruct (Z.eqb_spec ((zlen xs + (i + 1)) mod (2 * NUM)) ((zlen xs + NUM) mod (2 * NUM))) as [E'|E'].
      { exfalso. apply ring_inj in E'; lia. }
      rewrite znth_tl by lia. apply Hc. lia.
  - rewrite window_snoc by lia. rewrite !znth_zupd, znth_snoc by (rewrite ?zlen_zupd; lia).
    rewrite zlen_tl, zlen_window, Z2Nat.id by (rewrite ?zlen_window; lia).
    destruct (Z.eqb_spec i (NUM - 1)) as [->|].
    + replace (zlen xs + 1 + NUM + (NUM - 1)) with (zlen xs + 1 * (2 * NUM)) by lia. rewrite Z_mod_plus_full, Z.eqb_refl.
      reflexivity.
    + replace (zlen xs + 1 + NUM + i) with (zlen xs + (NUM + (i + 1))) by lia.
      destruct (Z.eqb_spec ((zlen xs + (NUM + (i + 1))) mod (2 * NUM)) (zlen xs mod (2 * NUM))) as [E|E].
      { exfalso. rewrite <- (Z.add_0_r (zlen xs)) in E at 2. apply ring_inj in E; lia. }
      destruct (Z.eqb_spec ((zlen xs + (NUM + (i + 1))) mod (2 * NUM)) ((zlen xs + NUM) mod (2 * NUM))) as [E'|E'].
      { exfalso. apply ring_inj in E'; lia. }
      rewrite znth_tl by lia. rewrite Z.add_assoc. apply Hc. lia.
Qed.

Lemma bip_run_inv xs : exists b, run (bip_step NUM) (bip_new NUM zero) xs
   = Ok (b, map (window (Z.to_nat NUM) zero) (prefixes xs)) /\ bip_inv xs b.
Proof.
  apply run_inv; [|apply bip_new_inv].
  intros h s x H. destruct (bip_push_inv h s x H) as (b' & E & HI). exists b'. split; [|exact HI].
  unfold bip_step. rewrite E. simpl. now rewrite (bip_view_inv _ _ HI).
Qed.
End BipP.
