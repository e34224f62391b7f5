From Coq Require Import Permutation.
From Verif Require Import Proofs.BaseLemmas Proofs.ContainerProofs Model.Swa Spec.Containers Spec.Reduce.
Open Scope Z_scope.

Lemma lxor1_even p : 0 < p -> Z.lxor (2 * p) 1 = 2 * p + 1.
Proof. destruct p; try lia. reflexivity. Qed.
Lemma lxor1_odd p : 0 < p -> Z.lxor (2 * p + 1) 1 = 2 * p.
Proof. destruct p; try lia. reflexivity. Qed.

(** [anc i c]: [i] is a proper ancestor of node [c] *)
Inductive anc (i : Z) : Z -> Prop :=
| anc_one c : i = c / 2 -> anc i c
| anc_S c : anc i (c / 2) -> anc i c.

Lemma anc_small i c : anc i c -> 0 <= c <= 1 -> i = 0.
Proof.
  induction 1; intros Hc.
  - subst. assert (c = 0 \/ c = 1) as [-> | ->] by lia; reflexivity.
  - apply IHanc. assert (c = 0 \/ c = 1) as [-> | ->] by lia; cbn; lia.
Qed.

Lemma anc_inv i c : anc i c -> i = c / 2 \/ anc i (c / 2).
Proof. destruct 1; auto. Qed.

Lemma div2_child p : (2 * p) / 2 = p /\ (2 * p + 1) / 2 = p.
Proof.
  split. - rewrite Z.mul_comm. apply Z.div_mul. lia.
  - rewrite Z.add_comm, Z.mul_comm, Z.div_add by lia. reflexivity.
Qed.

Section Swa.
Context {A : Type} (op : A -> A -> A) (NUM : Z) (Hnum : 0 < NUM).

Lemma child_cases c : 2 <= c -> exists p, 1 <= p /\ c / 2 = p /\
  ((c = 2 * p /\ Z.lxor c 1 = 2 * p + 1) \/ (c = 2 * p + 1 /\ Z.lxor c 1 = 2 * p)).
Proof.
  intros Hc. exists (c / 2). pose proof (Z.div_mod c 2 ltac:(lia)). pose proof (Z.mod_pos_bound c 2 ltac:(lia)).
  assert (1 <= c / 2) by lia. split; auto. split; auto.
  assert (c mod 2 = 0 \/ c mod 2 = 1) as [E|E] by lia.
  - left. assert (Hc2 : c = 2 * (c / 2)) by lia. split; auto. rewrite Hc2 at 1. apply lxor1_even. lia.
  - right. assert (Hc2 : c = 2 * (c / 2) + 1) by lia. split; auto. rewrite Hc2 at 1. apply lxor1_odd. lia.
Qed.

(** One iteration of the loop. *)
Lemma swa_up_step f t c : zlen t = 2 * NUM -> 2 <= c < 2 * NUM ->
  exists p a b, 1 <= p < NUM /\ c / 2 = p /\ p < c /\
    znth t c = Some a /\ znth t (Z.lxor c 1) = Some b /\
    ((c = 2 * p /\ Z.lxor c 1 = 2 * p + 1) \/ (c = 2 * p + 1 /\ Z.lxor c 1 = 2 * p)) /\
    swa_up op (S f) t c = swa_up op f (zupd t p (op a b)) p.
Proof.
  intros Ht Hc. destruct (child_cases c) as (p & Hp & Hd & Hcase); [lia|].
  destruct (get_in_range t c) as (a & Ha & Ga); [lia|].
  destruct (get_in_range t (Z.lxor c 1)) as (b & Hb & Gb); [lia|].
  exists p, a, b. repeat split; auto; try lia.
  cbn [swa_up]. rewrite Hd, Ga, Gb. destruct (Z.eqb_spec p 0); [lia|].
  cbn [bind]. rewrite set_in_range by lia. reflexivity.
Qed.

Lemma swa_up_end f t c : 0 <= c <= 1 -> swa_up op f t c = Ok t.
Proof.
  intros. assert (c / 2 = 0) by (apply Z.div_small; lia).
  destruct f; cbn [swa_up]; rewrite H0; reflexivity.
Qed.

(** Generic loop rule. *)
Lemma swa_up_rule (P : list A -> Z -> Prop) f : forall t c,
  zlen t = 2 * NUM -> 1 <= c < 2 * NUM -> c <= Z.of_nat f ->
  P t c ->
  (forall t c p a b, zlen t = 2 * NUM -> 2 <= c < 2 * NUM -> P t c ->
     1 <= p < NUM -> c / 2 = p ->
     znth t c = Some a -> znth t (Z.lxor c 1) = Some b ->
     ((c = 2 * p /\ Z.lxor c 1 = 2 * p + 1) \/ (c = 2 * p + 1 /\ Z.lxor c 1 = 2 * p)) ->
     P (zupd t p (op a b)) p) ->
  exists t', swa_up op f t c = Ok t' /\ zlen t' = 2 * NUM /\ P t' 1 /\
    forall j, NUM <= j -> znth t' j = znth t j.
Proof.
  induction f as [|f IH]; intros t c Ht Hc Hf HP Hstep.
  - lia.
  - destruct (Z.eq_dec c 1) as [->|].
    + exists t. rewrite swa_up_end by lia. auto.
    + destruct (swa_up_step f t c) as (p & a & b & Hp & Hd & Hlt & Ha & Hb & Hcase & ->); auto; [lia|].
      destruct (IH (zupd t p (op a b)) p) as (t' & E & Hl & HP' & Hleaf); auto; try lia.
      * now rewrite zlen_zupd.
      * eapply (Hstep t c); eauto. lia.
      * exists t'. repeat split; auto. intros j Hj. rewrite Hleaf by lia. apply znth_zupd_ne; lia.
Qed.

(** ** Reduction *)
Definition node_ok (t : list A) (i : Z) : Prop :=
  exists a b, znth t (2 * i) = Some a /\ znth t (2 * i + 1) = Some b /\ znth t i = Some (op a b).

Hypothesis op_assoc : forall a b c, op a (op b c) = op (op a b) c.
Hypothesis op_comm : forall a b, op a b = op b a.

Lemma swa_up_nodes t c f : zlen t = 2 * NUM -> 1 <= c < 2 * NUM -> c <= Z.of_nat f ->
  (forall i, 1 <= i < NUM -> ~ anc i c -> node_ok t i) ->
  exists t', swa_up op f t c = Ok t' /\ zlen t' = 2 * NUM /\
    (forall i, 1 <= i < NUM -> node_ok t' i) /\
    forall j, NUM <= j -> znth t' j = znth t j.
Proof.
  intros Ht Hc Hf H.
  destruct (swa_up_rule (fun t c => forall i, 1 <= i < NUM -> ~ anc i c -> node_ok t i) f t c)
    as (t' & E & Hl & HP & Hleaf); auto.
  - clear t c Ht Hc Hf H. intros t c p a b Ht Hc HP Hp Hd Ha Hb Hcase i Hi Hna.
    destruct (Z.eq_dec i p) as [->|Hne].
    + unfold node_ok. destruct Hcase as [[E1 E2]|[E1 E2]].
      * exists a, b. rewrite !znth_zupd by lia. rewrite Z.eqb_refl.
        destruct (Z.eqb_spec (2 * p) p); [lia|]. destruct (Z.eqb_spec (2 * p + 1) p); [lia|].
        rewrite <- E2, <- E1. repeat split; auto.
      * exists b, a. rewrite !znth_zupd by lia. rewrite Z.eqb_refl.
        destruct (Z.eqb_spec (2 * p) p); [lia|]. destruct (Z.eqb_spec (2 * p + 1) p); [lia|].
        rewrite <- E1, <- E2. repeat split; auto. now rewrite op_comm.
    + assert (Hok : node_ok t i).
      { apply HP; auto. intros Hanc. apply anc_inv in Hanc. rewrite Hd in Hanc. destruct Hanc; auto. }
      destruct Hok as (x & y & Hx & Hy & Hi'). exists x, y.
      destruct (div2_child i) as [D1 D2].
      assert (2 * i <> p). { intros E. apply Hna. apply anc_one. rewrite <- E. now rewrite D1. }
      assert (2 * i + 1 <> p). { intros E. apply Hna. apply anc_one. rewrite <- E. now rewrite D2. }
      rewrite !znth_zupd by lia.
      destruct (Z.eqb_spec (2 * i) p); [lia|]. destruct (Z.eqb_spec (2 * i + 1) p); [lia|].
      destruct (Z.eqb_spec i p); [lia|]. auto.
  - exists t'. repeat split; auto. intros i Hi. apply HP; auto. intros Ha. apply anc_small in Ha; lia.
Qed.

(** option-monoid reduction *)
Definition oop (x y : option A) : option A :=
  match x, y with None, z => z | z, None => z | Some a, Some b => Some (op a b) end.
Lemma oop_assoc x y z : oop x (oop y z) = oop (oop x y) z.
Proof. destruct x, y, z; simpl; auto. f_equal. apply op_assoc. Qed.
Lemma oop_comm x y : oop x y = oop y x.
Proof. destruct x, y; simpl; auto. f_equal. apply op_comm. Qed.

Definition ored (l : list A) : option A := fold_right (fun x acc => oop (Some x) acc) None l.

Lemma ored_app l l' : ored (l ++ l') = oop (ored l) (ored l').
Proof. induction l as [|x l IH]. - simpl. reflexivity. - cbn [ored fold_right app]. fold (ored (l ++ l')). rewrite IH. fold (ored l). now rewrite oop_assoc. Qed.

Lemma ored_perm l l' : Permutation l l' -> ored l = ored l'.
Proof.
  induction 1; auto.
  - cbn [ored fold_right]. fold (ored l). fold (ored l'). now rewrite IHPermutation.
  - cbn [ored fold_right]. fold (ored l). rewrite !oop_assoc. f_equal. apply oop_comm.
  - congruence.
Qed.

Lemma ored_fold l : forall x, ored (x :: l) = Some (fold_left op l x).
Proof.
  induction l as [|y l IH]; intros x; auto.
  cbn [fold_left]. rewrite <- IH. cbn [ored fold_right]. fold (ored l). rewrite oop_assoc. reflexivity.
Qed.

Lemma reduce_ored d l : l <> [] -> ored l = Some (reduce op d l).
Proof. destruct l; [congruence|]. intros _. apply ored_fold. Qed.

(** reduction of the segment [lo, lo+n) of the tree *)
Fixpoint seg (t : list A) (lo : Z) (n : nat) : option A :=
  match n with
  | O => None
  | S n' => oop (znth t lo) (seg t (lo + 1) n')
  end.

Lemma seg_snoc t n : forall lo, seg t lo (S n) = oop (seg t lo n) (znth t (lo + Z.of_nat n)).
Proof.
  induction n as [|n IH]; intros lo.
  - cbn [seg]. change (Z.of_nat 0) with 0. rewrite Z.add_0_r. destruct (znth t lo); reflexivity.
  - change (seg t lo (S (S n))) with (oop (znth t lo) (seg t (lo + 1) (S n))). rewrite IH.
    cbn [seg]. rewrite oop_assoc. do 2 f_equal. lia.
Qed.

Lemma frontier t : (forall i, 1 <= i < NUM -> node_ok t i) ->
  forall k : nat, 1 <= Z.of_nat k <= NUM -> seg t (Z.of_nat k) k = znth t 1.
Proof.
  intros H k. induction k as [|k IH]; intros Hk; [lia|].
  destruct (Z.eq_dec (Z.of_nat k) 0) as [E|E].
  - assert (k = O) by lia. subst. cbn [seg]. change (Z.of_nat 1) with 1. destruct (znth t 1); reflexivity.
  - rewrite <- IH by lia. destruct (H (Z.of_nat k)) as (a & b & Ha & Hb & Hc); [lia|].
    destruct k as [|k']; [lia|].
    rewrite seg_snoc. rewrite seg_snoc. cbn [seg]. rewrite Hc.
    replace (Z.of_nat (S (S k')) + Z.of_nat k') with (2 * Z.of_nat (S k')) by lia.
    replace (Z.of_nat (S (S k')) + Z.of_nat (S k')) with (2 * Z.of_nat (S k') + 1) by lia.
    rewrite Ha, Hb. replace (Z.of_nat (S k') + 1) with (Z.of_nat (S (S k'))) by lia.
    rewrite <- oop_assoc. cbn [oop]. apply oop_comm.
Qed.

(** the leaves as a list *)
Lemma seg_list t n : forall lo l, length l = n -> 
  (forall i, 0 <= i < Z.of_nat n -> znth t (lo + i) = znth l i) -> seg t lo n = ored l.
Proof.
  induction n as [|n IH]; intros lo l Hl H.
  - destruct l; [reflexivity|discriminate].
  - destruct l as [|x l]; [discriminate|]. injection Hl as Hl. cbn [seg ored fold_right]. fold (ored l).
    pose proof (H 0 ltac:(lia)) as H0. rewrite Z.add_0_r in H0. rewrite H0. change (znth (x :: l) 0) with (Some x). f_equal.
    apply IH; auto. intros i Hi. rewrite <- Z.add_assoc, H by lia. rewrite znth_cons.
    destruct (Z.eqb_spec (1 + i) 0); [lia|]. f_equal. lia.
Qed.

(** a ring read in storage order is a permutation of the window *)
Lemma ring_perm n (buf : list A) pos w : ring n buf pos w -> Permutation buf w.
Proof.
  intros (Hn & Hb & Hp & Hw & H).
  assert (E : w = skipn (Z.to_nat pos) buf ++ firstn (Z.to_nat pos) buf).
  { apply list_eq_znth.
    - rewrite zlen_app. unfold zlen in *. rewrite skipn_length, firstn_length. lia.
    - intros i Hi. rewrite <- H by lia. rewrite znth_app by lia.
      assert (Hs : zlen (skipn (Z.to_nat pos) buf) = n - pos) by (unfold zlen in *; rewrite skipn_length; lia).
      rewrite Hs. destruct (Z.ltb_spec i (n - pos)).
      + rewrite Z.mod_small by lia. rewrite !znth_nonneg, nth_error_skipn by lia. f_equal. lia.
      + replace (pos + i) with (i - (n - pos) + 1 * n) by lia. rewrite Z_mod_plus_full, Z.mod_small by lia.
        rewrite !znth_nonneg, nth_error_firstn by lia. reflexivity. }
  rewrite E. rewrite <- (firstn_skipn (Z.to_nat pos) buf) at 1. apply Permutation_app_comm.
Qed.

Context (ident : A).
Hypothesis ident_idem : op ident ident = ident.

Definition swa_inv (xs : list A) (s : swa A) : Prop :=
  zlen (w_tree s) = 2 * NUM /\ NUM <= w_leaf s < 2 * NUM /\
  (forall i, 1 <= i < NUM -> node_ok (w_tree s) i) /\
  exists leaves, ring NUM leaves (w_leaf s - NUM) (window (Z.to_nat NUM) ident xs) /\
    forall i, 0 <= i < NUM -> znth (w_tree s) (NUM + i) = znth leaves i.

Lemma swa_new_inv : swa_inv [] (swa_new NUM ident).
Proof.
  unfold swa_inv, swa_new; cbn [w_tree w_leaf]. rewrite zlen_repeat. repeat split; try lia.
  - intros i Hi. exists ident, ident. rewrite !znth_repeat by lia. rewrite ident_idem. auto.
  - exists (repeat ident (Z.to_nat NUM)). rewrite window_nil, Z.sub_diag. split; [now apply ring_init|].
    intros i Hi. rewrite !znth_repeat by lia. reflexivity.
Qed.

Lemma swa_call_inv xs s x : swa_inv xs s ->
  exists s', swa_call op NUM s x = Ok (s', reduce op ident (window (Z.to_nat NUM) ident (xs ++ [x])))
             /\ swa_inv (xs ++ [x]) s'.
Proof.
  intros (Ht & Hleaf & Hnode & leaves & HR & Hlv). unfold swa_call.
  rewrite set_in_range by lia. cbn [bind].
  destruct (swa_up_nodes (zupd (w_tree s) (w_leaf s) x) (w_leaf s) (Z.to_nat (w_leaf s)))
    as (t' & -> & Hl' & Hn' & Hlf'); try lia.
  - now rewrite zlen_zupd.
  - intros i Hi Hna. destruct (Hnode i Hi) as (a & b & Ha & Hb & Hc). exists a, b.
    destruct (div2_child i) as [D1 D2].
    assert (2 * i <> w_leaf s). { intros E. apply Hna. apply anc_one. rewrite <- E. now rewrite D1. }
    assert (2 * i + 1 <> w_leaf s). { intros E. apply Hna. apply anc_one. rewrite <- E. now rewrite D2. }
    rewrite !znth_zupd by lia.
    destruct (Z.eqb_spec (2 * i) (w_leaf s)); [lia|]. destruct (Z.eqb_spec (2 * i + 1) (w_leaf s)); [lia|].
    destruct (Z.eqb_spec i (w_leaf s)); [lia|]. auto.
  - cbn [bind].
    destruct (ring_push _ _ _ _ x HR) as (_ & HR'). rewrite <- window_snoc in HR' by lia.
    set (leaves' := zupd leaves (w_leaf s - NUM) x) in *.
    assert (Hlv' : forall i, 0 <= i < NUM -> znth t' (NUM + i) = znth leaves' i).
    { intros i Hi. rewrite Hlf' by lia. unfold leaves'. destruct HR as (_ & Hlen & _).
      rewrite !znth_zupd by lia.
      destruct (Z.eqb_spec (NUM + i) (w_leaf s)), (Z.eqb_spec i (w_leaf s - NUM)); try lia; auto. }
    assert (Hleaf' : (if 2 * NUM <=? w_leaf s + 1 then NUM else w_leaf s + 1) - NUM = (w_leaf s - NUM + 1) mod NUM).
    { rewrite <- inc_wrap by lia. destruct (Z.leb_spec (2 * NUM) (w_leaf s + 1)), (Z.leb_spec NUM (w_leaf s - NUM + 1)); lia. }
    assert (Hroot : znth t' 1 = Some (reduce op ident (window (Z.to_nat NUM) ident (xs ++ [x])))).
    { rewrite <- (frontier t' Hn' (Z.to_nat NUM)) by lia.
      rewrite (seg_list t' (Z.to_nat NUM) _ leaves').
      - rewrite (ored_perm _ _ (ring_perm _ _ _ _ HR')). apply reduce_ored.
        intros E. apply (f_equal (@length A)) in E. rewrite window_length in E. cbn in E. lia.
      - destruct HR' as (_ & Hlen & _). unfold zlen in Hlen. lia.
      - intros i Hi. rewrite Z2Nat.id by lia. apply Hlv'. lia. }
    rewrite (get_Some _ _ _ Hroot). cbn [bind]. eexists; split; [reflexivity|].
    unfold swa_inv; cbn [w_tree w_leaf]. repeat split; auto.
    + destruct (Z.leb_spec (2 * NUM) (w_leaf s + 1)); lia.
    + destruct (Z.leb_spec (2 * NUM) (w_leaf s + 1)); lia.
    + exists leaves'. rewrite Hleaf'. auto.
Qed.

Lemma swa_run_inv xs : exists s, run (swa_call op NUM) (swa_new NUM ident) xs =
  Ok (s, map (fun h => reduce op ident (window (Z.to_nat NUM) ident h)) (prefixes xs)) /\ swa_inv xs s.
Proof. apply run_inv; [|apply swa_new_inv]. intros h s x H. apply swa_call_inv; auto. Qed.
End Swa.

(** ** No drift, for an arbitrary operation *)
Section Drift.
Context {A : Type} (op : A -> A -> A) (NUM : Z) (Hnum : 0 < NUM).

(** [below F i]: all leaves in the subtree of node [i] satisfy [F] *)
Definition below (F : Z -> Prop) (i : Z) : Prop :=
  forall d, NUM <= d < 2 * NUM -> d = i \/ anc i d -> F d.

Lemma anc_trans i j k : anc i j -> anc j k -> anc i k.
Proof. intros H1 H2. induction H2. - subst. now apply anc_S. - apply anc_S. auto. Qed.

Lemma swa_up_agree (F : Z -> Prop) leaf f : forall t1 t2 c,
  zlen t1 = 2 * NUM -> zlen t2 = 2 * NUM -> 1 <= c < 2 * NUM -> c <= Z.of_nat f ->
  F leaf -> (c = leaf \/ anc c leaf) ->
  (forall i, 1 <= i < 2 * NUM -> below F i -> ~ anc i c -> znth t1 i = znth t2 i) ->
  exists t1' t2', swa_up op f t1 c = Ok t1' /\ swa_up op f t2 c = Ok t2' /\
    zlen t1' = 2 * NUM /\ zlen t2' = 2 * NUM /\
    (forall i, 1 <= i < 2 * NUM -> below F i -> znth t1' i = znth t2' i).
Proof.
  induction f as [|f IH]; intros t1 t2 c H1 H2 Hc Hf HF Hcl H.
  - lia.
  - destruct (Z.eq_dec c 1) as [->|].
    + exists t1, t2. rewrite !swa_up_end by lia. repeat split; auto.
      intros i Hi Hb. apply H; auto. intros Ha. apply anc_small in Ha; lia.
    + destruct (swa_up_step op NUM f t1 c) as (p & a1 & b1 & Hp & Hd & Hlt & Ha1 & Hb1 & Hcase & ->); auto; [lia|].
      destruct (swa_up_step op NUM f t2 c) as (p2 & a2 & b2 & _ & Hd2 & _ & Ha2 & Hb2 & _ & ->); auto; [lia|].
      rewrite Hd in Hd2. subst p2.
      apply IH; auto; try (rewrite zlen_zupd; auto); try lia.
      * right. destruct Hcl as [->|Hcl]; [now apply anc_one|]. eapply anc_trans; eauto. now apply anc_one.
      * intros i Hi Hb Hna. rewrite !znth_zupd by lia. destruct (Z.eqb_spec i p) as [->|].
        -- assert (Hsub : forall j, j / 2 = p -> below F j).
           { intros j Hj d Hd' [->|Hanc]; apply Hb; auto; right.
             - now apply anc_one.
             - eapply anc_trans; eauto. now apply anc_one. }
           assert (Hnp : forall j, 0 <= j -> j / 2 = p -> ~ anc j c).
           { intros j Hj0 Hj Hanc. apply anc_inv in Hanc. rewrite Hd in Hanc.
             assert (Hge : forall i c, 0 <= c -> anc i c -> i <= c / 2).
             { clear. intros i c Hc Ha. induction Ha. - lia. - assert (i <= c / 2 / 2). { apply IHHa. apply Z.div_pos; lia. }
               pose proof (Z.div_le_upper_bound (c / 2) 2 (c / 2)). pose proof (Z.div_pos c 2). lia. }
             assert (2 * p <= j) by (pose proof (Z.div_mod j 2); pose proof (Z.mod_pos_bound j 2); lia).
             destruct Hanc as [|Hanc]; [lia|]. apply Hge in Hanc; [|lia].
             pose proof (Z.div_le_upper_bound p 2 p). lia. }
           destruct (div2_child p) as [D1 D2].
           assert (Ea : znth t1 c = znth t2 c).
           { apply H; [lia|apply Hsub; auto|apply Hnp; auto; lia]. }
           assert (Eb : znth t1 (Z.lxor c 1) = znth t2 (Z.lxor c 1)).
           { apply H; [lia| |]; [apply Hsub|apply Hnp]; try lia;
             destruct Hcase as [[_ ->]|[_ ->]]; auto. }
           congruence.
        -- apply H; auto. intros Hanc. apply anc_inv in Hanc. rewrite Hd in Hanc. destruct Hanc; auto.
Qed.

Lemma anc_below_root d : 1 <= d -> d = 1 \/ anc 1 d.
Proof.
  intros H. assert (Hd : forall n : nat, forall d, 1 <= d <= Z.of_nat n -> d = 1 \/ anc 1 d).
  { induction n as [|n IH]; intros e He; [lia|].
    destruct (Z.eq_dec e 1); auto. right.
    pose proof (Z.div_mod e 2 ltac:(lia)). pose proof (Z.mod_pos_bound e 2 ltac:(lia)).
    destruct (IH (e / 2)) as [E|E]; [lia| |].
    - now apply anc_one.
    - now apply anc_S. }
  apply (Hd (Z.to_nat d)). lia.
Qed.

Definition wf (s : swa A) : Prop := zlen (w_tree s) = 2 * NUM /\ NUM <= w_leaf s < 2 * NUM.

(** [m] leaves before [leaf] in cyclic order are fresh *)
Definition fresh (leaf : Z) (m : Z) (d : Z) : Prop := exists j, 1 <= j <= m /\ d - NUM = (leaf - NUM - j) mod NUM.

Definition agree (m : Z) (s1 s2 : swa A) : Prop :=
  wf s1 /\ wf s2 /\ w_leaf s1 = w_leaf s2 /\
  forall i, 1 <= i < 2 * NUM -> below (fresh (w_leaf s1) m) i -> znth (w_tree s1) i = znth (w_tree s2) i.

Definition next_leaf (l : Z) : Z := if 2 * NUM <=? l + 1 then NUM else l + 1.
Lemma next_leaf_mod l : NUM <= l < 2 * NUM -> next_leaf l - NUM = (l - NUM + 1) mod NUM.
Proof.
  intros. unfold next_leaf. rewrite <- inc_wrap by lia.
  destruct (Z.leb_spec (2 * NUM) (l + 1)), (Z.leb_spec NUM (l - NUM + 1)); lia.
Qed.

Lemma fresh_next l m d : NUM <= l < 2 * NUM -> NUM <= d < 2 * NUM -> 
  fresh (next_leaf l) (m + 1) d -> d = l \/ fresh l m d.
Proof.
  intros Hl Hd (j & Hj & E). rewrite next_leaf_mod, Zminus_mod_idemp_l in E by lia.
  destruct (Z.eq_dec j 1) as [->|].
  - left. replace (l - NUM + 1 - 1) with (l - NUM) in E by lia. rewrite Z.mod_small in E by lia. lia.
  - right. exists (j - 1). split; [lia|]. rewrite E. f_equal. lia.
Qed.

Lemma swa_call_agree m s1 s2 x : 0 <= m -> agree m s1 s2 ->
  exists s1' s2' o1 o2, swa_call op NUM s1 x = Ok (s1', o1) /\ swa_call op NUM s2 x = Ok (s2', o2) /\
    agree (m + 1) s1' s2' /\ (NUM <= m + 1 -> o1 = o2) /\ w_leaf s1' = next_leaf (w_leaf s1).
Proof.
  intros Hm ((Ht1 & Hl1) & (Ht2 & Hl2) & Hl & H). unfold swa_call. rewrite <- Hl in *.
  rewrite !set_in_range by lia. cbn [bind].
  set (F := fresh (next_leaf (w_leaf s1)) (m + 1)).
  destruct (swa_up_agree F (w_leaf s1) (Z.to_nat (w_leaf s1))
     (zupd (w_tree s1) (w_leaf s1) x) (zupd (w_tree s2) (w_leaf s1) x) (w_leaf s1))
     as (t1' & t2' & -> & -> & L1 & L2 & HA); auto; try (rewrite zlen_zupd; lia); try lia.
  - unfold F, fresh. exists 1. split; [lia|]. rewrite next_leaf_mod, Zminus_mod_idemp_l by lia.
    replace (w_leaf s1 - NUM + 1 - 1) with (w_leaf s1 - NUM) by lia. rewrite Z.mod_small; lia.
  - intros i Hi Hb Hna. rewrite !znth_zupd by lia. destruct (Z.eqb_spec i (w_leaf s1)); auto.
    apply H; auto. intros d Hd Hdd. destruct (fresh_next (w_leaf s1) m d) as [->|]; auto.
    + apply Hb; auto.
    + destruct Hdd; [congruence|contradiction].
  - cbn [bind]. destruct (get_in_range t1' 1) as (o1 & E1 & ->); [lia|].
    destruct (get_in_range t2' 1) as (o2 & E2 & ->); [lia|]. cbn [bind].
    do 4 eexists. split; [reflexivity|]. split; [reflexivity|]. fold (next_leaf (w_leaf s1)). split; [|split]; auto.
    + assert (NUM <= next_leaf (w_leaf s1) < 2 * NUM).
      { unfold next_leaf. destruct (Z.leb_spec (2 * NUM) (w_leaf s1 + 1)); lia. }
      unfold agree, wf; cbn [w_tree w_leaf]. repeat split; auto; try lia.
    + intros Hnm. assert (znth t1' 1 = znth t2' 1); [|congruence]. apply HA; [lia|].
      intros d Hd _. unfold F, fresh.
      set (l := next_leaf (w_leaf s1)).
      assert (NUM <= l < 2 * NUM).
      { unfold l, next_leaf. destruct (Z.leb_spec (2 * NUM) (w_leaf s1 + 1)); lia. }
      pose proof (Z.mod_pos_bound (l - NUM - 1 - (d - NUM)) NUM Hnum).
      exists (1 + (l - NUM - 1 - (d - NUM)) mod NUM). split; [lia|].
      rewrite Z.sub_add_distr. rewrite Zminus_mod_idemp_r.
      replace (l - NUM - 1 - (l - NUM - 1 - (d - NUM))) with (d - NUM) by lia. rewrite Z.mod_small; lia.
Qed.

Lemma swa_run_agree xs : forall m s1 s2, 0 <= m -> agree m s1 s2 ->
  exists s1' s2' o1 o2, run (swa_call op NUM) s1 xs = Ok (s1', o1) /\ run (swa_call op NUM) s2 xs = Ok (s2', o2) /\
    agree (m + zlen xs) s1' s2'.
Proof.
  induction xs as [|x xs IH]; intros m s1 s2 Hm H.
  - exists s1, s2, [], []. rewrite (@zlen_nil A), Z.add_0_r. auto.
  - cbn [run]. destruct (swa_call_agree m s1 s2 x Hm H) as (s1' & s2' & o1 & o2 & -> & -> & HA & Ho & _). cbn [bind].
    destruct (IH (m + 1) s1' s2') as (s1'' & s2'' & q1 & q2 & -> & -> & HA'); [lia|auto|].
    cbn [bind]. exists s1'', s2'', (o1 :: q1), (o2 :: q2). rewrite zlen_cons.
    replace (m + (zlen xs + 1)) with (m + 1 + zlen xs) by lia. auto.
Qed.

Lemma agree0 s1 s2 : wf s1 -> wf s2 -> w_leaf s1 = w_leaf s2 -> agree 0 s1 s2.
Proof.
  intros H1 H2 Hl. split; auto. split; auto. split; auto. intros i Hi Hb. exfalso.
  assert (Hd : forall k : nat, forall i, 1 <= i < 2 * NUM -> 2 * NUM - i <= Z.of_nat k ->
     exists d, NUM <= d < 2 * NUM /\ (d = i \/ anc i d)).
  { induction k as [|k IH]; intros e He Hk; [lia|]. destruct (Z.le_gt_cases NUM e).
    - exists e. split; [lia|auto].
    - destruct (IH (2 * e)) as (d & Hd & Ha); [lia|lia|]. exists d. split; auto. right.
      destruct (div2_child e) as [D _].
      destruct Ha as [->|Ha]; [now apply anc_one|]. eapply anc_trans; eauto. now apply anc_one. }
  destruct (Hd (Z.to_nat (2 * NUM)) i) as (d & Hd' & Ha); [lia|lia|].
  destruct (Hb d Hd' Ha) as (j & Hj & _). lia.
Qed.

Lemma swa_run_wf xs : forall s, wf s -> exists s' os, run (swa_call op NUM) s xs = Ok (s', os) /\ wf s' /\
  w_leaf s' - NUM = (w_leaf s - NUM + zlen xs) mod NUM /\ length os = length xs.
Proof.
  induction xs as [|x xs IH]; intros s H.
  - exists s, []. destruct H as [? ?]. rewrite (@zlen_nil A), Z.add_0_r, Z.mod_small by lia. repeat split; auto; lia.
  - cbn [run]. destruct (swa_call_agree 0 s s x) as (s1 & _ & o & _ & -> & _ & (Hw & _) & _ & Hl); [lia|now apply agree0|].
    cbn [bind]. destruct (IH s1 Hw) as (s' & os & -> & Hw' & Hl' & Hos). cbn [bind].
    exists s', (o :: os). repeat split; auto; try apply Hw'.
    + rewrite Hl', Hl, next_leaf_mod by apply H. rewrite Zplus_mod_idemp_l, zlen_cons. f_equal. lia.
    + cbn. now rewrite Hos.
Qed.

Lemma run_snoc {S I O} (step : S -> I -> outcome (S * O)) xs : forall s x,
  run step s (xs ++ [x]) = ('(s1, os) <- run step s xs ;; '(s2, o) <- step s1 x ;; Ok (s2, os ++ [o])).
Proof.
  induction xs as [|y xs IH]; intros s x; cbn [run app].
  - cbn [bind]. destruct (step s x) as [[? ?]| | |]; reflexivity.
  - destruct (step s y) as [[s1 o]| | |]; cbn [bind]; auto. rewrite IH.
    destruct (run step s1 xs) as [[s2 os]| | |]; cbn [bind]; auto.
    destruct (step s2 x) as [[? ?]| | |]; reflexivity.
Qed.

Lemma run_app {S I O} (step : S -> I -> outcome (S * O)) xs : forall s ys,
  run step s (xs ++ ys) = ('(s1, os) <- run step s xs ;; '(s2, ps) <- run step s1 ys ;; Ok (s2, os ++ ps)).
Proof.
  induction xs as [|y xs IH]; intros s ys; cbn [run app].
  - cbn [bind]. destruct (run step s ys) as [[? ?]| | |]; reflexivity.
  - destruct (step s y) as [[s1 o]| | |]; cbn [bind]; auto. rewrite IH.
    destruct (run step s1 xs) as [[s2 os]| | |]; cbn [bind]; auto.
    destruct (run step s2 ys) as [[? ?]| | |]; reflexivity.
Qed.

Lemma swa_no_drift ident d xs ys :
  NUM <= zlen xs -> NUM <= zlen ys -> zlen xs mod NUM = zlen ys mod NUM ->
  lastn (Z.to_nat NUM) xs = lastn (Z.to_nat NUM) ys ->
  exists o1 o2,
    observe (run (swa_call op NUM) (swa_new NUM ident) xs) = Ok o1 /\
    observe (run (swa_call op NUM) (swa_new NUM ident) ys) = Ok o2 /\
    length o1 = length xs /\ length o2 = length ys /\ last o1 d = last o2 d.
Proof.
  intros Hx Hy Hm Hw.
  assert (W0 : wf (swa_new NUM ident)).
  { unfold wf, swa_new; cbn [w_tree w_leaf]. rewrite zlen_repeat. lia. }
  unfold lastn in Hw. set (w := skipn (length xs - Z.to_nat NUM) xs) in *.
  assert (Lw : zlen w = NUM). { unfold w, zlen in *. rewrite skipn_length. lia. }
  destruct (exists_last (l := w)) as (w0 & x & Ew). { intros E. rewrite E in Lw. cbn in Lw. lia. }
  assert (Dec : forall zs, NUM <= zlen zs -> skipn (length zs - Z.to_nat NUM) zs = w0 ++ [x] ->
    exists z0, zs = z0 ++ w0 ++ [x] /\ zlen zs = zlen z0 + NUM).
  { intros zs Hz E. exists (firstn (length zs - Z.to_nat NUM) zs). rewrite <- E. split.
    - symmetry. apply firstn_skipn.
    - unfold zlen in *. rewrite firstn_length. lia. }
  destruct (Dec xs Hx Ew) as (x0 & Ex & Lx). destruct (Dec ys Hy) as (y0 & Ey & Ly); [congruence|]. clear Dec.
  assert (Lw0 : zlen w0 + 1 = NUM). { rewrite Ew, zlen_app, zlen_single in Lw. lia. }
  destruct (swa_run_wf x0 _ W0) as (s1 & p1 & R1 & W1 & L1 & N1).
  destruct (swa_run_wf y0 _ W0) as (s2 & p2 & R2 & W2 & L2 & N2).
  assert (El : w_leaf s1 = w_leaf s2).
  { assert (w_leaf s1 - NUM = w_leaf s2 - NUM); [|lia]. rewrite L1, L2.
    rewrite <- !(Zplus_mod_idemp_r (zlen _)). do 2 f_equal.
    rewrite Lx, Ly in Hm. replace (zlen x0 + NUM) with (zlen x0 + 1 * NUM) in Hm by lia.
    replace (zlen y0 + NUM) with (zlen y0 + 1 * NUM) in Hm by lia. now rewrite !Z_mod_plus_full in Hm. }
  destruct (swa_run_agree w0 0 s1 s2) as (s1' & s2' & q1 & q2 & Q1 & Q2 & HA); [lia|now apply agree0|].
  destruct (swa_call_agree (0 + zlen w0) s1' s2' x) as (s1'' & s2'' & o1 & o2 & C1 & C2 & _ & Ho & _); auto.
  { unfold zlen; lia. }
  exists (p1 ++ q1 ++ [o1]), (p2 ++ q2 ++ [o2]).
  assert (RX : run (swa_call op NUM) (swa_new NUM ident) xs = Ok (s1'', p1 ++ q1 ++ [o1])).
  { rewrite Ex, run_app, R1. cbn [bind]. rewrite run_snoc, Q1. cbn [bind]. rewrite C1. reflexivity. }
  assert (RY : run (swa_call op NUM) (swa_new NUM ident) ys = Ok (s2'', p2 ++ q2 ++ [o2])).
  { rewrite Ey, run_app, R2. cbn [bind]. rewrite run_snoc, Q2. cbn [bind]. rewrite C2. reflexivity. }
  destruct (swa_run_wf xs _ W0) as (? & ? & RX' & _ & _ & NX). rewrite RX in RX'. injection RX' as _ <-.
  destruct (swa_run_wf ys _ W0) as (? & ? & RY' & _ & _ & NY). rewrite RY in RY'. injection RY' as _ <-.
  rewrite RX, RY. repeat split; auto.
  rewrite !app_assoc, !last_last. apply Ho. lia.
Qed.
End Drift.
