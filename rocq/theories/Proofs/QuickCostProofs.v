(* Number of comparisons and recursion depth of quick.hh *)
From Coq Require Import Permutation.
From Verif Require Import Proofs.BaseLemmas Proofs.ContainerProofs Proofs.QuickProofs Model.Quick Model.QuickCost Spec.Sorting.
Open Scope Z_scope.

(** forget the counter *)
Definition er {A} (m : counted A) : outcome A := '(x, _) <- m ;; Ok x.
Lemma er_bind {A B} (m : counted A) (f : A -> counted B) : er (cbind m f) = bind (er m) (fun x => er (f x)).
Proof. destruct m as [[x c]| | |]; cbn; auto. destruct (f x) as [[y d]| | |]; cbn; auto. Qed.
Lemma er_free {A} (m : outcome A) : er (free m) = m.
Proof. destruct m; cbn; auto. Qed.
Lemma er_ok {A} (m : counted A) x : er m = Ok x -> exists c, m = Ok (x, c).
Proof. destruct m as [[y c]| | |]; cbn; intros H; try discriminate. inversion H. eauto. Qed.
Lemma bind_ext {A B} (m : outcome A) (f g : A -> outcome B) : (forall x, f x = g x) -> bind m f = bind m g.
Proof. intros H. destruct m; cbn; auto. Qed.
Definition costs {A} (m : counted A) (b : Z) : Prop := forall x c, m = Ok (x, c) -> 0 <= c <= b.
Lemma costs_bind {A B} (m : counted A) (f : A -> counted B) b1 b2 : costs m b1 -> (forall x, costs (f x) b2) -> costs (cbind m f) (b1 + b2).
Proof.
  intros H1 H2 y c E. destruct m as [[x c1]| | |]; cbn in E; try discriminate. destruct (f x) as [[z c2]| | |] eqn:F; cbn in E; try discriminate.
  injection E as <- <-. pose proof (H1 x c1 eq_refl). pose proof (H2 x z c2 F). lia.
Qed.
Lemma costs_free {A} (m : outcome A) : costs (free m) 0.
Proof. intros x c E. destruct m; cbn in E; try discriminate. injection E as <- <-. lia. Qed.
Lemma costs_ret {A} (x : A) : costs (cret x) 0.
Proof. intros y c E. injection E as <- <-. lia. Qed.
Lemma costs_le {A} (m : counted A) b b' : costs m b -> b <= b' -> costs m b'.
Proof. intros H L x c E. specialize (H x c E). lia. Qed.

Section Cost.
Context {A : Type} (lt gt : A -> A -> bool).
Lemma er_clt x y : er (clt lt x y) = Ok (lt x y). Proof. reflexivity. Qed.
Lemma er_cgt x y : er (cgt gt x y) = Ok (gt x y). Proof. reflexivity. Qed.
Lemma costs_clt x y : costs (clt lt x y) 1. Proof. intros b c E. injection E as <- <-. lia. Qed.
Lemma costs_cgt x y : costs (cgt gt x y) 1. Proof. intros b c E. injection E as <- <-. lia. Qed.
Ltac er1 := repeat (progress (rewrite ?er_bind, ?er_free, ?er_clt, ?er_cgt; cbn [bind])).
Ltac erb := er1; apply bind_ext; intros ?.
Lemma er_median a0 a b c d e : er (cmedian lt a0 a b c d e) = qmedian lt a0 a b c d e.
Proof.
  unfold cmedian, qmedian. do 2 erb. erb. do 2 erb. erb. do 2 erb. erb. do 2 erb. erb. do 2 erb. er1.
  destruct (lt _ _); [do 3 erb|erb]; er1; reflexivity.
Qed.
Lemma er_part fuel : forall a i l h p, er (cpart_loop lt gt fuel a i l h p) = qpart_loop lt gt fuel a i l h p.
Proof.
  induction fuel as [|f IH]; intros a i l h p; cbn [cpart_loop qpart_loop]; destruct (i <=? h); auto. erb. er1. destruct (lt x p); [erb; apply IH|].
  er1. destruct (gt x p); [erb; apply IH|apply IH].
Qed.
Lemma er_partition a l h : er (cpartition lt gt a l h) = qpartition lt gt a l h.
Proof. unfold cpartition, qpartition. rewrite er_bind, er_median. apply bind_ext. intros a'. erb. apply er_part. Qed.
Lemma er_ins fuel : forall a l j t, er (cins_inner lt fuel a l j t) = qins_inner lt fuel a l j t.
Proof.
  induction fuel as [|f IH]; intros a l j t; cbn [cins_inner qins_inner]; destruct (l <? j); auto; erb; er1; destruct (lt t x); auto. erb. apply IH.
Qed.
Lemma er_for {B} (body : Z -> B -> counted B) (body' : Z -> B -> outcome B) : (forall i s, er (body i s) = body' i s) ->
  forall n i s, er (cfor n i body s) = for_loop n i body' s.
Proof. intros H. induction n as [|n IH]; intros i s; cbn [cfor for_loop]; auto. rewrite er_bind, H. apply bind_ext. intros x. apply IH. Qed.
Lemma er_insertion a l h : er (cinsertion lt a l h) = qinsertion lt a l h.
Proof.
  apply er_for. intros i s. erb. rewrite er_bind, er_ins. apply bind_ext. intros [a' j]. apply er_free.
Qed.
Lemma er_sort fuel : forall a l h, er (csort lt gt fuel a l h) = qsort lt gt fuel a l h.
Proof.
  induction fuel as [|f IH]; intros a l h; cbn [csort qsort]; destruct (l <? h); auto; destruct (h - l <? 32); auto using er_insertion.
  rewrite er_bind, er_partition. apply bind_ext. intros [[a' l'] h']. rewrite er_bind, IH. apply bind_ext. intros a''. apply IH.
Qed.
Lemma er_select fuel k : forall a l h, er (cselect lt gt fuel a l h k) = qselect lt gt fuel a l h k.
Proof.
  induction fuel as [|f IH]; intros a l h; cbn [cselect qselect]; destruct (l <? h); auto; destruct (h - l <? 32); auto using er_insertion.
  rewrite er_bind, er_partition. apply bind_ext. intros [[a' l'] h']. destruct (k <? l'); auto. destruct (h' <? k); auto.
Qed.

(** ** costs of the parts *)
Ltac cb := eapply costs_le; [eapply costs_bind; [first [apply costs_free|apply costs_clt|apply costs_cgt]|intros ?]|].
Lemma costs_median a0 a b c d e : costs (cmedian lt a0 a b c d e) 6.
Proof.
  unfold cmedian.
  Ltac cf := match goal with |- costs (cbind _ _) ?n => first [replace n with (0 + n) by reflexivity; apply costs_bind; [apply costs_free|intros ?]|
    replace n with (1 + (n - 1)) by reflexivity; apply costs_bind; [apply costs_clt|intros ?]] end.
  repeat cf. destruct x17; repeat cf; (eapply costs_le; [apply costs_free|lia]).
Qed.
Lemma costs_part fuel : forall a i l h p, i <= h + 1 -> costs (cpart_loop lt gt fuel a i l h p) (2 * (h - i + 1)).
Proof.
  induction fuel as [|f IH]; intros a i l h p Hi; cbn [cpart_loop]; destruct (Z.leb_spec i h); try (eapply costs_le; [apply costs_ret|lia]); [intros x c E; discriminate|].
  eapply costs_le; [eapply costs_bind; [apply costs_free|intros x]; eapply costs_bind; [apply costs_clt|intros t]|].
  - instantiate (1 := 1 + 2 * (h - i)). destruct t.
    + eapply costs_le; [eapply costs_bind; [apply costs_free|intros a'; apply IH; lia]|lia].
    + eapply costs_bind; [apply costs_cgt|intros t]. destruct t; [eapply costs_le; [eapply costs_bind; [apply costs_free|intros a'; apply IH; lia]|lia]|].
      eapply costs_le; [apply IH; lia|lia].
  - lia.
Qed.
Lemma costs_partition a l h : l <= h -> costs (cpartition lt gt a l h) (2 * (h - l + 1) + 6).
Proof.
  intros H. unfold cpartition. eapply costs_le; [eapply costs_bind; [apply costs_median|intros a']; eapply costs_bind; [apply costs_free|intros p; apply costs_part; lia]|lia].
Qed.
Lemma costs_ins fuel : forall a l j t, l <= j -> costs (cins_inner lt fuel a l j t) (j - l).
Proof.
  induction fuel as [|f IH]; intros a l j t Hj; cbn [cins_inner]; destruct (Z.ltb_spec l j); try (eapply costs_le; [apply costs_ret|lia]).
  - eapply costs_le; [eapply costs_bind; [apply costs_free|intros y]; eapply costs_bind; [apply costs_clt|intros b]|].
    + instantiate (1 := 0). destruct b; [intros x c E; discriminate|apply costs_ret].
    + lia.
  - eapply costs_le; [eapply costs_bind; [apply costs_free|intros y]; eapply costs_bind; [apply costs_clt|intros b]|].
    + instantiate (1 := j - l - 1). destruct b; [|eapply costs_le; [apply costs_ret|lia]].
      eapply costs_le; [eapply costs_bind; [apply costs_free|intros a'; apply IH; lia]|lia].
    + lia.
Qed.
(** at most n (n - 1) / 2 comparisons *)
Lemma costs_insertion a l h : l <= h -> costs (cinsertion lt a l h) ((h - l) * (h - l + 1) / 2).
Proof.
  intros H. unfold cinsertion.
  assert (G : forall n i a, l + 1 <= i -> costs (cfor n i (fun i a => t <~ free (get a i) ;; '(a, j) <~ cins_inner lt (Z.to_nat (i - l)) a l i t ;; free (set a j t)) a)
    (((i - l + Z.of_nat n) * (i - l + Z.of_nat n - 1) - (i - l) * (i - l - 1)) / 2)).
  { induction n as [|n IH]; intros i b Hi; cbn [cfor].
    - eapply costs_le; [apply costs_ret|]. rewrite Z.add_0_r, Z.sub_diag. reflexivity.
    - eapply costs_le.
      + eapply costs_bind; [|intros s; apply IH; lia]. eapply costs_bind; [apply costs_free|intros t]. eapply costs_bind; [apply costs_ins; lia|intros [a' j]; apply costs_free].
      + replace (i + 1 - l + Z.of_nat n) with (i - l + Z.of_nat (S n)) by lia. set (e := i - l + Z.of_nat (S n)). set (d := i - l).
        replace (i + 1 - l) with (d + 1) by (unfold d; lia).
        replace (e * (e - 1) - d * (d - 1)) with (e * (e - 1) - (d + 1) * (d + 1 - 1) + d * 2) by ring. rewrite Z.div_add by lia. lia. }
  eapply costs_le; [apply G; lia|]. apply Z.div_le_mono; [lia|]. replace (l + 1 - l + Z.of_nat (Z.to_nat (h - l))) with (h - l + 1) by lia. nia.
Qed.
Lemma costs_insertion32 a l h : l <= h -> h - l < 32 -> costs (cinsertion lt a l h) (16 * (h - l + 1)).
Proof. intros H K. eapply costs_le; [apply costs_insertion; auto|]. apply Z.div_le_upper_bound; [lia|]. nia. Qed.

(** ** few different values *)
Definition few (a : list A) (l h : Z) (d : nat) : Prop :=
  exists reps : list A, (length reps <= d)%nat /\ forall i x, l <= i <= h -> znth a i = Some x -> exists r, In r reps /\ lt x r = false /\ lt r x = false.
Hypothesis W : strict_weak_order lt.
Hypothesis Hg : gt_flips lt gt.
Lemma eq_trans' x y z : lt x y = false -> lt y x = false -> lt y z = false -> lt z y = false -> lt x z = false.
Proof. intros. destruct (lt x z) eqn:E; auto. destruct (swo_negtrans lt W x z y E); congruence. Qed.
(** below (or above) a value that occurs there is one value less *)
Lemma few_less a a' l h l' h' j p d : few a l h (S d) -> sub l h a a' -> l <= l' -> h' <= h -> l <= j <= h -> (exists x, znth a' j = Some x /\ lt x p = false /\ lt p x = false) ->
  (forall i x, l' <= i <= h' -> znth a' i = Some x -> lt x p = true \/ lt p x = true) -> few a' l' h' d.
Proof.
  intros (reps & Hl & R) Hsub Hll Hhh Hj (v & Hv & V1 & V2) Ne.
  assert (R' : forall i x, l <= i <= h -> znth a' i = Some x -> exists r, In r reps /\ lt x r = false /\ lt r x = false).
  { intros i x Hi Hx. destruct Hsub as (_ & _ & _ & S & _). destruct (S i Hi) as (k & Hk & E). apply (R k x); auto. congruence. }
  destruct (R' j v Hj Hv) as (r0 & I0 & A1 & A2). destruct (in_split _ _ I0) as (u & w & ->). exists (u ++ w). rewrite app_length in *. cbn [length] in Hl. split; [lia|].
  intros i x Hi Hx. destruct (R' i x ltac:(lia) Hx) as (r & Ir & B1 & B2). exists r. split; [|auto].
  apply in_app_iff in Ir. apply in_app_iff. destruct Ir as [|[<-|]]; auto. exfalso.
  assert (lt x p = false). { apply (eq_trans' x v p); auto; [apply (eq_trans' x r0 v); auto|apply (eq_trans' v r0 x); auto]. }
  assert (lt p x = false). { apply (eq_trans' p v x); auto; [apply (eq_trans' v r0 x); auto|apply (eq_trans' x r0 v); auto]. }
  destruct (Ne i x Hi Hx); congruence.
Qed.
Lemma few_out a a' l h l' h' d : few a l h d -> sub l' h' a a' -> h < l' \/ h' < l -> few a' l h d.
Proof. intros (reps & Hl & R) (_ & _ & F & _) O. exists reps. split; auto. intros i x Hi Hx. rewrite F in Hx by lia. eauto. Qed.

(** what d nested partitions suffice for *)
Definition within (a : list A) (l h : Z) (d : nat) : Prop := h - l + 1 <= 32 + 3 * Z.of_nat d \/ few a l h d.
Lemma csort_ok d : forall a l h, 0 <= l -> h < zlen a -> within a l h d ->
  exists a' c, csort lt gt d a l h = Ok (a', c) /\ sub l h a a' /\ 0 <= c <= Z.max 0 (h - l + 1) * (3 * Z.of_nat d + 16).
Proof.
  induction d as [|d IH]; intros a l h Hl Hh D.
  - cbn [csort]. destruct (Z.ltb_spec l h). 2:{ exists a, 0. splits; auto using sub_refl; nia. }
    assert (L : h - l < 32). { destruct D as [D|(reps & L & R)]; [lia|]. destruct (znth_in_range a l) as (x & Hx); [lia|]. destruct (R l x ltac:(lia) Hx) as (r & I & _). destruct reps; [destruct I|cbn in L; lia]. }
    destruct (Z.ltb_spec (h - l) 32); [|lia].
    destruct (qinsertion_gen lt a l h) as (a' & E & HS & _); try lia. rewrite <- er_insertion in E. destruct (er_ok _ _ E) as (c & Ec). exists a', c. splits; auto. { apply (costs_insertion32 a l h ltac:(lia) ltac:(lia) a' c Ec). }
    pose proof (costs_insertion32 a l h ltac:(lia) ltac:(lia) a' c Ec). lia.
  - cbn [csort]. destruct (Z.ltb_spec l h). 2:{ exists a, 0. splits; auto using sub_refl; nia. }
    destruct (Z.ltb_spec (h - l) 32).
    { destruct (qinsertion_gen lt a l h) as (a' & E & HS & _); try lia. rewrite <- er_insertion in E. destruct (er_ok _ _ E) as (c & Ec). exists a', c.
      pose proof (costs_insertion32 a l h ltac:(lia) ltac:(lia) a' c Ec). splits; auto; nia. }
    destruct (qpartition_ok lt gt (swo_irrefl lt W) (fun x => eq_trans (Hg x x) (swo_irrefl lt W x)) a l h W Hg) as (p & a2 & l' & h' & E & HS & R1 & R2 & R3 & Z1 & Z2 & Z3 & B1 & B2); try lia.
    rewrite <- er_partition in E. destruct (er_ok _ _ E) as (c1 & Ec1). rewrite Ec1. pose proof (costs_partition a l h ltac:(lia) _ _ Ec1) as C1.
    pose proof (sub_len _ _ _ _ HS) as L2. unfold cbind at 1. cbn [bind].
    assert (Mid : exists x, znth a2 l' = Some x /\ lt x p = false /\ lt p x = false).
    { destruct (znth_in_range a2 l') as (x & Hx); [lia|]. exists x. split; auto. apply (Z2 l' x); auto; lia. }
    destruct (IH a2 l (l' - 1)) as (a3 & c2 & E3 & HS3 & C2); try lia.
    { destruct D as [D|D]; [left; lia|right]. eapply (few_less a a2 l h l (l' - 1) l'); eauto; try lia; intros i x Hi Hx; left; apply (Z1 i x); auto. }
    rewrite E3. pose proof (sub_len _ _ _ _ HS3) as L3. unfold cbind at 1. cbn [bind].
    destruct (IH a3 (h' + 1) h) as (a4 & c3 & E4 & HS4 & C3); try lia.
    { destruct D as [D|D]; [left; lia|right]. eapply few_out; [|exact HS3|lia]. eapply (few_less a a2 l h (h' + 1) h l'); eauto; try lia; intros i x Hi Hx; right; apply (Z3 i x); auto. }
    rewrite E4. cbn [bind]. exists a4, (c1 + (c2 + c3)). splits; auto.
    + eapply sub_trans; [eauto|]. eapply sub_trans; eapply sub_weaken; eauto; lia.
    + lia.
    + rewrite Nat2Z.inj_succ. set (k := Z.of_nat d) in *. assert (0 <= k) by (unfold k; lia).
      assert (Z.max 0 (l' - 1 - l + 1) + Z.max 0 (h - (h' + 1) + 1) <= h - l) by lia.
      assert (Z.max 0 (l' - 1 - l + 1) * (3 * k + 16) + Z.max 0 (h - (h' + 1) + 1) * (3 * k + 16) <= (h - l) * (3 * k + 16)) by (rewrite <- Z.mul_add_distr_r; apply Z.mul_le_mono_nonneg_r; lia).
      replace (Z.max 0 (h - l + 1)) with (h - l + 1) by lia. replace (3 * Z.succ k + 16) with (3 * k + 16 + 3) by lia. nia.
Qed.
Lemma cselect_ok k d : forall a l h, 0 <= l -> h < zlen a -> within a l h d -> l <= k <= h ->
  exists a' c, cselect lt gt d a l h k = Ok (a', c) /\ sub l h a a' /\ 0 <= c <= (h - l + 1) * (3 * Z.of_nat d + 16).
Proof.
  induction d as [|d IH]; intros a l h Hl Hh D Hk.
  - cbn [cselect]. destruct (Z.ltb_spec l h). 2:{ exists a, 0. splits; auto using sub_refl; nia. }
    assert (L : h - l < 32). { destruct D as [D|(reps & L & R)]; [lia|]. destruct (znth_in_range a l) as (x & Hx); [lia|]. destruct (R l x ltac:(lia) Hx) as (r & I & _). destruct reps; [destruct I|cbn in L; lia]. }
    destruct (Z.ltb_spec (h - l) 32); [|lia].
    destruct (qinsertion_gen lt a l h) as (a' & E & HS & _); try lia. rewrite <- er_insertion in E. destruct (er_ok _ _ E) as (c & Ec). exists a', c.
    pose proof (costs_insertion32 a l h ltac:(lia) ltac:(lia) a' c Ec). splits; auto; lia.
  - cbn [cselect]. destruct (Z.ltb_spec l h). 2:{ exists a, 0. splits; auto using sub_refl; nia. }
    destruct (Z.ltb_spec (h - l) 32).
    { destruct (qinsertion_gen lt a l h) as (a' & E & HS & _); try lia. rewrite <- er_insertion in E. destruct (er_ok _ _ E) as (c & Ec). exists a', c.
      pose proof (costs_insertion32 a l h ltac:(lia) ltac:(lia) a' c Ec). splits; auto; nia. }
    destruct (qpartition_ok lt gt (swo_irrefl lt W) (fun x => eq_trans (Hg x x) (swo_irrefl lt W x)) a l h W Hg) as (p & a2 & l' & h' & E & HS & R1 & R2 & R3 & Z1 & Z2 & Z3 & B1 & B2); try lia.
    rewrite <- er_partition in E. destruct (er_ok _ _ E) as (c1 & Ec1). rewrite Ec1. pose proof (costs_partition a l h ltac:(lia) _ _ Ec1) as C1.
    pose proof (sub_len _ _ _ _ HS) as L2. unfold cbind at 1. cbn [bind].
    assert (Mid : exists x, znth a2 l' = Some x /\ lt x p = false /\ lt p x = false).
    { destruct (znth_in_range a2 l') as (x & Hx); [lia|]. exists x. split; auto. apply (Z2 l' x); auto; lia. }
    assert (Cost : forall a3 c2 w, w <= h - l -> 0 <= c2 <= w * (3 * Z.of_nat d + 16) -> 0 <= w -> sub l h a2 a3 ->
      exists a' c, ('(y, d0) <- Ok (a3, c2) ;; Ok (y, c1 + d0)) = Ok (a', c) /\ sub l h a a' /\ 0 <= c <= (h - l + 1) * (3 * Z.of_nat (S d) + 16)).
    { intros a3 c2 w Hw Hc W0 HS3. exists a3, (c1 + c2). split; [reflexivity|]. split; [eapply sub_trans; eauto|]. rewrite Nat2Z.inj_succ. nia. }
    destruct (Z.ltb_spec k l').
    + destruct (IH a2 l (l' - 1)) as (a3 & c2 & E3 & HS3 & C2); try lia.
      { destruct D as [D|D]; [left; lia|right]. eapply (few_less a a2 l h l (l' - 1) l'); eauto; try lia; intros i x Hi Hx; left; apply (Z1 i x); auto. }
      rewrite E3. apply (Cost a3 c2 (l' - 1 - l + 1)); try lia. eapply sub_weaken; eauto; lia.
    + destruct (Z.ltb_spec h' k).
      * destruct (IH a2 (h' + 1) h) as (a3 & c2 & E3 & HS3 & C2); try lia.
        { destruct D as [D|D]; [left; lia|right]. eapply (few_less a a2 l h (h' + 1) h l'); eauto; try lia; intros i x Hi Hx; right; apply (Z3 i x); auto. }
        rewrite E3. apply (Cost a3 c2 (h - (h' + 1) + 1)); try lia. eapply sub_weaken; eauto; lia.
      * unfold cret. apply (Cost a2 0 0); try lia. apply sub_refl.
Qed.

(** more fuel does not change the result *)
Lemma csort_more d : forall d' a l h r, (d <= d')%nat -> csort lt gt d a l h = Ok r -> csort lt gt d' a l h = Ok r.
Proof.
  induction d as [|d IH]; intros d' a l h r Hd E.
  - destruct d'; auto. cbn [csort] in *. destruct (l <? h); auto. destruct (h - l <? 32); auto. discriminate.
  - destruct d' as [|d']; [lia|]. cbn [csort] in *. destruct (l <? h); auto. destruct (h - l <? 32); auto.
    destruct (cpartition lt gt a l h) as [[[[a1 l1] h1] c1]| | |]; unfold cbind in *; cbn [bind] in *; try discriminate.
    destruct (csort lt gt d a1 l (l1 - 1)) as [[a2 c2]| | |] eqn:E2; cbn [bind] in *; try discriminate. rewrite (IH d' _ _ _ _ ltac:(lia) E2). cbn [bind].
    destruct (csort lt gt d a2 (h1 + 1) h) as [[a3 c3]| | |] eqn:E3; cbn [bind] in *; try discriminate. rewrite (IH d' _ _ _ _ ltac:(lia) E3). exact E.
Qed.
Lemma cselect_more k d : forall d' a l h r, (d <= d')%nat -> cselect lt gt d a l h k = Ok r -> cselect lt gt d' a l h k = Ok r.
Proof.
  induction d as [|d IH]; intros d' a l h r Hd E.
  - destruct d'; auto. cbn [cselect] in *. destruct (l <? h); auto. destruct (h - l <? 32); auto. discriminate.
  - destruct d' as [|d']; [lia|]. cbn [cselect] in *. destruct (l <? h); auto. destruct (h - l <? 32); auto.
    destruct (cpartition lt gt a l h) as [[[[a1 l1] h1] c1]| | |]; unfold cbind in *; cbn [bind] in *; try discriminate.
    destruct (k <? l1).
    + destruct (cselect lt gt d a1 l (l1 - 1) k) as [[a2 c2]| | |] eqn:E2; cbn [bind] in *; try discriminate. rewrite (IH d' _ _ _ _ ltac:(lia) E2). exact E.
    + destruct (h1 <? k); auto. destruct (cselect lt gt d a1 (h1 + 1) h k) as [[a2 c2]| | |] eqn:E2; cbn [bind] in *; try discriminate. rewrite (IH d' _ _ _ _ ltac:(lia) E2). exact E.
Qed.
End Cost.
