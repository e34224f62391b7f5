(* C98 quick.hh: number of comparisons and recursion depth *)
From Coq Require Import Permutation.
From Verif Require Import Proofs.BaseLemmas Proofs.QuickProofs Model.Quick Model.QuickCost Proofs.QuickCostProofs Proofs.QuickWorst Spec.Sorting.
Open Scope Z_scope.

(** The counting model makes the same steps as the model without counter. *)
Theorem C98_counts_quick_sort : forall (A : Type) (lt gt : A -> A -> bool) (a : list A) (n : Z) (a' : list A),
  quick_sort lt gt a n = Ok a' <-> exists c, quick_sort_count lt gt a n = Ok (a', c).
Proof.
  intros. unfold quick_sort, quick_sort_count. rewrite <- er_sort. split; [apply er_ok|]. intros (c & ->). reflexivity.
Qed.
Print Assumptions C98_counts_quick_sort.
Theorem C98_counts_quick_select : forall (A : Type) (lt gt : A -> A -> bool) (a : list A) (k n : Z) (a' : list A) (v : A),
  quick_select lt gt a k n = Ok (a', v) <-> exists c, quick_select_count lt gt a k n = Ok ((a', v), c).
Proof.
  intros. assert (E : quick_select lt gt a k n = er (quick_select_count lt gt a k n)).
  { unfold quick_select, quick_select_count. rewrite er_bind, er_free. apply bind_ext. intros []. rewrite er_bind, er_select. apply bind_ext. intros b. rewrite er_bind, er_free. apply bind_ext. reflexivity. }
  rewrite E. split; [apply er_ok|]. intros (c & ->). reflexivity.
Qed.
Print Assumptions C98_counts_quick_select.

Lemma within_of {A} (lt : A -> A -> bool) a n d : 0 <= n <= zlen a -> n <= 32 + 3 * Z.of_nat d \/ at_most_different lt d (firstn (Z.to_nat n) a) -> within lt a 0 (n - 1) d.
Proof.
  intros Hn [H|(reps & Hl & R)]; [left; lia|right]. exists reps. split; auto. intros i x Hi Hx. apply R.
  rewrite znth_nonneg in Hx by lia. apply (nth_error_In _ (Z.to_nat i)). rewrite nth_error_firstn by lia. exact Hx.
Qed.
(** Sorting n elements takes at most n (3 d + 16) comparisons and at most d nested partitions (the second argument of
    [qsort] bounds the nesting), where n <= 32 + 3 d, or d bounds the number of different values. *)
Theorem C98_sort : forall (A : Type) (lt : A -> A -> bool), strict_weak_order lt ->
  forall (a : list A) (n : Z) (d : nat), 0 <= n <= zlen a -> n <= 32 + 3 * Z.of_nat d \/ at_most_different lt d (firstn (Z.to_nat n) a) ->
  exists a' c, quick_sort_count lt (fun x y => lt y x) a n = Ok (a', c) /\ qsort lt (fun x y => lt y x) d a 0 (n - 1) = Ok a' /\ 0 <= c <= n * (3 * Z.of_nat d + 16).
Proof.
  intros A lt W a n d Hn Hd.
  destruct (csort_ok lt (fun x y => lt y x) W ltac:(red; auto) d a 0 (n - 1) ltac:(lia) ltac:(lia) (within_of lt a n d Hn Hd)) as (a' & c & E & _ & Hc).
  replace (n - 1 - 0 + 1) with n in Hc by lia. rewrite Z.max_r in Hc by lia. exists a', c. split; [|split; [rewrite <- er_sort, E; reflexivity|exact Hc]].
  destruct (quick_sort_ok lt (fun x y => lt y x) (swo_irrefl lt W) (swo_irrefl lt W) a n Hn) as (b & Eb & _). apply C98_counts_quick_sort in Eb. destruct Eb as (cb & Eb).
  unfold quick_sort_count in *. destruct (Nat.le_ge_cases d (Z.to_nat n)) as [L|L].
  - exact (csort_more _ _ d _ _ _ _ _ L E).
  - rewrite Eb. pose proof (csort_more _ _ (Z.to_nat n) d _ _ _ _ L Eb) as Q. congruence.
Qed.
Print Assumptions C98_sort.

Theorem C98_select : forall (A : Type) (lt : A -> A -> bool), strict_weak_order lt ->
  forall (a : list A) (k n : Z) (d : nat), 0 <= k < n -> n <= zlen a -> n <= 32 + 3 * Z.of_nat d \/ at_most_different lt d (firstn (Z.to_nat n) a) ->
  exists a' v c, quick_select_count lt (fun x y => lt y x) a k n = Ok ((a', v), c) /\ qselect lt (fun x y => lt y x) d a 0 (n - 1) k = Ok a' /\ 0 <= c <= n * (3 * Z.of_nat d + 16).
Proof.
  intros A lt W a k n d Hk Hn Hd.
  destruct (cselect_ok lt (fun x y => lt y x) W ltac:(red; auto) k d a 0 (n - 1) ltac:(lia) ltac:(lia) (within_of lt a n d ltac:(lia) Hd) ltac:(lia)) as (a' & c & E & S & Hc).
  replace (n - 1 - 0 + 1) with n in Hc by lia. destruct (znth_in_range a' k) as (v & Hv). { apply sub_len in S. lia. }
  exists a', v, c. split; [|split; [rewrite <- er_select, E; reflexivity|exact Hc]].
  assert (En : cselect lt (fun x y => lt y x) (Z.to_nat n) a 0 (n - 1) k = Ok (a', c)).
  { destruct (quick_select_ok lt (fun x y => lt y x) (swo_irrefl lt W) (swo_irrefl lt W) a k n ltac:(lia) ltac:(lia)) as (b & w & Eb & _). apply C98_counts_quick_select in Eb. destruct Eb as (cb & Eb).
    unfold quick_select_count in Eb. destruct (cassert _) as [[]| | |]; cbn [free cbind bind] in Eb; try discriminate.
    destruct (cselect _ _ (Z.to_nat n) a 0 (n - 1) k) as [[r cr]| | |] eqn:Er; cbn [cbind bind] in Eb; try discriminate.
    destruct (Nat.le_ge_cases d (Z.to_nat n)) as [L|L].
    - pose proof (cselect_more _ _ k d _ _ _ _ _ L E). congruence.
    - pose proof (cselect_more _ _ k (Z.to_nat n) d _ _ _ _ L Er). congruence. }
  unfold quick_select_count. destruct (Z.eqb_spec n 0); [lia|]. destruct (Z.ltb_spec k n); [|lia]. cbn [negb andb cassert free cbind bind]. rewrite En. cbn [cbind bind].
  rewrite (get_Some _ _ _ Hv). cbn [free cbind bind cret]. rewrite Z.add_0_l, Z.add_0_r. reflexivity.
Qed.
Print Assumptions C98_select.

(** Both bounds cannot be improved in general: for every d there are 33 + 3 d different numbers on which quick_sort needs
    more than d nested partitions, and it makes at least (n - 30)(n + 33) / 6 comparisons: it does not take n log n. *)
Theorem C98_sort_worst : forall d : nat, exists X : list Z, zlen X = 33 + 3 * Z.of_nat d /\
  (forall D r, qsort Z.ltb (fun x y => Z.ltb y x) D X 0 (zlen X - 1) = Ok r -> (d < D)%nat) /\
  exists a' c, quick_sort_count Z.ltb (fun x y => Z.ltb y x) X (zlen X) = Ok (a', c) /\ (zlen X - 30) * (zlen X + 33) <= 6 * c.
Proof.
  intros d. destruct (worst d [] 0) as (X & L & _ & H). exists X. assert (ZX : zlen X = 33 + 3 * Z.of_nat d) by (unfold zlen; lia).
  cbn [app] in H. change (zlen (@nil Z)) with 0 in H. rewrite Z.add_0_l in H. split; [exact ZX|]. split.
  - intros D r E. rewrite <- er_sort in E. destruct (er_ok _ _ E) as (c & Ec). apply (H D r c Ec).
  - destruct (C98_sort Z Z.ltb Z_swo X (zlen X) (S d)) as (a' & c & E & _); [lia|lia|]. exists a', c. split; [exact E|]. destruct (H _ _ _ E) as [_ Hc].
    assert (exists e, Z.of_nat d * (Z.of_nat d + 1) = 2 * e) as (e & He). { destruct (Z.Even_or_Odd (Z.of_nat d)) as [[e ->]|[e ->]]; [exists (e * (2 * e + 1))|exists ((2 * e + 1) * (e + 1))]; ring. }
    replace (3 * (Z.of_nat d * (Z.of_nat d + 1))) with (3 * e * 2) in Hc by lia. rewrite Z.div_mul in Hc by lia. rewrite ZX. nia.
Qed.
Print Assumptions C98_sort_worst.
(** quick_select likewise does not take linear time *)
Theorem C98_select_worst : forall d : nat, exists X : list Z, zlen X = 33 + 3 * Z.of_nat d /\
  (forall D r, qselect Z.ltb (fun x y => Z.ltb y x) D X 0 (zlen X - 1) (zlen X - 1) = Ok r -> (d < D)%nat) /\
  exists a' v c, quick_select_count Z.ltb (fun x y => Z.ltb y x) X (zlen X - 1) (zlen X) = Ok ((a', v), c) /\ (zlen X - 30) * (zlen X + 33) <= 6 * c.
Proof.
  intros d. destruct (worst_select d [] 0) as (X & L & _ & H). exists X. assert (ZX : zlen X = 33 + 3 * Z.of_nat d) by (unfold zlen; lia).
  cbn [app] in H. change (zlen (@nil Z)) with 0 in H. rewrite Z.add_0_l in H. split; [exact ZX|]. split.
  - intros D r E. rewrite <- er_select in E. destruct (er_ok _ _ E) as (c & Ec). apply (H D r c Ec).
  - destruct (C98_select Z Z.ltb Z_swo X (zlen X - 1) (zlen X) (S d)) as (a' & v & c & E & _); [lia|lia|lia|]. exists a', v, c. split; [exact E|].
    unfold quick_select_count in E. destruct (cassert _) as [[]| | |]; cbn [free cbind bind] in E; try discriminate.
    destruct (cselect _ _ _ X _ _ _) as [[r cr]| | |] eqn:Er; cbn [cbind bind] in E; try discriminate. destruct (get r _) as [w| | |]; cbn [free cbind bind cret] in E; try discriminate.
    apply okp in E. destruct E as [_ E]. destruct (H _ _ _ Er) as [_ Hc].
    assert (exists e, Z.of_nat d * (Z.of_nat d + 1) = 2 * e) as (e & He). { destruct (Z.Even_or_Odd (Z.of_nat d)) as [[e ->]|[e ->]]; [exists (e * (2 * e + 1))|exists ((2 * e + 1) * (e + 1))]; ring. }
    replace (3 * (Z.of_nat d * (Z.of_nat d + 1))) with (3 * e * 2) in Hc by lia. rewrite Z.div_mul in Hc by lia. rewrite ZX. nia.
Qed.
Print Assumptions C98_select_worst.

(** 62 numbers for which the depth bound is attained: ten nested partitions, not nine *)
Definition anti62 : list Z :=
  [0; 52; 38; 58; 3; 53; 60; 30; 6; 54; 31; 57; 9; 55; 22; 1; 12; 56; 4; 21; 15; 7; 33; 43; 18; 10; 35; 40; 13; 59; 45; 16; 24; 37; 19; 48; 27; 62; 41; 34;
   42; 25; 32; 44; 28; 2; 36; 5; 8; 39; 49; 11; 14; 51; 17; 20; 46; 47; 23; 26; 50; 29].
Example C98_example_depth :
  qsort Z.ltb (fun x y => Z.ltb y x) 9 anti62 0 61 = NoFuel /\ (exists r, qsort Z.ltb (fun x y => Z.ltb y x) 10 anti62 0 61 = Ok r) /\ 62 <= 32 + 3 * Z.of_nat 10.
Proof. split; [vm_compute; reflexivity|]. split; [eexists; vm_compute; reflexivity|lia]. Qed.
(** 200 numbers, three different ones: three nested partitions suffice *)
Definition three200 : list Z := map (fun i => Z.of_nat (i * i) mod 3 + Z.of_nat i mod 2) (seq 0 200).
Example C98_example_few : at_most_different Z.ltb 3 three200 /\ (exists r, qsort Z.ltb (fun x y => Z.ltb y x) 3 three200 0 199 = Ok r) /\
  exists r c, quick_sort_count Z.ltb (fun x y => Z.ltb y x) three200 200 = Ok (r, c) /\ c <= 5000 /\ 0 < c.
Proof.
  split.
  - exists [0; 1; 2]. split; [cbn; lia|]. intros x Hx. exists x. rewrite Z.ltb_irrefl. split; [|auto]. unfold three200 in Hx. apply in_map_iff in Hx. destruct Hx as (i & <- & _).
    rewrite Nat2Z.inj_mul. set (z := Z.of_nat i). pose proof (Z.mod_pos_bound z 2 ltac:(lia)). rewrite Zmult_mod. pose proof (Z.mod_pos_bound z 3 ltac:(lia)).
    assert (((z mod 3) * (z mod 3)) mod 3 = 0 \/ ((z mod 3) * (z mod 3)) mod 3 = 1) as [-> | ->].
    { assert (z mod 3 = 0 \/ z mod 3 = 1 \/ z mod 3 = 2) as [-> | [-> | ->]] by lia; cbn; auto. }
    all: assert (z mod 2 = 0 \/ z mod 2 = 1) as [-> | ->] by lia; cbn; auto.
  - split; [eexists; vm_compute; reflexivity|]. eexists _, _. split; [vm_compute; reflexivity|]. lia.
Qed.

(** The parts: the median of five is found with exactly six comparisons, and sorting n elements into smaller, equal and
    greater ones takes at least n and at most 2 n more. *)
Definition least {A} (m : counted A) (b : Z) : Prop := forall x c, m = Ok (x, c) -> b <= c.
Lemma least_bind {A B} (m : counted A) (f : A -> counted B) b1 b2 : least m b1 -> (forall x, least (f x) b2) -> least (cbind m f) (b1 + b2).
Proof.
  intros H1 H2 y c E. destruct m as [[x c1]| | |]; cbn in E; try discriminate. destruct (f x) as [[z c2]| | |] eqn:F; cbn in E; try discriminate.
  injection E as <- <-. pose proof (H1 x c1 eq_refl). pose proof (H2 x z c2 F). lia.
Qed.
Lemma least_free {A} (m : outcome A) : least (free m) 0.
Proof. intros x c E. destruct m; cbn in E; try discriminate. injection E as <- <-. lia. Qed.
Lemma least_one (b : bool) : least (Ok (b, 1)) 1. Proof. intros x c E. injection E as <- <-. lia. Qed.
Lemma least_le {A} (m : counted A) b b' : least m b -> b' <= b -> least m b'.
Proof. intros H L x c E. specialize (H x c E). lia. Qed.
Lemma least_part {A} (lt gt : A -> A -> bool) fuel : forall a i l h p, least (cpart_loop lt gt fuel a i l h p) (h - i + 1).
Proof.
  induction fuel as [|f IH]; intros a i l h p; cbn [cpart_loop]; destruct (Z.leb_spec i h); try (intros x c E; injection E as <- <-; lia); [intros x c E; discriminate|].
  eapply least_le; [eapply least_bind; [apply least_free|intros x]; eapply least_bind; [apply least_one|intros t]|].
  - instantiate (1 := h - i). destruct t.
    + eapply least_le; [eapply least_bind; [apply least_free|intros a'; apply IH]|lia].
    + eapply least_le; [eapply least_bind; [apply least_one|intros t]|instantiate (1 := h - i); lia]. destruct t; [eapply least_le; [eapply least_bind; [apply least_free|intros a'; apply IH]|lia]|].
      eapply least_le; [apply IH|lia].
  - lia.
Qed.
Lemma least_median {A} (lt : A -> A -> bool) a0 a b c d e : least (cmedian lt a0 a b c d e) 6.
Proof.
  unfold cmedian.
  Ltac lf := match goal with |- least (cbind _ _) ?n => first [replace n with (0 + n) by reflexivity; apply least_bind; [apply least_free|intros ?]|
    replace n with (1 + (n - 1)) by reflexivity; apply least_bind; [apply least_one|intros ?]] end.
  repeat lf. destruct x17; repeat lf; (eapply least_le; [apply least_free|lia]).
Qed.
Theorem C98_median : forall (A : Type) (lt : A -> A -> bool) (x y : list A) (a b c d e n : Z), cmedian lt x a b c d e = Ok (y, n) -> n = 6.
Proof. intros A lt x y a b c d e n H. pose proof (costs_median lt x a b c d e y n H). pose proof (least_median lt x a b c d e y n H). lia. Qed.
Print Assumptions C98_median.
Theorem C98_partition : forall (A : Type) (lt gt : A -> A -> bool) (a a' : list A) (l h l' h' n : Z), l <= h -> cpartition lt gt a l h = Ok (a', l', h', n) ->
  (h - l + 1) + 6 <= n <= 2 * (h - l + 1) + 6.
Proof.
  intros A lt gt a a' l h l' h' n H E. pose proof (costs_partition lt gt a l h H _ _ E). split; [|lia].
  assert (L : least (cpartition lt gt a l h) (6 + (0 + (h - l + 1)))) by (unfold cpartition; eapply least_bind; [apply least_median|intros b]; eapply least_bind; [apply least_free|intros p]; apply least_part).
  specialize (L _ _ E). lia.
Qed.
Print Assumptions C98_partition.
(** both bounds are attained *)
Example C98_partition_case : (exists r, cpartition Z.ltb (fun x y => Z.ltb y x) [1; 1; 1; 1; 1; 1; 1] 0 6 = Ok (r, 20)) /\
  (exists r, cpartition (fun _ _ => true) (fun _ _ => true) [1; 2; 3; 4; 5; 6; 9] 0 6 = Ok (r, 13)).
Proof. split; eexists; vm_compute; reflexivity. Qed.
