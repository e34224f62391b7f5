(* C12 quick_sort, C13 quick_select, C14 partial orders, C15 median of five *)
From Coq Require Import Permutation.
From Verif Require Import Proofs.BaseLemmas Proofs.QuickProofs Model.Quick Spec.Sorting.
Open Scope Z_scope.

(** C12: quick_sort(a, n) on an array of at least n cells (in particular of exactly n cells, where any
    access outside would be [Undefined]) terminates, sorts the first n cells and leaves the rest alone.
    [fun x y => lt y x] is the type's operator >. *)
Theorem C12_quick_sort_sorts :
  forall (A : Type) (lt : A -> A -> bool), strict_weak_order lt ->
  forall (a : list A) (n : Z), 0 <= n <= zlen a ->
  exists a', quick_sort lt (fun x y => lt y x) a n = Ok a' /\
    ascending lt (firstn (Z.to_nat n) a') /\
    Permutation (firstn (Z.to_nat n) a) (firstn (Z.to_nat n) a') /\
    skipn (Z.to_nat n) a' = skipn (Z.to_nat n) a.
Proof.
  intros A lt W a n Hn.
  destruct (quick_sort_ok lt (fun x y => lt y x) (swo_irrefl lt W) (swo_irrefl lt W) a n Hn) as (a' & E & P & F & S).
  exists a'. splits; auto. apply S; auto. red; auto.
Qed.
Print Assumptions C12_quick_sort_sorts.

Lemma Zltb_swo : strict_weak_order Z.ltb.
Proof. split; intros; rewrite ?Z.ltb_lt, ?Z.ltb_ge in *; lia. Qed.

Definition mixed40 : list Z := map (fun i => (Z.of_nat i * 17 + 5) mod 23) (seq 0 40).
Example C12_example :
  quick_sort Z.ltb (fun x y => Z.ltb y x) (mixed40 ++ [99; 1]) 40
  = Ok [0; 1; 1; 2; 2; 3; 3; 4; 4; 5; 5; 6; 7; 7; 8; 8; 9; 9; 10; 10; 11; 12; 13; 13; 14; 14; 15; 15;
        16; 16; 17; 18; 19; 19; 20; 20; 21; 21; 22; 22; 99; 1].
Proof. vm_compute. reflexivity. Qed.

(** C13: quick_select(a, k, n) returns the k-th smallest value, leaves it at a[k] with nothing larger
    before and nothing smaller after; it asserts on n = 0 and on k >= n. *)
Theorem C13_quick_select_kth_smallest :
  forall (A : Type) (lt : A -> A -> bool), strict_weak_order lt ->
  forall (a : list A) (k n : Z), 0 <= k < n -> n <= zlen a ->
  exists a' v, quick_select lt (fun x y => lt y x) a k n = Ok (a', v) /\
    kth_smallest lt (Z.to_nat k) (firstn (Z.to_nat n) a) v /\
    znth a' k = Some v /\
    (forall i x, 0 <= i < k -> znth a' i = Some x -> lt v x = false) /\
    (forall i x, k < i < n -> znth a' i = Some x -> lt x v = false) /\
    Permutation (firstn (Z.to_nat n) a) (firstn (Z.to_nat n) a') /\
    skipn (Z.to_nat n) a' = skipn (Z.to_nat n) a.
Proof.
  intros A lt W a k n Hk Hn.
  destruct (quick_select_ok lt (fun x y => lt y x) (swo_irrefl lt W) (swo_irrefl lt W) a k n Hk Hn) as (a' & v & E & Hv & P & F & S).
  destruct S as (S1 & S2 & S3); auto. { red; auto. }
  exists a', v. splits; auto.
Qed.
Print Assumptions C13_quick_select_kth_smallest.

(** the k-th smallest value is unique up to equivalence, and is what sorting would put at k *)
Theorem C13_kth_smallest_is_sorted_kth :
  forall (A : Type) (lt : A -> A -> bool), strict_weak_order lt ->
  forall (l s : list A) (k : nat) (v w : A),
    kth_smallest lt k l v -> Permutation l s -> ascending lt s -> nth_error s k = Some w ->
    lt v w = false /\ lt w v = false.
Proof. exact @kth_sorted. Qed.
Print Assumptions C13_kth_smallest_is_sorted_kth.

Theorem C13_quick_select_asserts :
  forall (A : Type) (lt gt : A -> A -> bool) (a : list A) (k n : Z),
    n = 0 \/ n <= k -> quick_select lt gt a k n = AssertFail.
Proof. exact @quick_select_asserts. Qed.
Print Assumptions C13_quick_select_asserts.

Example C13_example :
  exists r, quick_select Z.ltb (fun x y => Z.ltb y x) mixed40 20 40 = Ok (r, 11) /\ zlen r = 40.
Proof. eexists. split; [vm_compute; reflexivity|]. vm_compute; reflexivity. Qed.
Example C13_example_assert : quick_select Z.ltb (fun x y => Z.ltb y x) [3; 1] 2 2 = AssertFail.
Proof. reflexivity. Qed.

(** C14: for operators < and > that are merely irreflexive both functions terminate without an access
    outside the array (take n = zlen a) and return a permutation. *)
Theorem C14_sort_and_select_safe_for_any_comparison :
  forall (A : Type) (lt gt : A -> A -> bool),
  (forall x, lt x x = false) -> (forall x, gt x x = false) ->
  forall (a : list A) (n : Z), 0 <= n <= zlen a ->
  (exists a', quick_sort lt gt a n = Ok a' /\
    Permutation (firstn (Z.to_nat n) a) (firstn (Z.to_nat n) a') /\
    skipn (Z.to_nat n) a' = skipn (Z.to_nat n) a) /\
  (forall k, 0 <= k < n -> exists a' v, quick_select lt gt a k n = Ok (a', v) /\ znth a' k = Some v /\
    Permutation (firstn (Z.to_nat n) a) (firstn (Z.to_nat n) a') /\
    skipn (Z.to_nat n) a' = skipn (Z.to_nat n) a).
Proof.
  intros A lt gt I1 I2 a n Hn. split.
  - destruct (quick_sort_ok lt gt I1 I2 a n Hn) as (a' & E & P & F & _). eauto.
  - intros k Hk. destruct (quick_select_ok lt gt I1 I2 a k n Hk ltac:(lia)) as (a' & v & E & Hv & P & F & _).
    exists a', v. auto.
Qed.
Print Assumptions C14_sort_and_select_safe_for_any_comparison.

(** NaN-like elements ([None]) compare false with everything: not a strict weak order *)
Definition nan_lt (x y : option Z) := match x, y with Some a, Some b => a <? b | _, _ => false end.
Example C14_nan_not_swo : ~ strict_weak_order nan_lt.
Proof. intros [_ _ H]. destruct (H (Some 1) (Some 2) None eq_refl); discriminate. Qed.
Example C14_example :
  (forall x, nan_lt x x = false) /\
  exists r, quick_sort nan_lt (fun x y => nan_lt y x) (map (fun z => if z =? 7 then None else Some z) mixed40) 40 = Ok r /\ zlen r = 40.
Proof.
  split. { intros [z|]; simpl; auto. apply Z.ltb_irrefl. }
  eexists. split; [vm_compute; reflexivity|]. reflexivity.
Qed.

(** without irreflexivity (a mistaken operator <=) the routine would not be safe *)
Example C14_irreflexivity_needed :
  quick_sort Z.leb (fun x y => Z.leb y x) (repeat 1 40) 40 = NoFuel.
Proof. vm_compute. reflexivity. Qed.

(** C15: the median helper *)
Theorem C15_median_of_five :
  forall (A : Type) (lt : A -> A -> bool), strict_weak_order lt ->
  forall (X : list A) (a b c d e : Z),
    (forall i, In i [a; b; c; d; e] -> 0 <= i < zlen X) -> NoDup [a; b; c; d; e] ->
  exists Y va vb vc vd ve, qmedian lt X a b c d e = Ok Y /\
    Permutation X Y /\ (forall i, ~ In i [a; b; c; d; e] -> znth Y i = znth X i) /\
    znth Y a = Some va /\ znth Y b = Some vb /\ znth Y c = Some vc /\ znth Y d = Some vd /\ znth Y e = Some ve /\
    lt vc va = false /\ lt vc vb = false /\ lt vd vc = false /\ lt ve vc = false.
Proof.
  intros A lt W X a b c d e Hin ND.
  destruct (qmedian_median lt (fun x y => lt y x) X a b c d e 0 (zlen X - 1)) as (Y & va & vb & vc & vd & ve & E & (S & F) & R); auto; try lia;
    try (match goal with |- inr _ _ ?z => assert (0 <= z < zlen X) by (apply Hin; simpl; tauto); unfold inr; lia end).
  exists Y, va, vb, vc, vd, ve. split; auto. split; [apply S|]. split; auto.
Qed.
Print Assumptions C15_median_of_five.

Example C15_example : qmedian Z.ltb [50; 10; 40; 20; 30; 99] 0 1 2 3 4 = Ok [10; 20; 30; 50; 40; 99].
Proof. reflexivity. Qed.

(** C15: a partition step on h-l+1 >= 33 cells splits three ways around a pivot value p; both recursive
    calls (on l..lt-1 and gt+1..h) leave out at least three cells. *)
Theorem C15_partition_three_way_and_balanced :
  forall (A : Type) (lt : A -> A -> bool), strict_weak_order lt ->
  forall (a : list A) (l h : Z), 0 <= l -> h < zlen a -> 32 <= h - l ->
  exists p a' l' h', qpartition lt (fun x y => lt y x) a l h = Ok (a', l', h') /\
    l <= l' <= h' /\ h' <= h /\
    Permutation a a' /\ (forall i, ~ (l <= i <= h) -> znth a' i = znth a i) /\
    (forall i x, l <= i < l' -> znth a' i = Some x -> lt x p = true) /\
    (forall i x, l' <= i <= h' -> znth a' i = Some x -> lt x p = false /\ lt p x = false) /\
    (forall i x, h' < i <= h -> znth a' i = Some x -> lt p x = true) /\
    3 <= (h - l + 1) - (l' - l) /\ 3 <= (h - l + 1) - (h - h').
Proof.
  intros A lt W a l h Hl Hh Hn.
  destruct (qpartition_ok lt (fun x y => lt y x) (swo_irrefl lt W) (swo_irrefl lt W) a l h W) as
    (p & a' & l' & h' & E & S & R1 & R2 & R3 & Z1 & Z2 & Z3 & B1 & B2); auto. { red; auto. }
  exists p, a', l', h'. split; auto. split; auto. split; auto. split; [apply S|]. split; [apply S|]. splits; try lia.
  - intros i x Hi. apply Z1; lia.
  - intros i x Hi. apply Z2; lia.
  - intros i x Hi. apply Z3; lia.
Qed.
Print Assumptions C15_partition_three_way_and_balanced.

Example C15_partition_example :
  exists r, qpartition Z.ltb (fun x y => Z.ltb y x) mixed40 0 39 = Ok (r, 11, 11) /\ znth r 11 = Some 6.
Proof. eexists. split; vm_compute; reflexivity. Qed.
