(* Order of the points and affine changes of coordinates in the median based line estimators *)
From Coq Require Import Reals ZArith List Lia Lra Bool Permutation Psatz.
From Flocq Require Import Core.
From Verif Require Import Model.RobustLine Spec.Sorting Spec.LeastSquares Spec.RobustFit Proofs.BaseLemmas Proofs.RobustLineProofs Proofs.RobustFitProofs.
Import ListNotations.
Open Scope R_scope.

(** *** ranks *)
Lemma filter_len_le {A} (P Q : A -> bool) l : (forall x, In x l -> P x = true -> Q x = true) -> (length (filter P l) <= length (filter Q l))%nat.
Proof.
  induction l as [|h t IH]; intros H; cbn; [lia|]. assert (I : (length (filter P t) <= length (filter Q t))%nat) by (apply IH; intros; apply H; auto; right; auto).
  specialize (H h (or_introl eq_refl)). destruct (P h), (Q h); cbn; try lia; discriminate (H eq_refl).
Qed.
Lemma kth_unique k l v w : kth_smallest Rlt_bool k l v -> kth_smallest Rlt_bool k l w -> v = w.
Proof.
  assert (L : forall v w, kth_smallest Rlt_bool k l v -> kth_smallest Rlt_bool k l w -> ~ v < w).
  { intros a b (_ & _ & A) (_ & B & _) H. assert (length (filter (fun x => negb (Rlt_bool a x)) l) <= length (filter (fun x => Rlt_bool x b) l))%nat; [|lia].
    apply filter_len_le. intros x _ Hx. apply negb_true_iff in Hx. apply Rlt_bool_true. destruct (Rlt_bool_spec a x); [discriminate|lra]. }
  intros A B. destruct (Rtotal_order v w) as [H|[H|H]]; [exfalso; exact (L v w A B H)|exact H|exfalso; exact (L w v B A H)].
Qed.
Lemma filter_perm {A} (P : A -> bool) l l' : Permutation l l' -> length (filter P l) = length (filter P l').
Proof. induction 1; cbn; try congruence; [destruct (P x); cbn; congruence|destruct (P x), (P y); reflexivity]. Qed.
Lemma kth_perm k l l' v : Permutation l l' -> kth_smallest Rlt_bool k l v -> kth_smallest Rlt_bool k l' v.
Proof. intros P (A & B & C). split; [eapply Permutation_in; eauto|]. rewrite <- !(filter_perm _ _ _ P). auto. Qed.
Lemma filter_map_len {A B} (f : A -> B) (P : B -> bool) l : length (filter P (map f l)) = length (filter (fun x => P (f x)) l).
Proof. induction l as [|h t IH]; cbn; auto. destruct (P (f h)); cbn; congruence. Qed.
Lemma kth_map f k l v : (forall a b, a < b <-> f a < f b) -> kth_smallest Rlt_bool k l v -> kth_smallest Rlt_bool k (map f l) (f v).
Proof.
  intros M (A & B & C). assert (E : forall a b, Rlt_bool (f a) (f b) = Rlt_bool a b).
  { intros a b. pose proof (M a b) as Mab. destruct (Rlt_bool_spec a b), (Rlt_bool_spec (f a) (f b)); auto; exfalso; [apply Mab in H; lra|apply Mab in H0; lra]. }
  split; [apply in_map; auto|]. rewrite !filter_map_len. rewrite (filter_ext _ (fun x => Rlt_bool x v)) by auto. rewrite (filter_ext (fun x => negb (Rlt_bool (f v) (f x))) (fun x => negb (Rlt_bool v x))); auto. intros a. rewrite E. auto.
Qed.

(** *** order of the points *)
Section Perm.
Context (M : num R) (HL : nltb M = Rlt_bool) (HE : neqb M = Req_bool).
Lemma irrM v : nltb M v v = false. Proof. rewrite HL. apply Rlt_bool_false. lra. Qed.
Lemma swoM : strict_weak_order (nltb M). Proof. rewrite HL. apply Rlt_swo. Qed.
Notation point := (R * R)%type (only parsing).
Definition cellp (f : R -> R -> R -> R -> R) (p q : point) : list R := if Req_bool (fst q) (fst p) then [] else [f (fst p) (snd p) (fst q) (snd q)].
Definition points (x y : list R) (n : nat) : list point := map (fun i => (eln M x i, eln M y i)) (seq 0 n).
Fixpoint pairsp (P : list point) : list R := match P with [] => [] | p :: P => flat_map (cellp (slope_of M) p) P ++ pairsp P end.

Lemma col_points x y f n i : colL M x y f n i = flat_map (cellp f (eln M x i, eln M y i)) (points x y n).
Proof. unfold colL, points. rewrite flat_map_concat_map, flat_map_concat_map, map_map. f_equal. apply map_ext. intros j. unfold pt, cellp. rewrite HE. reflexivity. Qed.
Lemma pair_points x y n : pairL M x y n = pairsp (points x y n).
Proof.
  unfold pairL, points. enough (E : forall k s, flat_map (fun i => flat_map (pt M x y (slope_of M) i) (seq (S i) (s + k - S i))) (seq s k) = pairsp (map (fun i => (eln M x i, eln M y i)) (seq s k))) by (rewrite <- (E n 0%nat); auto).
  induction k as [|k IH]; intros s; cbn [seq flat_map map pairsp]; auto. f_equal.
  - replace (s + S k - S s)%nat with k by lia. rewrite !flat_map_concat_map, map_map. f_equal. apply map_ext. intros j. unfold pt, cellp. rewrite HE. reflexivity.
  - rewrite <- IH. rewrite !flat_map_concat_map. f_equal. apply map_ext. intros j. replace (s + S k)%nat with (S s + k)%nat by lia. auto.
Qed.
Context (HS : forall a b c d, slope_of M a b c d = slope_of M c d a b) (HI : forall a b c d, icept_of M a b c d = icept_of M c d a b).
Lemma cell_sym f p q : (forall a b c d, f a b c d = f c d a b) -> cellp f p q = cellp f q p.
Proof.
  intros H. unfold cellp. rewrite H. destruct (Req_bool_spec (fst q) (fst p)) as [E|E].
  - rewrite Req_bool_true; auto.
  - rewrite Req_bool_false; auto.
Qed.
Lemma pairs_perm P P' : Permutation P P' -> Permutation (pairsp P) (pairsp P').
Proof.
  induction 1 as [|p P P' H IH|p q P|P P' P'' H1 I1 H2 I2]; cbn [pairsp flat_map]; auto.
  - apply Permutation_app; auto. apply Permutation_flat_map; auto.
  - rewrite (cell_sym _ q p HS). rewrite <- !app_assoc. apply Permutation_app_head. rewrite !app_assoc. apply Permutation_app_tail. apply Permutation_app_comm.
  - eapply Permutation_trans; eauto.
Qed.
Lemma resid_points x y n slope : map (fun i => nsub M (eln M y i) (nmul M slope (eln M x i))) (seq 0 n) = map (fun p => nsub M (snd p) (nmul M slope (fst p))) (points x y n).
Proof. unfold points. rewrite map_map. auto. Qed.

(** medians of the rows *)
Definition rowm f (P : list point) (p : point) (v : R) : Prop := kth_smallest Rlt_bool (length (flat_map (cellp f p) P) / 2) (flat_map (cellp f p) P) v.
Lemma rowm_perm f P P' p v : Permutation P P' -> rowm f P p v -> rowm f P' p v.
Proof. unfold rowm. intros H R. assert (Q : Permutation (flat_map (cellp f p) P) (flat_map (cellp f p) P')) by (apply Permutation_flat_map; auto). rewrite <- (Permutation_length Q). eapply kth_perm; eauto. Qed.
Lemma rows_forall f x y n L : length L = n -> (forall i, (i < n)%nat -> kth_smallest Rlt_bool (length (colL M x y f n i) / 2) (colL M x y f n i) (eln M L i)) ->
  Forall2 (rowm f (points x y n)) (points x y n) L.
Proof.
  intros HL' H. assert (E : L = map (fun i => eln M L i) (seq 0 n)).
  { apply nth_ext with (n0 M) (n0 M); [rewrite map_length, seq_length; auto|]. intros i Hi. rewrite (nth_indep (map _ _) (n0 M) (eln M L 0)) by (rewrite map_length, seq_length; lia). rewrite map_nth with (d := 0%nat). rewrite seq_nth by lia. reflexivity. }
  rewrite E. unfold points at 2. assert (G : forall k, In k (seq 0 n) -> rowm f (points x y n) (eln M x k, eln M y k) (eln M L k)).
  { intros k Hk. apply in_seq in Hk. unfold rowm. rewrite <- col_points. apply H. lia. }
  revert G. generalize (seq 0 n). induction l as [|k l IH]; cbn [map]; intros G; constructor; [apply G; left; auto|apply IH; intros; apply G; right; auto].
Qed.
Lemma rows_perm f P P' L L' : Permutation P P' -> Forall2 (rowm f P) P L -> Forall2 (rowm f P') P' L' -> Permutation L L'.
Proof.
  intros H F F'. destruct (Permutation_Forall2 H F) as (L2 & PL & F2). assert (L2 = L'); [|subst; auto].
  assert (G : Forall2 (rowm f P') P' L2) by (clear PL; revert F2; generalize P' at 1 3; intros Q F2; induction F2 as [|p v Q L2' R G IH]; constructor; [exact (rowm_perm _ _ _ _ _ H R)|exact IH]).
  revert L' F' G. clear. generalize P' at 2 4. intros Q L' F' G. revert L' F'. induction G as [|p v Q L2 R G IH]; intros L' F'; inversion F'; subst; auto. f_equal; [eapply kth_unique; eauto|auto].
Qed.
Lemma nonempty_points x y n : (exists i j, (i < n)%nat /\ (j < n)%nat /\ eln M x i <> eln M x j) <-> (exists p q, In p (points x y n) /\ In q (points x y n) /\ fst p <> fst q).
Proof.
  split.
  - intros (i & j & Hi & Hj & D). exists (eln M x i, eln M y i), (eln M x j, eln M y j). unfold points. split; [apply in_map_iff; exists i; split; auto; apply in_seq; lia|]. split; [apply in_map_iff; exists j; split; auto; apply in_seq; lia|auto].
  - intros (p & q & Hp & Hq & D). unfold points in *. apply in_map_iff in Hp, Hq. destruct Hp as (i & <- & Hi), Hq as (j & <- & Hj). apply in_seq in Hi, Hj. exists i, j. split; [lia|]. split; [lia|auto].
Qed.
Lemma pairs_some x y n : (exists i j, (i < n)%nat /\ (j < n)%nat /\ eln M x i <> eln M x j) -> (1 <= length (pairL M x y n))%nat.
Proof.
  intros (i & j & Hi & Hj & D). assert (S2 : exists a b, (a < b)%nat /\ (b < n)%nat /\ eln M x a <> eln M x b).
  { destruct (Nat.lt_total i j) as [L|[->|L]]; [exists i, j; auto|contradiction|exists j, i; auto]. }
  destruct S2 as (a & b & Hab & Hb & D'). unfold pairL. destruct (flat_map _ _) eqn:E; cbn; [|lia]. exfalso.
  assert (I : In (slope_of M (eln M x a) (eln M y a) (eln M x b) (eln M y b)) []).
  { rewrite <- E. apply in_flat_map. exists a. split; [apply in_seq; lia|]. apply in_flat_map. exists b. split; [apply in_seq; lia|]. unfold pt. rewrite HE, Req_bool_false by auto. left; auto. }
  destruct I.
Qed.
End Perm.

(** *** change of coordinates *)
Lemma flat_map_ext_in {A B} (f g : A -> list B) l : (forall x, In x l -> f x = g x) -> flat_map f l = flat_map g l.
Proof. induction l as [|h t IH]; intros H; cbn; auto. rewrite (H h) by (left; auto). f_equal. apply IH. intros; apply H; right; auto. Qed.
Lemma map_flat_map {A B C} (g : B -> C) (f : A -> list B) l : map g (flat_map f l) = flat_map (fun x => map g (f x)) l.
Proof. induction l as [|h t IH]; cbn; auto. rewrite map_app, IH. auto. Qed.
Section Affine.
Context (x y x' y' : nat -> R) (n : nat) (p q a b c : R) (Hp : 0 < p) (Ha : 0 < a).
Context (Hx : forall i, (i < n)%nat -> x' i = p * x i + q) (Hy : forall i, (i < n)%nat -> y' i = a * y i + b * x i + c).
Definition fslope (s : R) : R := (a * s + b) / p.
Lemma fslope_mono u v : u < v <-> fslope u < fslope v.
Proof.
  unfold fslope. assert (Q : forall w, (a * w + b) / p = (a / p) * w + b / p) by (intros; field; lra). rewrite !Q. assert (0 < a / p) by (apply Rdiv_lt_0_compat; lra). split; intros; nra.
Qed.
Lemma cell_eq i j : (i < n)%nat -> (j < n)%nat ->
  (if Req_EM_T (x' j) (x' i) then [] else [(y' j - y' i) / (x' j - x' i)]) = map fslope (if Req_EM_T (x j) (x i) then [] else [(y j - y i) / (x j - x i)]).
Proof.
  intros Hi Hj. rewrite !Hx, !Hy by auto. destruct (Req_EM_T (x j) (x i)) as [E|E], (Req_EM_T (p * x j + q) (p * x i + q)) as [E'|E']; cbn; auto; try (exfalso; rewrite ?E in *; nra).
  f_equal. unfold fslope. field. split; lra.
Qed.
Lemma pair_slopes_affine : pair_slopes n x' y' = map fslope (pair_slopes n x y).
Proof.
  unfold pair_slopes. rewrite map_flat_map. apply flat_map_ext_in. intros i Hi. apply in_seq in Hi. rewrite map_flat_map. apply flat_map_ext_in. intros j Hj. apply in_seq in Hj. apply cell_eq; lia.
Qed.
Lemma slopes_at_affine i : (i < n)%nat -> slopes_at n x' y' i = map fslope (slopes_at n x y i).
Proof. intros Hi. unfold slopes_at. rewrite map_flat_map. apply flat_map_ext_in. intros j Hj. apply in_seq in Hj. apply cell_eq; lia. Qed.
Lemma residuals_affine s : residuals n x' y' (fslope s) = map (fun r => a * r + c - fslope s * q) (residuals n x y s).
Proof.
  unfold residuals. rewrite map_map. apply map_ext_in. intros i Hi. apply in_seq in Hi. rewrite Hx, Hy by lia. unfold fslope. field. lra.
Qed.
Lemma icepts_at_affine i : q = 0 -> (i < n)%nat -> icepts_at n x' y' i = map (fun r => a * r + c) (icepts_at n x y i).
Proof.
  intros -> Hi. unfold icepts_at. rewrite map_flat_map. apply flat_map_ext_in. intros j Hj. apply in_seq in Hj. rewrite !Hx, !Hy by lia.
  destruct (Req_EM_T (x j) (x i)) as [E|E], (Req_EM_T (p * x j + 0) (p * x i + 0)) as [E'|E']; cbn; auto; try (exfalso; rewrite ?E in *; nra).
  f_equal. field. split; [lra|]. intros Q. apply E. nra.
Qed.
End Affine.
Lemma el_map f l i : (i < length l)%nat -> el (map f l) i = f (el l i).
Proof. intros H. unfold el. rewrite (nth_indep (map f l) 0 (f 0)) by (rewrite map_length; auto). apply map_nth. Qed.
Lemma rows_map f n (at1 at2 : nat -> list R) L1 L2 : (forall u v, u < v <-> f u < f v) -> (forall i, (i < n)%nat -> at2 i = map f (at1 i)) ->
  length L1 = n -> length L2 = n ->
  (forall i, (i < n)%nat -> kth_smallest Rlt_bool (length (at1 i) / 2) (at1 i) (el L1 i)) ->
  (forall i, (i < n)%nat -> kth_smallest Rlt_bool (length (at2 i) / 2) (at2 i) (el L2 i)) -> L2 = map f L1.
Proof.
  intros M E A B K1 K2. apply nth_ext with 0 0; [rewrite map_length; lia|]. intros i Hi. change (el L2 i = el (map f L1) i). rewrite el_map by lia.
  specialize (K2 i ltac:(lia)). rewrite E, map_length in K2 by lia. eapply kth_unique; [exact K2|]. apply kth_map; auto. apply K1. lia.
Qed.
