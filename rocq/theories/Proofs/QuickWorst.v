(* Inputs on which every partition of quick.hh only removes three elements. *)
From Coq Require Import Permutation.
From Verif Require Import Proofs.BaseLemmas Proofs.ContainerProofs Proofs.QuickProofs Proofs.SplineHom Model.Quick Model.QuickCost Proofs.QuickCostProofs Spec.Sorting.
Open Scope Z_scope.

Lemma okp {A} (x y : A) (a b : Z) : Ok (x, a) = Ok (y, b) -> x = y /\ a = b.
Proof. intros E. split; congruence. Qed.
Notation ltZ := Z.ltb.
Notation gtZ := (fun x y : Z => Z.ltb y x).
Lemma Z_swo : strict_weak_order ltZ.
Proof. constructor; intros; rewrite ?Z.ltb_lt, ?Z.ltb_ge in *; lia. Qed.

(** ** qpart_loop only looks at how elements compare with the pivot *)
Lemma qswap_map {A B} (f : A -> B) a i j : qswap (map f a) i j = omap (map f) (qswap a i j).
Proof.
  unfold qswap. rewrite !omap_bind, get_map, bind_omap. apply SplineHom.bind_ext. intros t. rewrite !omap_bind, get_map, bind_omap. apply SplineHom.bind_ext. intros u.
  rewrite omap_bind, set_map, bind_omap. apply SplineHom.bind_ext. intros a'. apply set_map.
Qed.
Lemma part_map {A B} (f : A -> B) lt gt lt' gt' p p' : (forall x, lt (f x) p = lt' x p') -> (forall x, gt (f x) p = gt' x p') ->
  forall fuel a i l h, qpart_loop lt gt fuel (map f a) i l h p = omap (fun '(a, l, h) => (map f a, l, h)) (qpart_loop lt' gt' fuel a i l h p').
Proof.
  intros H1 H2. induction fuel as [|n IH]; intros a i l h; cbn [qpart_loop]; destruct (i <=? h); auto.
  rewrite get_map. destruct (get a i) as [x| | |]; cbn [omap bind]; auto. rewrite H1. destruct (lt' x p').
  - rewrite qswap_map. destruct (qswap a i l) as [a'| | |]; cbn [omap bind]; auto.
  - rewrite H2. destruct (gt' x p'); auto. rewrite qswap_map. destruct (qswap a i h) as [a'| | |]; cbn [omap bind]; auto.
Qed.
(** lower bound of the number of comparisons *)
Lemma part_atleast {A} (lt gt : A -> A -> bool) p fuel : forall a i l h r c, cpart_loop lt gt fuel a i l h p = Ok (r, c) -> h - i + 1 <= c /\ 0 <= c.
Proof.
  induction fuel as [|n IH]; intros a i l h r c E; cbn [cpart_loop] in E; destruct (Z.leb_spec i h); try (apply okp in E; lia); [discriminate|].
  destruct (get a i) as [x| | |]; cbn [free cbind bind clt] in E; try discriminate. destruct (lt x p).
  - destruct (qswap a i l) as [a'| | |]; cbn [free cbind bind] in E; try discriminate.
    destruct (cpart_loop lt gt n a' (i + 1) (l + 1) h p) as [[r' c']| | |] eqn:E'; cbn [bind] in E; try discriminate. apply okp in E; destruct E as [<- <-]. apply IH in E'. lia.
  - cbn [cbind cgt bind] in E. destruct (gt x p).
    + destruct (qswap a i h) as [a'| | |]; cbn [free cbind bind] in E; try discriminate.
      destruct (cpart_loop lt gt n a' i l (h - 1) p) as [[r' c']| | |] eqn:E'; cbn [bind] in E; try discriminate. apply okp in E; destruct E as [<- <-]. apply IH in E'. lia.
    + destruct (cpart_loop lt gt n a (i + 1) l h p) as [[r' c']| | |] eqn:E'; cbn [bind] in E; try discriminate. apply okp in E; destruct E as [<- <-]. apply IH in E'. lia.
Qed.
Lemma partition_atleast {A} (lt gt : A -> A -> bool) a l h r c : cpartition lt gt a l h = Ok (r, c) -> h - l + 1 <= c.
Proof.
  unfold cpartition. intros E. destruct (cmedian _ _ _ _ _ _ _) as [[a1 c1]| | |] eqn:E1; cbn [cbind bind] in E; try discriminate.
  pose proof (costs_median lt _ _ _ _ _ _ _ _ E1).
  destruct (get a1 _) as [p| | |]; cbn [free cbind bind] in E; try discriminate.
  destruct (cpart_loop _ _ _ _ _ _ _ _) as [[r' c']| | |] eqn:E'; cbn [bind] in E; try discriminate. apply okp in E; destruct E as [<- <-]. apply part_atleast in E'. lia.
Qed.

(** ** position of a value in a list *)
Fixpoint pos (l : list Z) (x : Z) : option Z :=
  match l with [] => None | y :: t => if y =? x then Some 0 else option_map Z.succ (pos t x) end.
Lemma pos_Some l : forall x j, pos l x = Some j -> znth l j = Some x /\ 0 <= j.
Proof.
  induction l as [|y t IH]; intros x j E; cbn [pos] in E; [discriminate|]. destruct (Z.eqb_spec y x) as [->|].
  - injection E as <-. split; [reflexivity|lia].
  - destruct (pos t x) as [i|] eqn:P; cbn in E; [|discriminate]. injection E as <-. destruct (IH x i P) as [H H0]. split; [|lia].
    rewrite znth_cons. destruct (Z.eqb_spec (Z.succ i) 0); [lia|]. replace (Z.succ i - 1) with i by lia. auto.
Qed.
Lemma znth_inj (l : list Z) i j x : NoDup l -> znth l i = Some x -> znth l j = Some x -> i = j.
Proof.
  intros N Hi Hj. pose proof (znth_Some_range _ _ _ Hi). pose proof (znth_Some_range _ _ _ Hj). rewrite znth_nonneg in Hi, Hj by lia.
  assert (Z.to_nat i = Z.to_nat j). { apply (proj1 (NoDup_nth_error l) N); [apply nth_error_Some; congruence|congruence]. } lia.
Qed.
Lemma pos_ok l x j : NoDup l -> znth l j = Some x -> pos l x = Some j.
Proof.
  intros N H. destruct (pos l x) as [i|] eqn:P.
  - f_equal. apply (znth_inj l i j x); auto. apply pos_Some in P. tauto.
  - exfalso. apply znth_Some_range in H as R. revert j H R P. clear N. induction l as [|y t IH]; intros j H R P; [cbn in R; unfold zlen in R; cbn in R; lia|].
    cbn [pos] in P. destruct (Z.eqb_spec y x); [discriminate|]. destruct (pos t x) eqn:P'; [discriminate|]. rewrite znth_cons in H. destruct (Z.eqb_spec j 0); [congruence|].
    apply (IH (j - 1)); auto. rewrite zlen_cons in R. lia.
Qed.
Definition range (N : nat) : list Z := map Z.of_nat (seq 0 N).
Lemma range_len N : zlen (range N) = Z.of_nat N. Proof. unfold zlen, range. rewrite map_length, seq_length. reflexivity. Qed.
Lemma range_nth N i : 0 <= i < Z.of_nat N -> znth (range N) i = Some i.
Proof. intros H. rewrite znth_nonneg by lia. unfold range. rewrite nth_error_map, (nth_error_nth' _ 0%nat) by (rewrite seq_length; lia). rewrite seq_nth by lia. cbn. f_equal. lia. Qed.
Lemma range_nodup N : NoDup (range N).
Proof. apply FinFun.Injective_map_NoDup; [intros x y; lia|apply seq_NoDup]. Qed.

(** ** one round *)
Section Round.
Variables (pre : list Z) (c : Z) (n : nat).
Let k := zlen pre.
Let N := (length pre + n)%nat.
Let h := k + Z.of_nat n - 1.
Let q := (h - k) / 4.
Let m := (h - k) / 2.
Hypothesis Hn : (33 <= n)%nat.
(** class of the value at a position of the input *)
Definition cls (p : Z) : Z :=
  if p <? k then nth (Z.to_nat p) pre 0 else if p =? k then c else if p =? k + q then c + 1 else if p =? k + m then c + 2 else c + 3.
Definition L (p _ : Z) : bool := cls p <? c + 2.
Definition G (p _ : Z) : bool := c + 2 <? cls p.
Lemma k0 : 0 <= k. Proof. apply zlen_nonneg. Qed.
Lemma qm : 8 <= q /\ q < m /\ m + q < Z.of_nat n - 1.
Proof. unfold q, m. pose proof (div_facts (h - k)). unfold h in *. replace (k + Z.of_nat n - 1 - k) with (Z.of_nat n - 1) in * by lia. lia. Qed.
Lemma N_eq : Z.of_nat N = k + Z.of_nat n. Proof. unfold N, k, zlen. lia. Qed.
Lemma part_positions : exists P, qpart_loop L G (Z.to_nat (h - k + 1)) (range N) k k h (c + 2) = Ok (P, k + 2, k + 2) /\ NoDup P /\ zlen P = Z.of_nat N /\
  (forall i, 0 <= i < k -> znth P i = Some i) /\
  ((znth P k = Some k /\ znth P (k + 1) = Some (k + q)) \/ (znth P k = Some (k + q) /\ znth P (k + 1) = Some k)) /\ znth P (k + 2) = Some (k + m) /\
  (forall i x, k + 3 <= i -> znth P i = Some x -> cls x = c + 3 /\ k <= x) /\ (forall x, 0 <= x < Z.of_nat N -> exists j, znth P j = Some x).
Proof.
  pose proof k0 as K0. destruct qm as (Q1 & Q2 & Q3). pose proof N_eq as NE.
  destruct (qpart_loop_ok L G (c + 2) k h (Z.to_nat (h - k + 1)) (range N) k k h) as (P & l' & h' & E & S & R1 & R2 & R3 & Z1 & Z2 & Z3);
    try (rewrite ?range_len; unfold h; lia); try (intros i x Hi; exfalso; lia).
  pose proof (sub_len _ _ _ _ S) as LP. rewrite range_len in LP. destruct S as (_ & Pm & F & S & T).
  assert (ND : NoDup P) by (apply (Permutation_NoDup Pm); apply range_nodup).
  assert (Low : forall i, 0 <= i < k -> znth P i = Some i). { intros i Hi. rewrite F by lia. apply range_nth. lia. }
  assert (V : forall i x, k <= i <= h -> znth P i = Some x -> k <= x <= h).
  { intros i x Hi Hx. destruct (S i Hi) as (j & Hj & Ej). rewrite Ej, range_nth in Hx by (unfold h in *; lia). injection Hx as <-. exact Hj. }
  assert (O : forall x, k <= x <= h -> exists j, k <= j <= h /\ znth P j = Some x).
  { intros x Hx. destruct (T x Hx) as (j & Hj & Ej). exists j. split; auto. rewrite <- Ej. apply range_nth. unfold h in *. lia. }
  assert (CK : cls k = c). { unfold cls. rewrite Z.ltb_irrefl, Z.eqb_refl. reflexivity. }
  assert (CQ : cls (k + q) = c + 1). { unfold cls. destruct (Z.ltb_spec (k + q) k); [lia|]. destruct (Z.eqb_spec (k + q) k); [lia|]. rewrite Z.eqb_refl. reflexivity. }
  assert (CM : cls (k + m) = c + 2). { unfold cls. destruct (Z.ltb_spec (k + m) k); [lia|]. destruct (Z.eqb_spec (k + m) k); [lia|]. destruct (Z.eqb_spec (k + m) (k + q)); [lia|]. rewrite Z.eqb_refl. reflexivity. }
  assert (C3 : forall x, k <= x -> x <> k -> x <> k + q -> x <> k + m -> cls x = c + 3).
  { intros x H1 H2 H3 H4. unfold cls. destruct (Z.ltb_spec x k); [lia|]. destruct (Z.eqb_spec x k); [lia|]. destruct (Z.eqb_spec x (k + q)); [lia|]. destruct (Z.eqb_spec x (k + m)); [lia|]. reflexivity. }
  assert (ZL : forall i x, k <= i <= l' - 1 -> znth P i = Some x -> x = k \/ x = k + q).
  { intros i x Hi Hx. pose proof (V i x ltac:(lia) Hx) as Vx. pose proof (Z1 i x Hi Hx) as Q. unfold L in Q. apply Z.ltb_lt in Q.
    destruct (Z.eq_dec x k); auto. destruct (Z.eq_dec x (k + q)); auto. destruct (Z.eq_dec x (k + m)) as [->|]; [lia|]. rewrite C3 in Q by lia. lia. }
  assert (ZM : forall i x, l' <= i <= h' -> znth P i = Some x -> x = k + m).
  { intros i x Hi Hx. pose proof (V i x ltac:(lia) Hx) as Vx. destruct (Z2 i x Hi Hx) as [Q Q']. unfold L, G in Q, Q'. apply Z.ltb_ge in Q, Q'.
    destruct (Z.eq_dec x (k + m)); auto. destruct (Z.eq_dec x k) as [->|]; [lia|]. destruct (Z.eq_dec x (k + q)) as [->|]; [lia|]. rewrite C3 in Q' by lia. lia. }
  assert (ZH : forall i x, h' + 1 <= i <= h -> znth P i = Some x -> cls x = c + 3 /\ k <= x).
  { intros i x Hi Hx. pose proof (V i x ltac:(lia) Hx) as Vx. pose proof (Z3 i x Hi Hx) as Q. unfold G in Q. apply Z.ltb_lt in Q. split; [|lia].
    apply C3; [lia|intros ->; lia|intros ->; lia|intros ->; lia]. }
  destruct (O k ltac:(unfold h; lia)) as (jk & Hjk & Ejk). destruct (O (k + q) ltac:(unfold h; lia)) as (jq & Hjq & Ejq). destruct (O (k + m) ltac:(unfold h; lia)) as (jm & Hjm & Ejm).
  assert (jk <= l' - 1). { apply Z.nlt_ge. intros H. destruct (Z_le_dec jk h'); [specialize (ZM jk k ltac:(lia) Ejk); lia|destruct (ZH jk k ltac:(lia) Ejk); lia]. }
  assert (jq <= l' - 1). { apply Z.nlt_ge. intros H1. destruct (Z_le_dec jq h'); [specialize (ZM jq (k + q) ltac:(lia) Ejq); lia|destruct (ZH jq (k + q) ltac:(lia) Ejq); lia]. }
  assert (jk <> jq). { intros ->. rewrite Ejk in Ejq. injection Ejq. lia. }
  assert (Two : forall i, k <= i <= l' - 1 -> i = jk \/ i = jq).
  { intros i Hi. destruct (znth_in_range P i) as (x & Hx); [lia|]. destruct (ZL i x Hi Hx) as [->| ->]; [left; apply (znth_inj P i jk k); auto|right; apply (znth_inj P i jq (k + q)); auto]. }
  assert (l' = k + 2). { destruct (Two k ltac:(lia)), (Two (k + 1) ltac:(lia)); try lia; destruct (Z_lt_dec (k + 2) l'); try lia; destruct (Two (k + 2) ltac:(lia)); lia. }
  subst l'.
  assert (l'm : k + 2 <= jm <= h'). { split; [apply Z.nlt_ge; intros H3; destruct (ZL jm (k + m) ltac:(lia) Ejm); lia|apply Z.nlt_ge; intros H3; destruct (ZH jm (k + m) ltac:(lia) Ejm); lia]. }
  assert (One : forall i, k + 2 <= i <= h' -> i = jm). { intros i Hi. destruct (znth_in_range P i) as (x & Hx); [lia|]. pose proof (ZM i x Hi Hx). subst x. apply (znth_inj P i jm (k + m)); auto. }
  assert (h' = k + 2). { pose proof (One (k + 2) ltac:(lia)). destruct (Z_lt_dec (k + 2) h'); [|lia]. pose proof (One (k + 3) ltac:(lia)). lia. }
  subst h'. exists P. splits; auto; try lia.
  - assert (jk = k /\ jq = k + 1 \/ jk = k + 1 /\ jq = k) as [(A1 & A2)|(A1 & A2)] by lia; rewrite A1, A2 in *; auto.
  - replace (k + 2) with jm by (symmetry; apply One; lia). exact Ejm.
  - intros i x Hi Hx. apply (ZH i x); [pose proof (znth_Some_range _ _ _ Hx); unfold h; lia|auto].
  - intros x Hx. destruct (Z_lt_dec x k); [exists x; apply Low; lia|]. destruct (O x ltac:(unfold h; lia)) as (j & _ & Ej). eauto.
Qed.

(** the input that one partition turns into c, c+1 (in some order), c+2 followed by B *)
Lemma part_round : exists u v, ((u = c /\ v = c + 1) \/ (u = c + 1 /\ v = c)) /\
  forall B, length B = (n - 3)%nat -> (forall x, In x B -> c + 3 <= x) ->
  exists X, length X = n /\ (forall x, In x X -> c <= x) /\ qpartition ltZ gtZ (pre ++ X) k h = Ok ((pre ++ [u; v; c + 2]) ++ B, k + 2, k + 2).
Proof.
  pose proof k0 as K0. destruct qm as (Q1 & Q2 & Q3). pose proof N_eq as NE.
  destruct part_positions as (P & E & ND & LP & Low & P01 & P2 & PH & On).
  assert (UV : exists u v, ((u = c /\ v = c + 1) \/ (u = c + 1 /\ v = c)) /\ ((u = c /\ v = c + 1 /\ znth P k = Some k /\ znth P (k + 1) = Some (k + q)) \/ (u = c + 1 /\ v = c /\ znth P k = Some (k + q) /\ znth P (k + 1) = Some k))).
  { destruct P01 as [[A1 A2]|[A1 A2]]; [exists c, (c + 1)|exists (c + 1), c]; (split; [auto|]); [left|right]; auto. }
  destruct UV as (u & v & UV1 & UV2). exists u, v. split; [exact UV1|]. intros B LB HB.
  set (F := fun p => match pos P p with Some j => if k + 3 <=? j then nth (Z.to_nat (j - k - 3)) B 0 else cls p | None => cls p end).
  assert (Bin : forall j, k + 3 <= j < Z.of_nat N -> In (nth (Z.to_nat (j - k - 3)) B 0) B) by (intros j Hj; apply nth_In; lia).
  assert (Fc : forall p, (F p <? c + 2) = (cls p <? c + 2) /\ (c + 2 <? F p) = (c + 2 <? cls p)).
  { intros p. unfold F. destruct (pos P p) as [j|] eqn:Ep; [|auto]. destruct (Z.leb_spec (k + 3) j); [|auto]. apply pos_Some in Ep. destruct Ep as [Ep Hj0].
    destruct (PH j p ltac:(lia) Ep) as [Cp _]. pose proof (znth_Some_range _ _ _ Ep). pose proof (HB _ (Bin j ltac:(lia))). rewrite Cp.
    split; [transitivity false; [apply Z.ltb_ge; lia|symmetry; apply Z.ltb_ge; lia]|transitivity true; [apply Z.ltb_lt; lia|symmetry; apply Z.ltb_lt; lia]]. }
  assert (Fl : forall j p, znth P j = Some p -> j < k + 3 -> F p = cls p).
  { intros j p Hj Hl. unfold F. rewrite (pos_ok P p j ND Hj). destruct (Z.leb_spec (k + 3) j); [lia|auto]. }
  assert (Fh : forall j p, znth P j = Some p -> k + 3 <= j -> F p = nth (Z.to_nat (j - k - 3)) B 0).
  { intros j p Hj Hl. unfold F. rewrite (pos_ok P p j ND Hj). destruct (Z.leb_spec (k + 3) j); [auto|lia]. }
  assert (CK : cls k = c). { unfold cls. rewrite Z.ltb_irrefl, Z.eqb_refl. reflexivity. }
  assert (CQ : cls (k + q) = c + 1). { unfold cls. destruct (Z.ltb_spec (k + q) k); [lia|]. destruct (Z.eqb_spec (k + q) k); [lia|]. rewrite Z.eqb_refl. reflexivity. }
  assert (CM : cls (k + m) = c + 2). { unfold cls. destruct (Z.ltb_spec (k + m) k); [lia|]. destruct (Z.eqb_spec (k + m) k); [lia|]. destruct (Z.eqb_spec (k + m) (k + q)); [lia|]. rewrite Z.eqb_refl. reflexivity. }
  assert (Cp : forall p, 0 <= p < k -> znth pre p = Some (cls p)).
  { intros p Hp. unfold cls. destruct (Z.ltb_spec p k); [|lia]. rewrite znth_nonneg by lia. apply nth_error_nth'. unfold k, zlen in *. lia. }
  assert (Fk : F k = c). { destruct P01 as [[A _]|[_ A]]; rewrite (Fl _ _ A) by lia; auto. }
  assert (Fq : F (k + q) = c + 1). { destruct P01 as [[_ A]|[A _]]; rewrite (Fl _ _ A) by lia; auto. }
  assert (Fm : F (k + m) = c + 2) by (rewrite (Fl _ _ P2) by lia; auto).
  assert (Fpre : forall p, 0 <= p < k -> F p = cls p) by (intros p Hp; apply (Fl p); [apply Low; auto|lia]).
  assert (Fo : forall x, k <= x < Z.of_nat N -> x <> k -> x <> k + q -> x <> k + m -> c + 3 <= F x).
  { intros x Hx H1 H2 H3. destruct (On x ltac:(lia)) as (j & Ej). pose proof (znth_Some_range _ _ _ Ej).
    destruct (Z_lt_dec j (k + 3)); [exfalso|rewrite (Fh j x Ej) by lia; apply HB; apply Bin; lia].
    destruct (Z_lt_dec j k) as [Hj|Hj]; [rewrite Low in Ej by lia; injection Ej as <-; lia|].
    destruct P01 as [[A1 A2]|[A1 A2]];
      (assert (j = k \/ j = k + 1 \/ j = k + 2) as [->|[->| ->]] by lia; congruence). }
  set (X := map F (map Z.of_nat (seq (length pre) n))). exists X.
  assert (AX : pre ++ X = map F (range N)).
  { unfold range, N. rewrite seq_app, !map_app, Nat.add_0_l. f_equal. apply list_eq_nth; [rewrite !map_length, seq_length; auto|].
    intros i Hi. rewrite <- !znth_nth_error. unfold k, zlen in *. rewrite Cp by lia. rewrite <- Fpre by lia. rewrite znth_nonneg by lia.
    rewrite !nth_error_map, (nth_error_nth' _ 0%nat), seq_nth by (rewrite ?seq_length; lia). cbn. f_equal. f_equal. lia. }
  split; [unfold X; rewrite !map_length, seq_length; auto|]. split.
  { intros x Hx. unfold X in Hx. rewrite map_map in Hx. apply in_map_iff in Hx. destruct Hx as (p & <- & Hp). apply in_seq in Hp.
    assert (Pk : k <= Z.of_nat p < Z.of_nat N) by (unfold k, zlen, N; lia).
    destruct (Z.eq_dec (Z.of_nat p) k) as [->|]; [lia|]. destruct (Z.eq_dec (Z.of_nat p) (k + q)) as [->|]; [lia|]. destruct (Z.eq_dec (Z.of_nat p) (k + m)) as [->|]; [lia|].
    pose proof (Fo _ Pk ltac:(auto) ltac:(auto) ltac:(auto)). lia. }
  rewrite AX.
  assert (LR : zlen (map F (range N)) = Z.of_nat N) by (unfold zlen; rewrite map_length; apply range_len).
  assert (Gt : forall p, 0 <= p < Z.of_nat N -> get (map F (range N)) p = Ok (F p)) by (intros p Hp; apply get_Some; rewrite znth_map, range_nth by lia; reflexivity).
  assert (Med : qmedian ltZ (map F (range N)) k (k + q) (k + m) (k + m + q) h = Ok (map F (range N))).
  { assert (O1 : c + 3 <= F (k + m + q)) by (apply Fo; lia). assert (O2 : c + 3 <= F h) by (apply Fo; unfold h in *; lia).
    unfold qmedian. rewrite !Gt by (unfold h; lia). cbn [bind]. rewrite Fk, Fm. destruct (Z.ltb_spec (c + 2) c); [lia|]. cbn [bind]. rewrite !Gt by (unfold h; lia). cbn [bind].
    rewrite Fq. destruct (Z.ltb_spec (F (k + m + q)) (c + 1)); [lia|]. cbn [bind]. rewrite !Gt by (unfold h; lia). cbn [bind].
    rewrite Fm. destruct (Z.ltb_spec (F (k + m + q)) (c + 2)); [lia|]. cbn [bind]. rewrite !Gt by (unfold h; lia). cbn [bind].
    rewrite Fq. destruct (Z.ltb_spec (F h) (c + 1)); [lia|]. cbn [bind]. rewrite !Gt by (unfold h; lia). cbn [bind].
    rewrite Fm. destruct (Z.ltb_spec (F h) (c + 2)); [lia|]. cbn [bind]. rewrite Fq. destruct (Z.ltb_spec (c + 2) (c + 1)); [lia|]. reflexivity. }
  assert (Part : qpartition ltZ gtZ (map F (range N)) k h = Ok (map F P, k + 2, k + 2)).
  { unfold qpartition. cbv zeta. fold q m. rewrite Med. cbn [bind]. rewrite Gt by lia. cbn [bind]. rewrite Fm.
    rewrite (part_map F ltZ gtZ L G (c + 2) (c + 2)); [|intros x; apply Fc|intros x; apply (Fc x)]. rewrite E. reflexivity. }
  rewrite Part. f_equal. f_equal. f_equal.
  assert (LM : zlen (map F P) = Z.of_nat N) by (unfold zlen in *; rewrite map_length; auto).
  apply list_eq_znth; [rewrite LM, !zlen_app; unfold N, zlen; cbn [length]; lia|]. intros i Hi. rewrite LM in Hi. rewrite znth_map.
  rewrite <- app_assoc, znth_app by lia. fold k. destruct (Z.ltb_spec i k).
  - rewrite Low by lia. cbn [option_map]. rewrite Fpre by lia. symmetry. apply Cp. lia.
  - rewrite znth_app by lia. change (zlen [u; v; c + 2]) with 3. destruct (Z.ltb_spec (i - k) 3).
    + assert (i = k \/ i = k + 1 \/ i = k + 2) as [->|[->| ->]] by lia.
      * rewrite Z.sub_diag. destruct UV2 as [(-> & -> & -> & _)|(-> & -> & -> & _)]; cbn [option_map]; rewrite ?Fk, ?Fq; reflexivity.
      * replace (k + 1 - k) with 1 by lia. destruct UV2 as [(-> & -> & _ & ->)|(-> & -> & _ & ->)]; cbn [option_map]; rewrite ?Fk, ?Fq; reflexivity.
      * replace (k + 2 - k) with 2 by lia. rewrite P2. cbn [option_map]. rewrite Fm. reflexivity.
    + destruct (znth_in_range P i) as (x & Hx); [lia|]. rewrite Hx. cbn [option_map]. rewrite (Fh i x Hx) by lia.
      rewrite znth_nonneg by lia. rewrite (nth_error_nth' B 0) by lia. reflexivity.
Qed.

Lemma round B : length B = (n - 3)%nat -> (forall x, In x B -> c + 3 <= x) -> exists X, length X = n /\ (forall x, In x X -> c <= x) /\
  forall D r cnt, csort ltZ gtZ (S D) (pre ++ X) k h = Ok (r, cnt) -> exists cnt', csort ltZ gtZ D ((pre ++ [c; c + 1; c + 2]) ++ B) (k + 3) h = Ok (r, cnt') /\ cnt' + Z.of_nat n <= cnt.
Proof.
  intros LB HB. pose proof k0 as K0. destruct part_round as (u & v & UV & R). destruct (R B LB HB) as (X & LX & HX & Part). exists X. split; [auto|]. split; [auto|].
  set (M := (pre ++ [u; v; c + 2]) ++ B) in *.
  assert (Mk : znth M k = Some u). { unfold M. rewrite <- app_assoc, znth_app by lia. fold k. destruct (Z.ltb_spec k k); [lia|]. rewrite Z.sub_diag. reflexivity. }
  assert (Mk1 : znth M (k + 1) = Some v). { unfold M. rewrite <- app_assoc, znth_app by lia. fold k. destruct (Z.ltb_spec (k + 1) k); [lia|]. replace (k + 1 - k) with 1 by lia. reflexivity. }
  assert (LM : zlen M = k + Z.of_nat n). { unfold M, k. rewrite !zlen_app. unfold zlen. cbn [length]. lia. }
  destruct (qinsertion_gen ltZ M k (k + 1)) as (a3 & E3 & S3 & A3); try lia. specialize (A3 Z_swo).
  pose proof (sub_len _ _ _ _ S3) as L3.
  assert (R01 : znth a3 k = Some c /\ znth a3 (k + 1) = Some (c + 1)).
  { destruct S3 as (_ & _ & _ & S & T). destruct (znth_in_range a3 k) as (x & Hx); [lia|]. destruct (znth_in_range a3 (k + 1)) as (y & Hy); [lia|].
    pose proof (A3 k (k + 1) x y ltac:(lia) ltac:(lia) ltac:(lia) Hx Hy) as Le. apply Z.ltb_ge in Le.
    assert (u = x \/ u = y). { destruct (T k ltac:(lia)) as (j & Hj & Ej). assert (j = k \/ j = k + 1) as [->| ->] by lia; [left|right]; congruence. }
    assert (v = x \/ v = y). { destruct (T (k + 1) ltac:(lia)) as (j & Hj & Ej). assert (j = k \/ j = k + 1) as [->| ->] by lia; [left|right]; congruence. }
    rewrite Hx, Hy. assert (x = c /\ y = c + 1) as [-> ->] by lia. auto. }
  assert (A3E : a3 = (pre ++ [c; c + 1; c + 2]) ++ B).
  { apply list_eq_znth; [rewrite L3; unfold M; rewrite !zlen_app; unfold zlen; cbn [length]; lia|]. intros i Hi. rewrite L3, LM in Hi.
    destruct (Z.eq_dec i k) as [->|]; [|destruct (Z.eq_dec i (k + 1)) as [->|]].
    - rewrite (proj1 R01), <- app_assoc, znth_app by lia. fold k. destruct (Z.ltb_spec k k); [lia|]. rewrite Z.sub_diag. reflexivity.
    - rewrite (proj2 R01), <- app_assoc, znth_app by lia. fold k. destruct (Z.ltb_spec (k + 1) k); [lia|]. replace (k + 1 - k) with 1 by lia. reflexivity.
    - destruct S3 as (_ & _ & Fr & _). rewrite Fr by lia. unfold M. rewrite <- !app_assoc, !(znth_app pre) by lia. fold k. destruct (Z.ltb_spec i k); [reflexivity|].
      rewrite !znth_app by lia. change (zlen [u; v; c + 2]) with 3. change (zlen [c; c + 1; c + 2]) with 3. destruct (Z.ltb_spec (i - k) 3); [|reflexivity].
      replace i with (k + 2) by lia. replace (k + 2 - k) with 2 by lia. reflexivity. }
  assert (Left : forall D, qsort ltZ gtZ D M k (k + 2 - 1) = Ok a3).
  { intros D. replace (k + 2 - 1) with (k + 1) by lia. destruct D; cbn [qsort]; (destruct (Z.ltb_spec k (k + 1)); [|lia]); (destruct (Z.ltb_spec (k + 1 - k) 32); [|lia]); exact E3. }
  intros D r cnt. cbn [csort]. destruct (Z.ltb_spec k h); [|unfold h in *; lia]. destruct (Z.ltb_spec (h - k) 32); [unfold h in *; lia|].
  rewrite <- er_partition in Part. destruct (er_ok _ _ Part) as (c1 & Ec1). rewrite Ec1. unfold cbind at 1. cbn [bind].
  pose proof (Left D) as LD. rewrite <- er_sort in LD. destruct (er_ok _ _ LD) as (c2 & Ec2). rewrite Ec2. cbn [cbind bind]. rewrite A3E. replace (k + 2 + 1) with (k + 3) by lia.
  destruct (csort ltZ gtZ D _ (k + 3) h) as [[r' c3]| | |] eqn:E5; cbn [bind]; intros Q; try discriminate. apply okp in Q; destruct Q as [<- <-]. exists c3. split; [reflexivity|].
  apply partition_atleast in Ec1. assert (0 <= c2).
  { destruct D; cbn [csort] in Ec2; (destruct (Z.ltb_spec k (k + 2 - 1)); [|lia]); (destruct (Z.ltb_spec (k + 2 - 1 - k) 32); [|lia]); pose proof (costs_insertion32 ltZ M k (k + 2 - 1) ltac:(lia) ltac:(lia) _ _ Ec2); lia. }
  unfold h in *. lia.
Qed.
End Round.

Lemma worst d : forall pre c, exists X, length X = (33 + 3 * d)%nat /\ (forall x, In x X -> c <= x) /\
  forall D r cnt, csort ltZ gtZ D (pre ++ X) (zlen pre) (zlen pre + zlen X - 1) = Ok (r, cnt) -> (d < D)%nat /\ 33 * (Z.of_nat d + 1) + 3 * (Z.of_nat d * (Z.of_nat d + 1)) / 2 <= cnt.
Proof.
  induction d as [|d IH]; intros pre c.
  - exists (repeat c 33). split; [rewrite repeat_length; auto|]. split; [intros x Hx; apply repeat_spec in Hx; lia|]. intros D r cnt E. rewrite zlen_repeat in E.
    destruct D as [|D]; cbn [csort] in E; (destruct (Z.ltb_spec (zlen pre) (zlen pre + Z.of_nat 33 - 1)); [|lia]); (destruct (Z.ltb_spec (zlen pre + Z.of_nat 33 - 1 - zlen pre) 32); [lia|]); [discriminate|].
    split; [lia|]. destruct (cpartition _ _ _ _ _) as [[[[a1 l1] h1] c1]| | |] eqn:E1; cbn [cbind bind] in E; try discriminate. apply partition_atleast in E1.
    destruct (csort ltZ gtZ D a1 _ _) as [[a2 c2]| | |] eqn:E2; cbn [cbind bind] in E; try discriminate.
    destruct (csort ltZ gtZ D a2 _ _) as [[a3 c3]| | |] eqn:E3; cbn [cbind bind] in E; try discriminate. apply okp in E; destruct E as [<- <-].
    assert (Nn : forall D a l h r c, csort ltZ gtZ D a l h = Ok (r, c) -> 0 <= c).
    { clear. assert (In : forall a l h r c, l < h -> cinsertion ltZ a l h = Ok (r, c) -> 0 <= c) by (intros a l h r c H E; pose proof (costs_insertion ltZ a l h ltac:(lia) _ _ E); lia).
      induction D as [|D IH]; intros a l h r c E; cbn [csort] in E; (destruct (Z.ltb_spec l h); [|apply okp in E; lia]); (destruct (h - l <? 32); [eapply In; eauto|]); [discriminate|].
      destruct (cpartition _ _ _ _ _) as [[[[a1 l1] h1] c1]| | |] eqn:E1; cbn [cbind bind] in E; try discriminate. apply partition_atleast in E1.
      destruct (csort ltZ gtZ D a1 _ _) as [[a2 c2]| | |] eqn:E2; cbn [cbind bind] in E; try discriminate.
      destruct (csort ltZ gtZ D a2 _ _) as [[a3 c3]| | |] eqn:E3; cbn [cbind bind] in E; try discriminate. apply okp in E; destruct E as [<- <-]. apply IH in E2, E3. lia. }
    apply Nn in E2, E3. cbn. lia.
  - destruct (IH (pre ++ [c; c + 1; c + 2]) (c + 3)) as (B & LB & HB & R).
    destruct (round pre c (33 + 3 * S d) ltac:(lia) B) as (X & LX & HX & Q); try lia; auto.
    exists X. split; [auto|]. split; [auto|]. intros D r cnt E.
    assert (ZX : zlen X = Z.of_nat (33 + 3 * S d)) by (unfold zlen; rewrite LX; auto). rewrite ZX in E.
    destruct D as [|D].
    + exfalso. cbn [csort] in E. destruct (Z.ltb_spec (zlen pre) (zlen pre + Z.of_nat (33 + 3 * S d) - 1)); [|lia]. destruct (Z.ltb_spec (zlen pre + Z.of_nat (33 + 3 * S d) - 1 - zlen pre) 32); [lia|]. discriminate.
    + destruct (Q D r cnt E) as (cnt' & E' & Hc).
      assert (ZB : zlen B = Z.of_nat (33 + 3 * d)) by (unfold zlen; rewrite LB; auto).
      destruct (R D r cnt') as [H1 H2].
      { rewrite zlen_app. change (zlen [c; c + 1; c + 2]) with 3. rewrite ZB. replace (zlen pre + 3 + Z.of_nat (33 + 3 * d) - 1) with (zlen pre + Z.of_nat (33 + 3 * S d) - 1) by lia. exact E'. }
      split; [lia|]. rewrite Nat2Z.inj_succ. set (z := Z.of_nat d) in *.
      replace (3 * (Z.succ z * (Z.succ z + 1))) with (3 * (z * (z + 1)) + (3 * (z + 1)) * 2) by (unfold Z.succ; ring). rewrite Z.div_add by lia.
      assert (Z.of_nat (33 + 3 * S d) = 36 + 3 * z) by (unfold z; lia). lia.
Qed.

(** the same for quick_select of the largest element *)
Lemma select_nonneg D kk : forall a l h r c, cselect ltZ gtZ D a l h kk = Ok (r, c) -> 0 <= c.
Proof.
  assert (In : forall a l h r c, l < h -> cinsertion ltZ a l h = Ok (r, c) -> 0 <= c) by (intros a l h r c H E; pose proof (costs_insertion ltZ a l h ltac:(lia) _ _ E); lia).
  induction D as [|D IH]; intros a l h r c E; cbn [cselect] in E; (destruct (Z.ltb_spec l h); [|apply okp in E; lia]); (destruct (h - l <? 32); [eapply In; eauto|]); [discriminate|].
  destruct (cpartition _ _ _ _ _) as [[[[a1 l1] h1] c1]| | |] eqn:E1; cbn [cbind bind] in E; try discriminate. apply partition_atleast in E1.
  destruct (kk <? l1); [|destruct (h1 <? kk)].
  - destruct (cselect ltZ gtZ D a1 _ _ _) as [[a2 c2]| | |] eqn:E2; cbn [cbind bind] in E; try discriminate. apply okp in E; destruct E as [<- <-]. apply IH in E2. lia.
  - destruct (cselect ltZ gtZ D a1 _ _ _) as [[a2 c2]| | |] eqn:E2; cbn [cbind bind] in E; try discriminate. apply okp in E; destruct E as [<- <-]. apply IH in E2. lia.
  - cbn [cret bind] in E. apply okp in E. lia.
Qed.
Lemma worst_select d : forall pre c, exists X, length X = (33 + 3 * d)%nat /\ (forall x, In x X -> c <= x) /\
  forall D r cnt, cselect ltZ gtZ D (pre ++ X) (zlen pre) (zlen pre + zlen X - 1) (zlen pre + zlen X - 1) = Ok (r, cnt) -> (d < D)%nat /\ 33 * (Z.of_nat d + 1) + 3 * (Z.of_nat d * (Z.of_nat d + 1)) / 2 <= cnt.
Proof.
  induction d as [|d IH]; intros pre c.
  - exists (repeat c 33). split; [rewrite repeat_length; auto|]. split; [intros x Hx; apply repeat_spec in Hx; lia|]. intros D r cnt E. rewrite zlen_repeat in E.
    destruct D as [|D]; cbn [cselect] in E; (destruct (Z.ltb_spec (zlen pre) (zlen pre + Z.of_nat 33 - 1)); [|lia]); (destruct (Z.ltb_spec (zlen pre + Z.of_nat 33 - 1 - zlen pre) 32); [lia|]); [discriminate|].
    split; [lia|]. destruct (cpartition _ _ _ _ _) as [[[[a1 l1] h1] c1]| | |] eqn:E1; cbn [cbind bind] in E; try discriminate. apply partition_atleast in E1.
    destruct (_ <? l1); [|destruct (h1 <? _)].
    + destruct (cselect ltZ gtZ D a1 _ _ _) as [[a2 c2]| | |] eqn:E2; cbn [cbind bind] in E; try discriminate. apply okp in E; destruct E as [<- <-]. apply select_nonneg in E2. cbn. lia.
    + destruct (cselect ltZ gtZ D a1 _ _ _) as [[a2 c2]| | |] eqn:E2; cbn [cbind bind] in E; try discriminate. apply okp in E; destruct E as [<- <-]. apply select_nonneg in E2. cbn. lia.
    + cbn [cret bind] in E. apply okp in E. cbn. lia.
  - destruct (part_round pre c (33 + 3 * S d) ltac:(lia)) as (u & v & UV & PR).
    destruct (IH (pre ++ [u; v; c + 2]) (c + 3)) as (B & LB & HB & R).
    destruct (PR B ltac:(lia) HB) as (X & LX & HX & Q).
    exists X. split; [auto|]. split; [auto|]. intros D r cnt E.
    assert (ZX : zlen X = Z.of_nat (33 + 3 * S d)) by (unfold zlen; rewrite LX; auto). rewrite ZX in E.
    destruct D as [|D]; cbn [cselect] in E; (destruct (Z.ltb_spec (zlen pre) (zlen pre + Z.of_nat (33 + 3 * S d) - 1)); [|lia]); (destruct (Z.ltb_spec (zlen pre + Z.of_nat (33 + 3 * S d) - 1 - zlen pre) 32); [lia|]); [discriminate|].
    rewrite <- er_partition in Q. destruct (er_ok _ _ Q) as (c1 & Ec1). rewrite Ec1 in E. unfold cbind at 1 in E. cbn [bind] in E. apply partition_atleast in Ec1.
    destruct (Z.ltb_spec (zlen pre + Z.of_nat (33 + 3 * S d) - 1) (zlen pre + 2)); [lia|]. destruct (Z.ltb_spec (zlen pre + 2) (zlen pre + Z.of_nat (33 + 3 * S d) - 1)); [|lia].
    destruct (cselect ltZ gtZ D _ _ _ _) as [[r' c2]| | |] eqn:E2; cbn [cbind bind] in E; try discriminate. apply okp in E; destruct E as [<- <-].
    assert (ZB : zlen B = Z.of_nat (33 + 3 * d)) by (unfold zlen; rewrite LB; auto).
    destruct (R D r' c2) as [H1' H2'].
    { rewrite zlen_app. change (zlen [u; v; c + 2]) with 3. rewrite ZB. replace (zlen pre + 3 + Z.of_nat (33 + 3 * d) - 1) with (zlen pre + Z.of_nat (33 + 3 * S d) - 1) by lia.
      replace (zlen pre + 2 + 1) with (zlen pre + 3) in E2 by lia. exact E2. }
    split; [lia|]. rewrite Nat2Z.inj_succ. set (z := Z.of_nat d) in *.
    replace (3 * (Z.succ z * (Z.succ z + 1))) with (3 * (z * (z + 1)) + (3 * (z + 1)) * 2) by (unfold Z.succ; ring). rewrite Z.div_add by lia.
    assert (Z.of_nat (33 + 3 * S d) = 36 + 3 * z) by (unfold z; lia). lia.
Qed.
