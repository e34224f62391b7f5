From Verif Require Import Proofs.BaseLemmas Proofs.ContainerProofs Model.MovExt Spec.Reduce.
Open Scope Z_scope.

(** ** Stack rules *)
Section StackRules.
Context {A : Type} (SIZE : Z) (Hs : 0 < SIZE).
Implicit Types (s : stack A) (l : list A).

Lemma stack_push_R s l x : stack_R SIZE s l -> zlen l < SIZE ->
  exists s', stack_push SIZE s x = Ok s' /\ stack_R SIZE s' (l ++ [x]).
Proof.
  intros H Hl. pose proof (stack_step_R SIZE Hs s l (SPush x) H) as E. cbn [stack_spec stack_step] in E.
  destruct (Z.ltb_spec (zlen l) SIZE); [|lia]. destruct E as (s' & E & HR).
  apply bind_Ok in E. destruct E as (s'' & E1 & E2). injection E2 as <-. eauto.
Qed.

Lemma stack_pop_R s l x : stack_R SIZE s (l ++ [x]) -> exists s', stack_pop s = Ok s' /\ stack_R SIZE s' l.
Proof.
  intros H. pose proof (stack_step_R SIZE Hs s _ SPop H) as E. cbn [stack_spec stack_step] in E.
  assert (Hne : l ++ [x] <> []) by (destruct l; discriminate).
  destruct (l ++ [x]) eqn:El; [congruence|]. rewrite <- El in E. rewrite removelast_last in E.
  destruct E as (s' & E & HR). apply bind_Ok in E. destruct E as (s'' & E1 & E2). injection E2 as <-. eauto.
Qed.

Lemma stack_top_R s l x : stack_R SIZE s (l ++ [x]) -> stack_top s = Ok x.
Proof.
  intros H. pose proof (stack_step_R SIZE Hs s _ STop H) as E. cbn [stack_spec stack_step] in E.
  destruct (l ++ [x]) as [|y t] eqn:El; [destruct l; discriminate|]. rewrite <- El, last_last in E.
  destruct E as (s' & E & HR). apply bind_Ok in E. destruct E as (v & E1 & E2). congruence.
Qed.

Lemma stack_first_R s l x : stack_R SIZE s (x :: l) -> stack_first s = Ok x.
Proof.
  intros H. pose proof (stack_step_R SIZE Hs s _ SFirst H) as E. cbn [stack_spec stack_step] in E.
  destruct E as (s' & E & HR). apply bind_Ok in E. destruct E as (v & E1 & E2). congruence.
Qed.

Lemma stack_empty_R s l : stack_R SIZE s l -> stack_empty s = match l with [] => true | _ => false end.
Proof.
  intros (_ & Hp & _). unfold stack_empty. rewrite Hp. pose proof (zlen_nonneg l).
  destruct l as [|x l]; [reflexivity|]. rewrite zlen_cons in *.
  pose proof (zlen_nonneg l). destruct (Z.eqb_spec (zlen l + 1 - 1) (-1)); auto; lia.
Qed.

Lemma stack_size_R s l : stack_R SIZE s l -> stack_size s = zlen l.
Proof. intros (_ & Hp & _). unfold stack_size. lia. Qed.
End StackRules.
Local Opaque stack_R delay_inv.

Section MovExt.
Context {A : Type} (comp : A -> A -> bool).
Definition eqb (a b : A) : bool := negb (comp a b) && negb (comp b a).
Hypothesis comp_irrefl : forall a, comp a a = false.
Hypothesis comp_trans : forall a b c, comp a b = true -> comp b c = true -> comp a c = true.
Hypothesis comp_negtrans : forall a b c, comp a b = true -> comp a c = true \/ comp c b = true.

Lemma eqb_true a b : eqb a b = true <-> comp a b = false /\ comp b a = false.
Proof. unfold eqb. destruct (comp a b), (comp b a); simpl; intuition discriminate. Qed.

(** elements of [S] not beaten by a later one *)
Fixpoint records (l : list A) : list A :=
  match l with
  | [] => []
  | a :: t => if existsb (fun s => comp s a) t then records t else a :: records t
  end.

Lemma records_length l : (length (records l) <= length l)%nat.
Proof. induction l as [|a t IH]; simpl; auto. destruct (existsb _ t); simpl; lia. Qed.

Lemma records_snoc l x : records (l ++ [x]) = filter (fun a => negb (comp x a)) (records l) ++ [x].
Proof.
  induction l as [|a t IH]; simpl; auto.
  rewrite existsb_app. simpl. rewrite orb_false_r.
  destruct (existsb (fun s => comp s a) t) eqn:E; simpl.
  - exact IH.
  - destruct (comp x a); simpl; rewrite IH; auto.
Qed.

Definition best (l : list A) (v : A) : Prop := In v l /\ forall y, In y l -> comp y v = false.

Lemma records_head l : l <> [] -> exists r t, records l = r :: t /\ best l r.
Proof.
  induction l as [|a t IH]; [congruence|]. intros _. simpl.
  destruct (existsb (fun s => comp s a) t) eqn:E.
  - apply existsb_exists in E. destruct E as (s & Hs & Hc).
    destruct IH as (r & t' & Hr & Hin & Hb). { intros ->. inversion Hs. }
    exists r, t'. split; auto. split; [now right|]. intros y [<-|Hy]; auto.
    destruct (comp a r) eqn:Ear; auto. rewrite <- (Hb s Hs). symmetry. eapply comp_trans; eauto.
  - exists a, (records t). split; auto. split; [now left|]. intros y [<-|Hy]; auto.
    destruct (comp y a) eqn:Eya; auto. rewrite <- E. symmetry. apply existsb_exists. eauto.
Qed.

(** monotone: no later element beats an earlier one *)
Fixpoint mono (l : list A) : Prop :=
  match l with [] => True | a :: t => (forall y, In y t -> comp y a = false) /\ mono t end.

Lemma records_incl l : incl (records l) l.
Proof.
  induction l as [|a t IH]; simpl; [easy|]. destruct (existsb _ t).
  - now apply incl_tl.
  - intros y [<-|H]; [now left|right; auto].
Qed.

Lemma records_mono l : mono (records l).
Proof.
  induction l as [|a t IH]; simpl; auto. destruct (existsb (fun s => comp s a) t) eqn:E; simpl; auto.
  split; auto. intros y Hy. destruct (comp y a) eqn:Eya; auto. rewrite <- E. symmetry.
  apply existsb_exists. exists y. split; auto. now apply records_incl.
Qed.

Lemma mono_app l l' : mono (l ++ l') -> mono l /\ forall a b, In a l -> In b l' -> comp b a = false.
Proof.
  induction l as [|c t IH]; simpl; [easy|]. intros (H1 & H2). destruct (IH H2) as [H3 H4]. splits; auto.
  - intros y Hy. apply H1. apply in_or_app; auto.
  - intros a b [<-|Ha] Hb; auto. apply H1. apply in_or_app; auto.
Qed.

(** in a monotone list filtering is truncation *)
Lemma filter_none x l : (forall a, In a l -> comp x a = false) -> filter (fun a => negb (comp x a)) l = l.
Proof.
  induction l as [|a t IH]; simpl; auto. intros H. rewrite (H a) by auto. simpl. f_equal. apply IH. auto.
Qed.

Section Run.
Context (NUM : Z) (Hnum : 0 < NUM).

Lemma drop_ok x fuel : forall l s, stack_R NUM s l -> mono l -> (length l <= fuel)%nat ->
  exists s', movext_drop comp fuel s x = Ok s' /\ stack_R NUM s' (filter (fun a => negb (comp x a)) l).
Proof.
  induction fuel as [|f IH]; intros l s HR Hm Hf.
  - destruct l; simpl in Hf; [|lia]. cbn. rewrite (stack_empty_R NUM _ _ HR). eauto.
  - cbn [movext_drop]. rewrite (stack_empty_R NUM _ _ HR). destruct l as [|y t].
    + eauto.
    + destruct (exists_last (l := y :: t)) as (l' & z & El); [discriminate|]. rewrite El in *.
      rewrite (stack_top_R NUM Hnum _ _ _ HR). cbn [bind].
      destruct (mono_app _ _ Hm) as [Hm' Hlast].
      rewrite filter_app. simpl. destruct (comp x z) eqn:Exz; simpl.
      * destruct (stack_pop_R NUM Hnum _ _ _ HR) as (s' & -> & HR'). cbn [bind]. rewrite app_nil_r. apply IH; auto.
        rewrite app_length in Hf. simpl in Hf. lia.
      * exists s. split; auto. rewrite filter_none; auto. intros a Ha.
        destruct (comp x a) eqn:Exa; auto. destruct (comp_negtrans x a z Exa) as [E|E]; [congruence|].
        rewrite (Hlast a z) in E; auto. now left.
Qed.

Lemma transfer_ok fuel : forall (ld lr : list A) d r, stack_R NUM d ld -> stack_R NUM r lr ->
  zlen ld + zlen lr <= NUM -> (length lr <= fuel)%nat ->
  exists d' r', movext_transfer NUM fuel d r = Ok (d', r') /\ stack_R NUM d' (ld ++ rev lr) /\ stack_R NUM r' (@nil A).
Proof.
  induction fuel as [|f IH]; intros ld lr d r Hd Hr Hl Hf.
  - destruct lr; simpl in Hf; [|lia]. cbn. rewrite (stack_empty_R NUM _ _ Hr), app_nil_r. eauto.
  - cbn [movext_transfer]. rewrite (stack_empty_R NUM _ _ Hr). destruct lr as [|y t].
    + simpl. rewrite app_nil_r. eauto.
    + destruct (exists_last (l := y :: t)) as (l' & z & El); [discriminate|]. rewrite El in *.
      rewrite (stack_top_R NUM Hnum _ _ _ Hr). cbn [bind]. rewrite zlen_app, zlen_single in Hl.
      pose proof (zlen_nonneg l').
      destruct (stack_push_R NUM Hnum d ld z Hd) as (d1 & -> & Hd1); [lia|]. cbn [bind].
      destruct (stack_pop_R NUM Hnum _ _ _ Hr) as (r1 & -> & Hr1). cbn [bind].
      rewrite rev_app_distr. simpl.
      destruct (IH (ld ++ [z]) l' d1 r1) as (d' & r' & E & H1 & H2); auto.
      * rewrite zlen_app, zlen_single. lia.
      * rewrite app_length in Hf. simpl in Hf. lia.
      * exists d', r'. rewrite <- app_assoc in H1. auto.
Qed.

Context (init : A) (P : A -> Prop).
(** [init] is beaten by or equivalent to every value of the domain [P] *)
Definition worst : Prop := forall y, P y -> comp init y = false.
Definition droppable (x : A) : Prop := eqb init x = true /\ worst.

Inductive drops : list A -> list A -> Prop :=
| dr_nil : drops [] []
| dr_keep a w w' : drops w w' -> drops (a :: w) (a :: w')
| dr_drop a w w' : droppable a -> drops w w' -> drops (a :: w) w'.

Lemma drops_refl w : drops w w. Proof. induction w; constructor; auto. Qed.
Lemma drops_incl w w' : drops w w' -> incl w' w.
Proof. induction 1; [easy| |]. - intros y [<-|Hy]; [now left|right; auto]. - now apply incl_tl. Qed.
Lemma drops_length w w' : drops w w' -> (length w' <= length w)%nat.
Proof. induction 1; simpl; lia. Qed.
Lemma drops_app w w' v v' : drops w w' -> drops v v' -> drops (w ++ v) (w' ++ v').
Proof. induction 1; simpl; auto; constructor; auto. Qed.
Lemma drops_tl w a w' : drops w (a :: w') -> droppable a -> drops w w'.
Proof.
  remember (a :: w') as l. intros H. revert Heql. induction H; intros E HP; [discriminate| |].
  - injection E as -> ->. now apply dr_drop.
  - apply dr_drop; auto.
Qed.
Lemma drops_in w w' y : drops w w' -> In y w -> In y w' \/ droppable y.
Proof.
  induction 1; simpl; [easy| |].
  - intros [<-|Hy]; auto. destruct IHdrops; auto.
  - intros [<-|Hy]; auto.
Qed.

(** all of [l] equivalent to a worst init, if the best of [l] is *)
Lemma all_equiv l r : worst -> (forall y, In y l -> P y) -> best l r -> eqb init r = true -> forall y, In y l -> eqb init y = true.
Proof.
  intros Hw HP (Hin & Hb) Hr y Hy. apply eqb_true. apply eqb_true in Hr. destruct Hr as [_ Hr].
  split; [apply Hw; auto|]. destruct (comp y init) eqn:E; auto.
  destruct (comp_negtrans y init r E) as [E'|E']; [|congruence]. rewrite (Hb y Hy) in E'. discriminate.
Qed.

Lemma records_equiv h t : (forall y, In y (h :: t) -> eqb init y = true) -> records (h :: t) = h :: records t.
Proof.
  intros H. simpl. destruct (existsb (fun s => comp s h) t) eqn:E; auto.
  apply existsb_exists in E. destruct E as (s & Hs & Hc). exfalso.
  assert (Hh := H h (or_introl eq_refl)). assert (Hss := H s (or_intror Hs)).
  apply eqb_true in Hh. apply eqb_true in Hss.
  destruct (comp_negtrans s h init Hc); intuition congruence.
Qed.

Definition minv (xs : list A) (m : movext A) : Prop :=
  match xs with
  | [] => movext_new NUM init = Ok m
  | _ => delay_inv NUM init xs (m_window m) /\
         exists Sd Sr, stack_R NUM (m_disp m) (rev (records Sd)) /\
           stack_R NUM (m_refill m) (records Sr) /\ Sd <> [] /\
           drops (lastn (Z.to_nat NUM) xs) (Sd ++ Sr)
  end.

(** second half of operator(): refill, transfer, answer *)
Lemma tail_ok w x d r Sd Sr L0 :
  stack_R NUM d (rev (records Sd)) -> stack_R NUM r (records Sr) ->
  drops L0 (Sd ++ Sr) -> zlen L0 < NUM -> (forall y, In y (L0 ++ [x]) -> P y) ->
  exists m' v,
    (r <- movext_drop comp (Z.to_nat (stack_size r)) r x ;;
     r <- stack_push NUM r x ;;
     if stack_empty d then
       '(d, r) <- movext_transfer NUM (Z.to_nat (stack_size r)) d r ;;
       t <- stack_top d ;; Ok (mkMovExt w d r, t)
     else
       t <- stack_top d ;; f <- stack_first r ;;
       Ok (mkMovExt w d r, if comp t f then t else f)) = Ok (m', v) /\
    m_window m' = w /\
    (exists Sd' Sr', stack_R NUM (m_disp m') (rev (records Sd')) /\
       stack_R NUM (m_refill m') (records Sr') /\ Sd' <> [] /\
       drops (L0 ++ [x]) (Sd' ++ Sr')) /\
    best (L0 ++ [x]) v.
Proof.
  intros Hd Hr HD HL HP.
  assert (Hlen : (length Sr <= length L0)%nat).
  { apply drops_length in HD. rewrite app_length in HD. lia. }
  pose proof (records_length Sr) as Hrl.
  destruct (drop_ok x (Z.to_nat (stack_size r)) _ _ Hr) as (r1 & E1 & Hr1).
  { apply records_mono. } { rewrite (stack_size_R NUM _ _ Hr). unfold zlen. lia. }
  rewrite E1. cbn [bind].
  destruct (stack_push_R NUM Hnum r1 _ x Hr1) as (r2 & E2 & Hr2).
  { unfold zlen in *. 
    assert (Hfl : forall (p : A -> bool) l, (length (filter p l) <= length l)%nat).
    { clear. intros p l. induction l as [|a t IH]; simpl; [lia|]. destruct (p a); simpl; lia. }
    specialize (Hfl (fun a => negb (comp x a)) (records Sr)). lia. }
  rewrite E2. cbn [bind]. rewrite <- records_snoc in Hr2.
  assert (HD' : drops (L0 ++ [x]) (Sd ++ Sr ++ [x])).
  { rewrite app_assoc. apply drops_app; auto. repeat constructor. }
  assert (Hbest : forall v, best (Sd ++ Sr ++ [x]) v -> best (L0 ++ [x]) v).
  { intros v (Hin & Hb). split.
    - now apply (drops_incl _ _ HD').
    - intros y Hy. destruct (drops_in _ _ _ HD' Hy) as [Hy'|[Hy' Hw]]; auto.
      destruct (comp y v) eqn:E; auto. apply eqb_true in Hy'.
      destruct (comp_negtrans y v init E) as [E'|E']; [intuition congruence|].
      rewrite (Hw v) in E'; [discriminate|]. apply HP. now apply (drops_incl _ _ HD'). }
  destruct (records_head (Sr ++ [x])) as (f & tf & Ef & Hf). { destruct Sr; discriminate. }
  rewrite (stack_empty_R NUM _ _ Hd).
  destruct Sd as [|s0 Sd0].
  - simpl rev. cbv iota. simpl in Hd.
    destruct (transfer_ok (Z.to_nat (stack_size r2)) [] (records (Sr ++ [x])) d r2) as (d' & r' & E3 & Hd' & Hr'); auto.
    { pose proof (records_length (Sr ++ [x])) as Hrl'. rewrite app_length in Hrl'. simpl in Hrl'.
      unfold zlen in *. simpl. lia. }
    { rewrite (stack_size_R NUM _ _ Hr2). unfold zlen. lia. }
    rewrite E3. cbn [bind]. simpl app in Hd'. rewrite Ef in Hd'. pose proof Hd' as Hd''. simpl rev in Hd'.
    rewrite (stack_top_R NUM Hnum _ _ _ Hd'). cbn [bind]. eexists _, f. split; [reflexivity|].
    split; [reflexivity|]. cbn [m_disp m_refill]. split.
    + exists (Sr ++ [x]), []. rewrite app_nil_r, Ef. splits; auto; destruct Sr; try discriminate; auto.
    + apply Hbest. exact Hf.
  - set (Sd := s0 :: Sd0) in *. destruct (records_head Sd) as (t & tt & Et & Ht); [discriminate|].
    rewrite Et in *. simpl rev in Hd.
    assert (Hne : rev (t :: tt) <> []). { simpl. destruct (rev tt); discriminate. }
    destruct (rev (t :: tt)) eqn:Er; [congruence|]. clear Er Hne.
    rewrite (stack_top_R NUM Hnum _ _ _ Hd). cbn [bind].
    pose proof Hr2 as Hr2'. rewrite Ef in Hr2'. rewrite (stack_first_R NUM Hnum _ _ _ Hr2'). cbn [bind].
    eexists _, (if comp t f then t else f). split; [reflexivity|]. split; [reflexivity|]. cbn [m_disp m_refill]. split.
    + exists Sd, (Sr ++ [x]). rewrite Et. splits; auto. discriminate.
    + apply Hbest. destruct Ht as (Hin1 & Hb1), Hf as (Hin2 & Hb2). destruct (comp t f) eqn:Etf.
      * split. { apply in_or_app; auto. } intros y Hy. apply in_app_or in Hy. destruct Hy as [Hy|Hy]; auto.
        destruct (comp y t) eqn:Eyt; auto. rewrite <- (Hb2 y Hy). symmetry. eapply comp_trans; eauto.
      * split. { apply in_or_app; auto. } intros y Hy. apply in_app_or in Hy. destruct Hy as [Hy|Hy]; auto.
        destruct (comp y f) eqn:Eyf; auto. destruct (comp_negtrans y f t Eyf) as [E'|E']; [|congruence].
        rewrite (Hb1 y Hy) in E'. discriminate.
Qed.

Lemma lastn_all n (xs : list A) : (length xs <= n)%nat -> lastn n xs = xs.
Proof. intros. unfold lastn. replace (length xs - n)%nat with O by lia. reflexivity. Qed.

Lemma lastn_snoc n (xs : list A) x : (n <= length xs)%nat -> (0 < n)%nat -> lastn n (xs ++ [x]) = tl (lastn n xs) ++ [x].
Proof.
  intros. unfold lastn. rewrite app_length. simpl. replace (length xs + 1 - n)%nat with (S (length xs - n)) by lia.
  rewrite skipn_S_tl, skipn_app. replace (length xs - n - length xs)%nat with O by lia. simpl skipn.
  destruct (skipn (length xs - n) xs) eqn:E; [|reflexivity].
  apply (f_equal (@length A)) in E. rewrite skipn_length in E. simpl in E. lia.
Qed.

Lemma lastn_head n (xs : list A) : (n <= length xs)%nat -> (0 < n)%nat ->
  exists a, lastn n xs = a :: tl (lastn n xs) /\ nth_error xs (length xs - n) = Some a.
Proof.
  intros. unfold lastn. destruct (skipn (length xs - n) xs) as [|a t] eqn:E.
  - apply (f_equal (@length A)) in E. rewrite skipn_length in E. simpl in E. lia.
  - exists a. split; auto. pose proof (nth_error_skipn xs (length xs - n) 0) as H1. rewrite E in H1.
    simpl in H1. rewrite Nat.add_0_r in H1. auto.
Qed.

Lemma lastn_length n (xs : list A) : length (lastn n xs) = Nat.min n (length xs).
Proof. unfold lastn. rewrite skipn_length. lia. Qed.

Lemma lastn_incl n (xs : list A) : incl (lastn n xs) xs.
Proof. unfold lastn. intros y Hy. rewrite <- (firstn_skipn (length xs - n) xs). apply in_or_app; auto. Qed.

Lemma movext_call_ok xs m x :
  (forall y, In y xs -> eqb init y = false) \/ worst -> (forall y, In y (xs ++ [x]) -> P y) ->
  minv xs m ->
  exists m' v, movext_call eqb comp NUM m x = Ok (m', v) /\ minv (xs ++ [x]) m' /\
    best (lastn (Z.to_nat NUM) (xs ++ [x])) v.
Proof.
  intros Hinit HP Hm. unfold movext_call. destruct xs as [|x0 xs0].
  - unfold minv in Hm. unfold movext_new in Hm.
    destruct (stack_push_R NUM Hnum (stack_new NUM) [] init (stack_new_R NUM Hnum)) as (d0 & E0 & Hd0); [cbn; lia|].
    rewrite E0 in Hm. cbn [bind] in Hm. injection Hm as <-. cbn [m_window m_disp m_refill].
    destruct (delay_call_inv NUM Hnum init [] _ x (delay_new_inv NUM Hnum init)) as (w & old & -> & Hold & Hw).
    cbn [bind]. change ([] ++ [init]) with ([] ++ [init]) in Hd0. rewrite (stack_top_R NUM Hnum _ [] _ Hd0). cbn [bind].
    assert (old = init).
    { simpl in Hold. rewrite app_nil_r in Hold. destruct (Z.to_nat NUM) eqn:E; [lia|]. simpl in Hold. congruence. }
    subst old. replace (eqb init init) with true by (symmetry; apply eqb_true; auto).
    destruct (stack_pop_R NUM Hnum _ [] _ Hd0) as (d1 & -> & Hd1). cbn [bind].
    destruct (tail_ok w x d1 (stack_new NUM) [] [] []) as (m' & v & E & Hw' & HS & Hb); auto.
    { apply stack_new_R; auto. } { constructor. }
    rewrite E. exists m', v. split; auto.
    assert (EL : lastn (Z.to_nat NUM) ([] ++ [x]) = [] ++ [x]) by (apply lastn_all; simpl; lia).
    rewrite EL. split; auto. unfold minv. cbn [app]. cbn [app] in EL. rewrite EL. rewrite Hw'. auto.
  - set (xs := x0 :: xs0) in *. destruct Hm as (Hdel & Sd & Sr & Hd & Hr & Hne & HD).
    destruct (delay_call_inv NUM Hnum init xs _ x Hdel) as (w & old & -> & Hold & Hw). cbn [bind].
    destruct (records_head Sd Hne) as (r & tr & Er & Hbr).
    assert (Hd2 := Hd). rewrite Er in Hd2. simpl rev in Hd2. rewrite (stack_top_R NUM Hnum _ _ _ Hd2). cbn [bind].
    set (L := lastn (Z.to_nat NUM) xs) in *.
    set (L0 := if (length xs <? Z.to_nat NUM)%nat then L else tl L).
    assert (EL : lastn (Z.to_nat NUM) (xs ++ [x]) = L0 ++ [x]).
    { unfold L0, L. destruct (Nat.ltb_spec (length xs) (Z.to_nat NUM)).
      - rewrite !lastn_all; auto; try lia. rewrite app_length; cbn [length]; lia.
      - apply lastn_snoc; lia. }
    assert (HPL : forall y, In y (L0 ++ [x]) -> P y).
    { intros y Hy. apply HP. rewrite <- EL in Hy. now apply lastn_incl in Hy. }
    assert (HPS : forall y, In y Sd -> P y).
    { intros y Hy. apply HP. apply in_or_app. left. apply (lastn_incl (Z.to_nat NUM)).
      apply (drops_incl _ _ HD). apply in_or_app; auto. }
    assert (HL0 : zlen L0 < NUM).
    { unfold L0, L, zlen. destruct (Nat.ltb_spec (length xs) (Z.to_nat NUM)).
      - rewrite lastn_length. lia.
      - assert (length (tl (lastn (Z.to_nat NUM) xs)) = pred (length (lastn (Z.to_nat NUM) xs))) as ->
          by (destruct (lastn _ xs); reflexivity). rewrite lastn_length. lia. }
    (* popping the head of Sd when everything in it is equivalent to a worst init *)
    assert (Hpop : worst -> eqb init r = true -> forall L1, drops L1 (Sd ++ Sr) ->
      exists d1 Sd1, stack_pop (m_disp m) = Ok d1 /\ stack_R NUM d1 (rev (records Sd1)) /\ drops L1 (Sd1 ++ Sr)).
    { intros Hw0 Her L1 HD1. pose proof (all_equiv Sd r Hw0 HPS Hbr Her) as Hall.
      destruct Sd as [|h t]; [congruence|]. 
      assert (Hd3 := Hd). rewrite (records_equiv h t Hall) in Hd3. simpl rev in Hd3.
      destruct (stack_pop_R NUM Hnum _ _ _ Hd3) as (d1 & E1 & Hd1). exists d1, t. splits; auto; try apply Hd1.
      simpl in HD1. apply drops_tl with (a := h); auto. split; auto. apply Hall. now left. }
    assert (Hstage : exists d1 Sd1, (if eqb old r then stack_pop (m_disp m) else Ok (m_disp m)) = Ok d1 /\
       stack_R NUM d1 (rev (records Sd1)) /\ drops L0 (Sd1 ++ Sr)).
    { unfold L0. destruct (Nat.ltb_spec (length xs) (Z.to_nat NUM)) as [Hlt|Hge].
      - assert (old = init).
        { rewrite nth_error_app1 in Hold by (rewrite repeat_length; lia).
          rewrite nth_error_repeat in Hold by lia. congruence. }
        subst old. destruct (eqb init r) eqn:Eir.
        + assert (Hw0 : worst).
          { destruct Hinit as [Hinit|]; auto. exfalso. rewrite (Hinit r) in Eir; [discriminate|].
            apply (lastn_incl (Z.to_nat NUM)). apply (drops_incl _ _ HD). apply in_or_app. left. apply Hbr. }
          apply Hpop; auto.
        + exists (m_disp m), Sd. auto.
      - destruct (lastn_head (Z.to_nat NUM) xs Hge) as (a & Ea & Hna); [lia|]. fold L in Ea.
        assert (old = a).
        { rewrite nth_error_app2 in Hold by (rewrite repeat_length; lia). rewrite repeat_length in Hold.
          congruence. }
        subst old. rewrite Ea in HD. cbn [tl]. 
        remember (tl L) as LT eqn:EqLT. clear EqLT.
        inversion HD as [|a' w0 w' HD1 Eq1 Eq2|a' w0 w' Hdr HD1 Eq1 Eq2].
        + destruct Sd as [|h t]; [congruence|]. simpl in Eq2. injection Eq2 as -> ->. subst.
          cbn [records] in Er. destruct (existsb (fun s => comp s h) t) eqn:Eex.
          * assert (Hd4 := Hd). cbn [records] in Hd4. rewrite Eex in Hd4.
            replace (eqb h r) with false.
            -- exists (m_disp m), t. auto.
            -- symmetry. destruct (eqb h r) eqn:Ehr; auto. exfalso. apply eqb_true in Ehr.
               apply existsb_exists in Eex. destruct Eex as (s & Hs & Hc).
               destruct (comp_negtrans s h r Hc) as [E'|E']; [|intuition congruence].
               destruct Hbr as [_ Hbr]. rewrite (Hbr s) in E'; [discriminate|now right].
          * injection Er as -> Etr. subst tr. replace (eqb r r) with true by (symmetry; apply eqb_true; auto).
            destruct (stack_pop_R NUM Hnum _ _ _ Hd2) as (d1 & -> & Hd1). exists d1, t. auto.
        + subst. destruct Hdr as [Hea Hw0]. destruct (eqb a r) eqn:Ear.
          * apply Hpop; auto. apply eqb_true. apply eqb_true in Hea. apply eqb_true in Ear.
            split; [apply Hw0, HPS, Hbr|].
            destruct (comp r init) eqn:E'; auto. destruct (comp_negtrans r init a E'); intuition congruence.
          * exists (m_disp m), Sd. auto. }
    destruct Hstage as (d1 & Sd1 & -> & Hd1 & HD1). cbn [bind].
    destruct (tail_ok w x d1 (m_refill m) Sd1 Sr L0) as (m' & v & E & Hw' & HS & Hb); auto.
    rewrite E, EL. exists m', v. split; auto. split; auto.
    unfold minv. destruct (xs ++ [x]) as [|y0 ys0] eqn:Ey; [destruct xs; discriminate|].
    rewrite EL, Hw'. auto.
Qed.

Lemma movext_run_ok xs :
  (forall y, In y xs -> eqb init y = false) \/ worst -> (forall y, In y xs -> P y) ->
  exists m vs, movext_run eqb comp NUM init xs = Ok (m, vs) /\ length vs = length xs /\
    forall t v, nth_error vs t = Some v -> best (lastn (Z.to_nat NUM) (firstn (S t) xs)) v.
Proof.
  intros Hinit HP. unfold movext_run.
  destruct (stack_push_R NUM Hnum (stack_new NUM) [] init (stack_new_R NUM Hnum)) as (d0 & E0 & Hd0); [cbn; lia|].
  destruct (movext_new NUM init) as [m0| | |] eqn:E; 
    try (unfold movext_new in E; rewrite E0 in E; cbn in E; discriminate).
  cbn [bind].
  assert (G : forall ys h m, minv h m -> (forall y, In y (h ++ ys) -> eqb init y = false) \/ worst ->
    (forall y, In y (h ++ ys) -> P y) -> exists m' vs, run (movext_call eqb comp NUM) m ys = Ok (m', vs) /\ length vs = length ys /\
      forall t v, nth_error vs t = Some v -> best (lastn (Z.to_nat NUM) (h ++ firstn (S t) ys)) v).
  { induction ys as [|y ys IH]; intros h m Hm Hi Hp.
    - exists m, []. splits; auto. intros [|t] v Hv; discriminate.
    - cbn [run]. destruct (movext_call_ok h m y) as (m1 & v1 & -> & Hm1 & Hb); auto.
      { destruct Hi as [Hi|]; auto. left. intros z Hz. apply Hi. apply in_or_app; auto. }
      { intros z Hz. apply Hp. change (y :: ys) with ([y] ++ ys). rewrite app_assoc. apply in_or_app; auto. }
      cbn [bind]. destruct (IH (h ++ [y]) m1 Hm1) as (m2 & vs & -> & Hl & Hv).
      { rewrite <- app_assoc. exact Hi. }
      { rewrite <- app_assoc. exact Hp. }
      cbn [bind]. exists m2, (v1 :: vs). splits; auto. { simpl; auto. }
      intros [|t] v Hn.
      + simpl in Hn. injection Hn as <-. exact Hb.
      + simpl in Hn. apply Hv in Hn. rewrite <- app_assoc in Hn. exact Hn. }
  destruct (G xs [] m0) as (m & vs & Hr & Hl & Hv); auto. exists m, vs. auto.
Qed.
End Run.
End MovExt.
