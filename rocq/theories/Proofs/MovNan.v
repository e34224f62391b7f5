(* movext.hh with a comparison that is not an order: NaN *)
From Verif Require Import Proofs.BaseLemmas Proofs.ContainerProofs Proofs.MovExtProofs Model.MovExt Spec.Reduce.
Open Scope Z_scope.

Section Any.
Context {A : Type} (eqb comp : A -> A -> bool) (NUM : Z) (Hnum : 0 < NUM) (init : A).

Fixpoint dropw (x : A) (l : list A) : list A := match l with [] => [] | y :: t => if comp x y then dropw x t else l end.
Definition dropl (x : A) (l : list A) : list A := rev (dropw x (rev l)).
Lemma dropw_len x l : (length (dropw x l) <= length l)%nat.
Proof. induction l as [|y t IH]; cbn [dropw]; [lia|]. destruct (comp x y); cbn [length] in *; lia. Qed.
Lemma dropl_len x l : zlen (dropl x l) <= zlen l.
Proof. unfold dropl, zlen. pose proof (dropw_len x (rev l)). rewrite rev_length in *. lia. Qed.
Lemma dropl_snoc x l y : dropl x (l ++ [y]) = if comp x y then dropl x l else l ++ [y].
Proof. unfold dropl. rewrite rev_unit. cbn [dropw]. destruct (comp x y); [reflexivity|]. cbn [rev]. rewrite rev_involutive. reflexivity. Qed.

Lemma drop_any x fuel : forall l s, stack_R NUM s l -> (length l <= fuel)%nat -> exists s', movext_drop comp fuel s x = Ok s' /\ stack_R NUM s' (dropl x l).
Proof.
  induction fuel as [|f IH]; intros l s HR Hf.
  - destruct l; simpl in Hf; [|lia]. cbn. rewrite (stack_empty_R NUM _ _ HR). eauto.
  - cbn [movext_drop]. rewrite (stack_empty_R NUM _ _ HR). destruct l as [|y t]; [eauto|].
    destruct (exists_last (l := y :: t)) as (l' & z & El); [discriminate|]. rewrite El in *. rewrite (stack_top_R NUM Hnum _ _ _ HR). cbn [bind]. rewrite dropl_snoc. destruct (comp x z); [|eauto].
    destruct (stack_pop_R NUM Hnum _ _ _ HR) as (s' & -> & HR'). cbn [bind]. apply IH; auto. rewrite app_length in Hf. simpl in Hf. lia.
Qed.
Lemma push_full (s : stack A) l x : stack_R NUM s l -> NUM <= zlen l -> stack_push NUM s x = AssertFail.
Proof. intros (_ & Hp & _ & _) Hl. unfold stack_push, cassert. destruct (Z.ltb_spec (s_pos s) (NUM - 1)); [lia|]. reflexivity. Qed.

(** what the object holds: the history seen by the delay line, the two stacks *)
Definition holds (m : movext A) (xs ld lr : list A) : Prop :=
  delay_inv NUM init xs (m_window m) /\ stack_R NUM (m_disp m) ld /\ stack_R NUM (m_refill m) lr /\ ld <> [].
Lemma new_holds : exists m, movext_new NUM init = Ok m /\ holds m [] [init] [].
Proof.
  unfold movext_new. destruct (stack_push_R NUM Hnum (stack_new NUM) [] init (stack_new_R NUM Hnum)) as (d & -> & Hd); [rewrite (@zlen_nil A); lia|]. cbn [bind].
  eexists. split; [reflexivity|]. unfold holds. cbn [m_window m_disp m_refill]. splits; [now apply delay_new_inv|exact Hd|now apply stack_new_R|discriminate].
Qed.
Lemma stack_le (s : stack A) l : stack_R NUM s l -> zlen l <= NUM. Proof. intros (_ & _ & H & _). exact H. Qed.
Lemma snoc_nil (l : list A) x : l ++ [x] <> []. Proof. destruct l; discriminate. Qed.
Lemma call_any m xs ld lr x : holds m xs ld lr -> exists old l z, ld = l ++ [z] /\
  let ld1 := if eqb old z then l else ld in let lr1 := dropl x lr in
  if zlen lr1 <? NUM then
    exists m' v, movext_call eqb comp NUM m x = Ok (m', v) /\
      match ld1 with [] => holds m' (xs ++ [x]) (rev (lr1 ++ [x])) [] | _ => holds m' (xs ++ [x]) ld1 (lr1 ++ [x]) end
  else movext_call eqb comp NUM m x = AssertFail.
Proof.
  intros (Hw & Hd & Hr & Hne). destruct (exists_last Hne) as (l & z & ->).
  destruct (delay_call_inv NUM Hnum init xs _ x Hw) as (w' & old & Ew & _ & Hw'). exists old, l, z. split; [reflexivity|]. cbv zeta.
  unfold movext_call. rewrite Ew. cbn [bind]. rewrite (stack_top_R NUM Hnum _ _ _ Hd). cbn [bind].
  assert (D1 : exists d1, (if eqb old z then stack_pop (m_disp m) else Ok (m_disp m)) = Ok d1 /\ stack_R NUM d1 (if eqb old z then l else l ++ [z])).
  { destruct (eqb old z); [apply stack_pop_R with z; auto|eauto]. }
  destruct D1 as (d1 & -> & Hd1). cbn [bind]. set (ld1 := if eqb old z then l else l ++ [z]) in *. clearbody ld1.
  rewrite (stack_size_R NUM _ _ Hr). destruct (drop_any x (Z.to_nat (zlen lr)) lr (m_refill m) Hr) as (r1 & -> & Hr1); [unfold zlen; lia|]. cbn [bind].
  destruct (Z.ltb_spec (zlen (dropl x lr)) NUM) as [Hl|Hl]; [|rewrite (push_full _ _ _ Hr1 Hl); reflexivity].
  destruct (stack_push_R NUM Hnum r1 _ x Hr1 Hl) as (r2 & -> & Hr2). cbn [bind]. rewrite (stack_empty_R NUM _ _ Hd1). destruct ld1 as [|e ld1].
  - pose proof (stack_le _ _ Hr2) as Le. rewrite (stack_size_R NUM _ _ Hr2).
    destruct (transfer_ok NUM Hnum (Z.to_nat (zlen (dropl x lr ++ [x]))) [] (dropl x lr ++ [x]) d1 r2 Hd1 Hr2) as (d3 & r3 & -> & Hd3 & Hr3); [rewrite (@zlen_nil A); lia|unfold zlen; lia|]. cbn [bind].
    cbn [app] in Hd3. assert (Nr : rev (dropl x lr ++ [x]) <> []) by (rewrite rev_unit; discriminate). destruct (exists_last Nr) as (l3 & z3 & E3). rewrite E3 in Hd3. rewrite (stack_top_R NUM Hnum _ _ _ Hd3). cbn [bind].
    eexists _, _. split; [reflexivity|]. unfold holds. cbn [m_window m_disp m_refill]. rewrite E3. splits; auto. apply snoc_nil.
  - destruct (exists_last (l := e :: ld1)) as (l3 & z3 & E3); [discriminate|]. rewrite E3 in *. rewrite (stack_top_R NUM Hnum _ _ _ Hd1). cbn [bind].
    assert (F : exists f t, dropl x lr ++ [x] = f :: t) by (destruct (dropl x lr); cbn; eauto). destruct F as (f & t & Ef). rewrite Ef in Hr2 |- *. rewrite (stack_first_R NUM Hnum _ _ _ Hr2). cbn [bind].
    eexists _, _. split; [reflexivity|]. rewrite <- E3. unfold holds. cbn [m_window m_disp m_refill]. rewrite E3. splits; auto. apply snoc_nil.
Qed.

(** whatever the comparison does, no array is overrun and nothing loops: a call succeeds or an assertion fails *)
Lemma run_any xs : forall m h ld lr, holds m h ld lr ->
  run (movext_call eqb comp NUM) m xs = AssertFail \/ exists m' os ld' lr', run (movext_call eqb comp NUM) m xs = Ok (m', os) /\ holds m' (h ++ xs) ld' lr'.
Proof.
  induction xs as [|x xs IH]; intros m h ld lr H; cbn [run].
  - right. exists m, [], ld, lr. rewrite app_nil_r. auto.
  - destruct (call_any m h ld lr x H) as (old & l & z & _ & C). cbv zeta in C. destruct (zlen (dropl x lr) <? NUM); [|left; rewrite C; reflexivity].
    destruct C as (m' & v & E & C). rewrite E. cbn [bind].
    assert (exists ld' lr', holds m' (h ++ [x]) ld' lr') as (ld' & lr' & H') by (destruct (if eqb old z then l else ld); eauto).
    destruct (IH _ _ _ _ H') as [Q|(m2 & os & ld2 & lr2 & Q & H2)]; rewrite Q; cbn [bind]; [auto|]. right. rewrite <- app_assoc in H2. eauto 8.
Qed.

Section Nan.
Context (nu : A) (nu_eq : forall x, eqb x nu = false) (nu_comp : forall y, comp y nu = false).
Lemma nu_stays_pop l z (b : A) : In nu (l ++ [z]) -> In nu (if eqb b z then l else l ++ [z]).
Proof. intros H. destruct (eqb b z) eqn:E; auto. apply in_app_iff in H. destruct H as [|[->|[]]]; auto. rewrite nu_eq in E. discriminate. Qed.
(** nu in the dispenser: every sample is added to the other stack, which is never emptied again *)
Lemma stuck ys : forall m h ld lr last, holds m h ld lr -> In nu ld -> (lr = [] \/ exists l, lr = l ++ [last]) ->
  (forall i a b, nth_error (last :: ys) i = Some a -> nth_error (last :: ys) (S i) = Some b -> comp b a = false) -> NUM - zlen lr < zlen ys ->
  run (movext_call eqb comp NUM) m ys = AssertFail.
Proof.
  induction ys as [|y ys IH]; intros m h ld lr last H In' L Asc Len.
  - exfalso. rewrite (@zlen_nil A) in Len. destruct H as (_ & _ & Hr & _). pose proof (stack_le _ _ Hr). lia.
  - cbn [run]. destruct (call_any m h ld lr y H) as (old & l & z & -> & C). cbv zeta in C.
    assert (Dr : dropl y lr = lr). { destruct L as [->|(l' & ->)]; [reflexivity|]. rewrite dropl_snoc, (Asc 0%nat last y); auto. }
    rewrite Dr in C. destruct (Z.ltb_spec (zlen lr) NUM); [|rewrite C; reflexivity]. destruct C as (m' & v & -> & C). cbn [bind].
    pose proof (nu_stays_pop l z old In') as In2. destruct (if eqb old z then l else l ++ [z]) as [|e t]; [destruct In2|].
    rewrite (IH m' (h ++ [y]) (e :: t) (lr ++ [y]) y); auto; [right; eauto| |rewrite zlen_app, zlen_single, zlen_cons in *; lia].
    intros i a b Ha Hb. apply (Asc (S i)); auto.
Qed.
(** nu in the refill stack *)
Lemma nearly ys : forall m h ld lr l last, holds m h ld lr -> In nu lr -> lr = l ++ [last] ->
  (forall i a b, nth_error (last :: ys) i = Some a -> nth_error (last :: ys) (S i) = Some b -> comp b a = false) -> NUM + NUM - zlen lr < zlen ys ->
  run (movext_call eqb comp NUM) m ys = AssertFail.
Proof.
  induction ys as [|y ys IH]; intros m h ld lr l last H In' L Asc Len.
  - exfalso. rewrite (@zlen_nil A) in Len. destruct H as (_ & _ & Hr & _). pose proof (stack_le _ _ Hr). lia.
  - cbn [run]. destruct (call_any m h ld lr y H) as (old & l' & z & -> & C). cbv zeta in C.
    assert (Dr : dropl y lr = lr). { rewrite L, dropl_snoc, (Asc 0%nat last y); auto. }
    rewrite Dr in C. destruct (Z.ltb_spec (zlen lr) NUM); [|rewrite C; reflexivity]. destruct C as (m' & v & -> & C). cbn [bind].
    assert (Asc' : forall i a b, nth_error (y :: ys) i = Some a -> nth_error (y :: ys) (S i) = Some b -> comp b a = false) by (intros i a b Ha Hb; apply (Asc (S i)); auto).
    destruct (if eqb old z then l' else l' ++ [z]) as [|e t].
    + rewrite (stuck ys m' (h ++ [y]) (rev (lr ++ [y])) [] y); auto; [rewrite <- in_rev; apply in_app_iff; auto|]. rewrite (@zlen_nil A). rewrite zlen_cons in Len. lia.
    + rewrite (IH m' (h ++ [y]) (e :: t) (lr ++ [y]) lr y); auto; [apply in_app_iff; auto|]. rewrite zlen_app, zlen_single, zlen_cons in *. lia.
Qed.
Lemma after_nu xs ys : (forall i a b, nth_error ys i = Some a -> nth_error ys (S i) = Some b -> comp b a = false) -> 2 * NUM <= zlen ys ->
  movext_run eqb comp NUM init (xs ++ nu :: ys) = AssertFail.
Proof.
  intros Asc Len. unfold movext_run. destruct new_holds as (m0 & -> & H0). cbn [bind].
  assert (RA : forall zs m, run (movext_call eqb comp NUM) m (xs ++ zs) = ('(m1, os) <- run (movext_call eqb comp NUM) m xs ;; '(m2, os2) <- run (movext_call eqb comp NUM) m1 zs ;; Ok (m2, os ++ os2))).
  { clear. intros zs. induction xs as [|x xs IH]; intros m; cbn [run app bind].
    - destruct (run _ m zs) as [[? ?]| | |]; reflexivity.
    - destruct (movext_call eqb comp NUM m x) as [[m1 o]| | |]; cbn [bind]; auto. rewrite IH. destruct (run _ m1 xs) as [[m2 os]| | |]; cbn [bind]; auto. destruct (run _ m2 zs) as [[? ?]| | |]; reflexivity. }
  rewrite RA. destruct (run_any xs _ _ _ _ H0) as [->|(m & os & ld & lr & -> & H)]; cbn [bind]; [reflexivity|]. cbn [run].
  destruct (call_any m _ ld lr nu H) as (old & l & z & -> & C). cbv zeta in C. destruct (Z.ltb_spec (zlen (dropl nu lr)) NUM) as [Hl|]; [|rewrite C; reflexivity].
  destruct C as (m' & v & -> & C). cbn [bind].
  assert (Asc' : forall i a b, nth_error (nu :: ys) i = Some a -> nth_error (nu :: ys) (S i) = Some b -> comp b a = false).
  { intros [|i] a b Ha Hb; [injection Ha as <-; apply nu_comp|]. apply (Asc i); auto. }
  destruct (if eqb old z then l else l ++ [z]) as [|e t].
  - rewrite (stuck ys m' _ _ [] nu C); auto; [rewrite <- in_rev; apply in_app_iff; cbn; auto|rewrite (@zlen_nil A); lia].
  - rewrite (nearly ys m' _ _ _ (dropl nu lr) nu C); auto; [apply in_app_iff; cbn; auto|]. rewrite zlen_app, zlen_single. pose proof (zlen_nonneg (dropl nu lr)). lia.
Qed.
End Nan.
End Any.

(** ** The calls only compare samples: two comparisons that agree on them behave the same *)
Section Ext.
Context {A : Type} (P : A -> Prop) (eqb comp eqb' comp' : A -> A -> bool) (NUM : Z) (Hnum : 0 < NUM) (init : A).
Hypothesis Pinit : P init.
Hypothesis He : forall x y, P x -> P y -> eqb x y = eqb' x y.
Hypothesis Hc : forall x y, P x -> P y -> comp x y = comp' x y.
Lemma stack_top_in (s : stack A) l v : stack_R NUM s l -> stack_top s = Ok v -> In v l.
Proof.
  intros H E. destruct l as [|a t]; [exfalso; destruct H as (_ & Hp & _); unfold stack_top, cassert in E; rewrite Hp, (@zlen_nil A) in E; discriminate|].
  destruct (exists_last (l := a :: t)) as (l' & z & El); [discriminate|]. rewrite El in *. rewrite (stack_top_R NUM Hnum _ _ _ H) in E. injection E as <-. apply in_app_iff. cbn. auto.
Qed.
Lemma drop_ext x fuel : P x -> forall l s, stack_R NUM s l -> Forall P l -> movext_drop comp fuel s x = movext_drop comp' fuel s x.
Proof.
  intros Px. induction fuel as [|f IH]; intros l s HR F; cbn [movext_drop]; destruct (stack_empty s) eqn:Em; auto; destruct (stack_top s) as [t| | |] eqn:Et; cbn [bind]; auto;
    assert (Pt : P t) by (apply (proj1 (Forall_forall P l) F); eapply stack_top_in; eauto); rewrite Hc by auto; destruct (comp' x t); auto.
  destruct (stack_pop s) as [s'| | |] eqn:Ep; cbn [bind]; auto.
  destruct l as [|a t0]; [exfalso; rewrite (stack_empty_R NUM _ _ HR) in Em; discriminate|]. destruct (exists_last (l := a :: t0)) as (l' & z & El); [discriminate|]. rewrite El in *.
  destruct (stack_pop_R NUM Hnum _ _ _ HR) as (s'' & E'' & HR'). rewrite E'' in Ep. injection Ep as <-. apply Forall_app in F. apply (IH l'); tauto.
Qed.
Lemma dropl_in (cmp : A -> A -> bool) x l y : In y (dropl cmp x l) -> In y l.
Proof.
  unfold dropl. rewrite <- in_rev, (in_rev l). induction (rev l) as [|a t IH]; cbn [dropw]; auto. destruct (cmp x a); cbn; auto.
Qed.
Lemma call_ext m xs ld lr x : holds NUM init m xs ld lr -> Forall P (ld ++ lr ++ xs) -> P x ->
  movext_call eqb comp NUM m x = movext_call eqb' comp' NUM m x /\
  forall m' v, movext_call eqb comp NUM m x = Ok (m', v) -> exists ld' lr', holds NUM init m' (xs ++ [x]) ld' lr' /\ Forall P (ld' ++ lr' ++ xs ++ [x]).
Proof.
  intros H F Px. pose proof F as F'. apply Forall_app in F'. destruct F' as [Fd F']. apply Forall_app in F'. destruct F' as [Fr Fx]. split.
  - destruct H as (Hw & Hd & Hr & Hne). destruct (exists_last Hne) as (l & z & ->). destruct (delay_call_inv NUM Hnum init xs _ x Hw) as (w' & old & Ew & Eo & Hw').
    assert (Po : P old). { apply nth_error_In in Eo. apply in_app_iff in Eo. destruct Eo as [Eo|Eo]; [apply repeat_spec in Eo; subst; auto|apply (proj1 (Forall_forall P xs) Fx); auto]. }
    assert (Pz : P z) by (apply (proj1 (Forall_forall P _) Fd); apply in_app_iff; cbn; auto).
    unfold movext_call. rewrite Ew. cbn [bind]. rewrite (stack_top_R NUM Hnum _ _ _ Hd). cbn [bind]. rewrite He by auto.
    assert (D1 : exists d1 l1, (if eqb' old z then stack_pop (m_disp m) else Ok (m_disp m)) = Ok d1 /\ stack_R NUM d1 l1 /\ Forall P l1).
    { destruct (eqb' old z); [destruct (stack_pop_R NUM Hnum _ _ _ Hd) as (d1 & E1 & H1); exists d1, l; apply Forall_app in Fd; tauto|eauto 6]. }
    destruct D1 as (d1 & l1 & -> & Hd1 & Fd1). cbn [bind]. rewrite (drop_ext x _ Px lr _ Hr Fr).
    rewrite (stack_size_R NUM _ _ Hr). destruct (drop_any comp' NUM Hnum x (Z.to_nat (zlen lr)) lr (m_refill m) Hr) as (r1 & -> & Hr1); [unfold zlen; lia|]. cbn [bind].
    destruct (stack_push NUM r1 x) as [r2| | |] eqn:Ep; cbn [bind]; auto. destruct (stack_empty d1) eqn:Em; auto. destruct (stack_top d1) as [t| | |] eqn:Et; cbn [bind]; auto.
    destruct (stack_first r2) as [f| | |] eqn:Ef; cbn [bind]; auto. rewrite Hc; auto.
    + apply (proj1 (Forall_forall P l1) Fd1). eapply stack_top_in; eauto.
    + destruct (Z_lt_dec (zlen (dropl comp' x lr)) NUM) as [Hl|Hl]; [|rewrite (push_full NUM _ _ x Hr1) in Ep by lia; discriminate].
      destruct (stack_push_R NUM Hnum r1 _ x Hr1 Hl) as (r2' & E2 & Hr2). rewrite E2 in Ep. injection Ep as <-.
      destruct (dropl comp' x lr) as [|a t'] eqn:Ed; cbn [app] in Hr2; rewrite (stack_first_R NUM Hnum _ _ _ Hr2) in Ef; injection Ef as <-; auto.
      apply (proj1 (Forall_forall P lr) Fr). apply (dropl_in comp' x). rewrite Ed. left. reflexivity.
  - intros m' v E. destruct (call_any eqb comp NUM Hnum init m xs ld lr x H) as (old & l & z & -> & C). cbv zeta in C. destruct (zlen (dropl comp x lr) <? NUM); [|rewrite C in E; discriminate].
    destruct C as (m2 & v2 & E2 & C). rewrite E2 in E. injection E as <- <-.
    assert (F1 : Forall P (if eqb old z then l else l ++ [z])) by (destruct (eqb old z); auto; apply Forall_app in Fd; tauto).
    assert (F2 : Forall P (dropl comp x lr ++ [x])). { apply Forall_forall. intros y Hy. apply in_app_iff in Hy. destruct Hy as [Hy|[<-|[]]]; auto. apply (proj1 (Forall_forall P lr) Fr). eapply dropl_in; eauto. }
    assert (F3 : Forall P (xs ++ [x])) by (apply Forall_app; auto).
    destruct (if eqb old z then l else l ++ [z]); eexists _, _; (split; [exact C|]); apply Forall_app; (split; [try apply Forall_rev; assumption|]); apply Forall_app; (split; [auto|assumption]).
Qed.
Lemma run_ext xs : forall m h ld lr, holds NUM init m h ld lr -> Forall P (ld ++ lr ++ h) -> Forall P xs -> run (movext_call eqb comp NUM) m xs = run (movext_call eqb' comp' NUM) m xs.
Proof.
  induction xs as [|x xs IH]; intros m h ld lr H F Fx; [reflexivity|]. cbn [run]. inversion Fx as [|? ? Px Fx']; subst. destruct (call_ext m h ld lr x H F Px) as [E C]. rewrite <- E.
  destruct (movext_call eqb comp NUM m x) as [[m' v]| | |]; cbn [bind]; auto. destruct (C m' v eq_refl) as (ld' & lr' & H' & F'). rewrite (IH m' _ _ _ H' F' Fx'). reflexivity.
Qed.
Lemma movext_ext xs : Forall P xs -> movext_run eqb comp NUM init xs = movext_run eqb' comp' NUM init xs.
Proof.
  intros F. unfold movext_run. destruct (new_holds NUM Hnum init) as (m & -> & H). cbn [bind]. apply (run_ext xs m [] [init] []); auto. cbn. auto.
Qed.
End Ext.
