(* Amortised cost of movext.hh and cost of swa.hh *)
From Verif Require Import Proofs.BaseLemmas Proofs.ContainerProofs Proofs.MovExtProofs Proofs.MovNan Proofs.SwaProofs Proofs.QuickCostProofs Model.StreamCost.
Open Scope Z_scope.

Lemma er_unit {A} (m : outcome A) : er (unit_of m) = m.
Proof. destruct m; reflexivity. Qed.
Lemma er_cret {A} (x : A) : er (cret x) = Ok x. Proof. reflexivity. Qed.
Lemma er_run {S I O} (step : S -> I -> counted (S * O)) (step' : S -> I -> outcome (S * O)) : (forall s x, er (step s x) = step' s x) ->
  forall xs s, er (crun step s xs) = run step' s xs.
Proof.
  intros H. induction xs as [|x xs IH]; intros s; cbn [crun run]; [reflexivity|]. rewrite er_bind, H. apply bind_ext. intros [s' o]. rewrite er_bind, IH. apply bind_ext. intros [s2 os]. reflexivity.
Qed.
Lemma cbind_ok {A B} (m : counted A) (f : A -> counted B) y c : cbind m f = Ok (y, c) -> exists x a b, m = Ok (x, a) /\ f x = Ok (y, b) /\ c = a + b.
Proof.
  destruct m as [[x a]| | |]; cbn; try discriminate. destruct (f x) as [[z b]| | |] eqn:E; cbn; try discriminate. intros Q. inversion Q; subst. eauto 8.
Qed.
Lemma free_ok {A} (m : outcome A) x c : free m = Ok (x, c) -> m = Ok x /\ c = 0.
Proof. destruct m; cbn; try discriminate. intros Q. inversion Q; auto. Qed.
Lemma unit_ok {A} (m : outcome A) x c : unit_of m = Ok (x, c) -> m = Ok x /\ c = 1.
Proof. destruct m; cbn; try discriminate. intros Q. inversion Q; auto. Qed.
Lemma cret_ok {A} (v x : A) c : cret v = Ok (x, c) -> v = x /\ c = 0.
Proof. unfold cret. intros Q. inversion Q; auto. Qed.

Section Mov.
Context {A : Type} (eqb comp : A -> A -> bool) (NUM : Z).
Ltac erb := rewrite ?er_bind, ?er_free, ?er_unit; cbn [bind]; try (apply bind_ext; intros ?).
Lemma er_drop fuel : forall r x, er (cmovext_drop comp fuel r x) = movext_drop comp fuel r x.
Proof. induction fuel as [|f IH]; intros r x; cbn [cmovext_drop movext_drop]; destruct (stack_empty r); try reflexivity; erb; erb; destruct (comp x x0); try reflexivity. erb. apply IH. Qed.
Lemma er_transfer fuel : forall (d r : stack A), er (cmovext_transfer NUM fuel d r) = movext_transfer NUM fuel d r.
Proof. induction fuel as [|f IH]; intros d r; cbn [cmovext_transfer movext_transfer]; destruct (stack_empty r); try reflexivity. erb. erb. erb. apply IH. Qed.
Lemma er_call m x : er (cmovext_call eqb comp NUM m x) = movext_call eqb comp NUM m x.
Proof.
  unfold cmovext_call, movext_call. rewrite er_bind, er_free. apply bind_ext. intros [w old]. rewrite er_bind, er_free. apply bind_ext. intros top. rewrite er_bind, er_unit. cbn [bind].
  rewrite er_bind. replace (er (if eqb old top then unit_of (stack_pop (m_disp m)) else cret (m_disp m))) with (if eqb old top then stack_pop (m_disp m) else Ok (m_disp m)) by (destruct (eqb old top); [now rewrite er_unit|reflexivity]).
  apply bind_ext. intros d. rewrite er_bind, er_drop. apply bind_ext. intros r. rewrite er_bind, er_unit. apply bind_ext. intros r'. destruct (stack_empty d).
  - rewrite er_bind, er_transfer. apply bind_ext. intros [d' r2]. rewrite er_bind, er_free. apply bind_ext. intros t. reflexivity.
  - rewrite er_bind, er_free. apply bind_ext. intros t. rewrite er_bind, er_free. apply bind_ext. intros f. rewrite er_bind, er_unit. reflexivity.
Qed.
Lemma er_movrun init xs : er (cmovext_run eqb comp NUM init xs) = movext_run eqb comp NUM init xs.
Proof.
  unfold cmovext_run, movext_run. rewrite er_bind. replace (er (cmovext_new NUM init)) with (movext_new NUM init); [|unfold cmovext_new, movext_new; rewrite er_bind, er_unit; apply bind_ext; reflexivity].
  apply bind_ext. intros m. apply er_run. apply er_call.
Qed.

Ltac ck := repeat match goal with
  | H : cbind _ _ = Ok _ |- _ => apply cbind_ok in H; destruct H as (? & ? & ? & ? & H & ?)
  | H : free _ = Ok _ |- _ => apply free_ok in H; destruct H
  | H : unit_of _ = Ok _ |- _ => apply unit_ok in H; destruct H
  | H : cret _ = Ok _ |- _ => apply cret_ok in H; destruct H
  | H : (let '(_, _) := ?x in _) = Ok _ |- _ => destruct x
  end.
Lemma push_pos (s s' : stack A) x : stack_push NUM s x = Ok s' -> s_pos s' = s_pos s + 1 /\ s_pos s < NUM - 1.
Proof. unfold stack_push, cassert. destruct (Z.ltb_spec (s_pos s) (NUM - 1)); cbn; [|discriminate]. destruct (set _ _ _); cbn; try discriminate. intros Q. inversion Q. cbn. lia. Qed.
Lemma pop_pos (s s' : stack A) : stack_pop s = Ok s' -> s_pos s' = s_pos s - 1 /\ 0 <= s_pos s.
Proof. unfold stack_pop, cassert. destruct (Z.leb_spec 0 (s_pos s)); cbn; [|discriminate]. intros Q. inversion Q. cbn. lia. Qed.

(** the sweep: every sample removed costs one comparison and one pop, one more comparison may fail *)
Lemma drop_cost fuel : forall r x r' c, cmovext_drop comp fuel r x = Ok (r', c) ->
  -1 <= s_pos r -> -1 <= s_pos r' <= s_pos r /\ 2 * (s_pos r - s_pos r') <= c <= 2 * (s_pos r - s_pos r') + 1.
Proof.
  induction fuel as [|f IH]; intros r x r' c H Hp; cbn [cmovext_drop] in H; destruct (stack_empty r) eqn:E.
  1,3: apply cret_ok in H as [<- ->]; lia.
  - apply cbind_ok in H as (t & a & b & H1 & H & ->). apply free_ok in H1 as [H1 ->]. apply cbind_ok in H as (q & a & b0 & H2 & H & ->). apply unit_ok in H2 as [H2 ->].
    destruct q; [discriminate|]. apply cret_ok in H as [<- ->]. lia.
  - apply cbind_ok in H as (t & a & b & H1 & H & ->). apply free_ok in H1 as [H1 ->]. apply cbind_ok in H as (q & a & b0 & H2 & H & ->). apply unit_ok in H2 as [H2 ->].
    destruct q.
    + apply cbind_ok in H as (r2 & a & b & H3 & H & ->). apply unit_ok in H3 as [H3 ->]. apply pop_pos in H3. apply IH in H; lia.
    + apply cret_ok in H as [<- ->]. lia.
Qed.
Lemma transfer_cost fuel : forall (d r : stack A) d' r' c, cmovext_transfer NUM fuel d r = Ok ((d', r'), c) -> -1 <= s_pos r -> s_pos r' = -1 /\ c = 2 * (s_pos r + 1).
Proof.
  induction fuel as [|f IH]; intros d r d' r' c H Hp; cbn [cmovext_transfer] in H; destruct (stack_empty r) eqn:E; try discriminate.
  1,2: apply cret_ok in H as [Q ->]; inversion Q; subst; unfold stack_empty in E; apply Z.eqb_eq in E; lia.
  apply cbind_ok in H as (t & a & b & H1 & H & ->). apply free_ok in H1 as [_ ->]. apply cbind_ok in H as (q & a & b0 & H2 & H & ->). apply unit_ok in H2 as [_ ->].
  apply cbind_ok in H as (r2 & a & b & H3 & H & ->). apply unit_ok in H3 as [H3 ->]. apply pop_pos in H3. apply IH in H; lia.
Qed.
Definition good (m : movext A) : Prop := -1 <= s_pos (m_refill m) < NUM.
Lemma call_cost m x m' v c : good m -> cmovext_call eqb comp NUM m x = Ok ((m', v), c) ->
  good m' /\ 0 <= c /\ c + 2 * (s_pos (m_refill m') + 1) <= 2 * (s_pos (m_refill m) + 1) + 7 /\ c <= 2 * NUM + 6 /\
  (s_pos (m_refill m') = -1 -> 2 * (s_pos (m_refill m) + 1) + 2 <= c).
Proof.
  unfold good. intros G H. unfold cmovext_call in H. apply cbind_ok in H as ([w old] & a1 & b & H1 & H & ->). apply free_ok in H1 as [_ ->].
  apply cbind_ok in H as (top & a2 & b2 & H1 & H & ->). apply free_ok in H1 as [_ ->]. apply cbind_ok in H as (q & a3 & b3 & H1 & H & ->). apply unit_ok in H1 as [_ ->].
  apply cbind_ok in H as (d & a4 & b4 & H1 & H & ->). assert (A4 : 0 <= a4 <= 1) by (destruct q; [apply unit_ok in H1|apply cret_ok in H1]; lia). clear H1.
  apply cbind_ok in H as (r & a5 & b5 & H1 & H & ->). apply drop_cost in H1; [|lia].
  apply cbind_ok in H as (r1 & a6 & b6 & H2 & H & ->). apply unit_ok in H2 as [H2 ->]. apply push_pos in H2.
  destruct (stack_empty d).
  - apply cbind_ok in H as ([d2 r2] & a7 & b7 & H3 & H & ->). apply transfer_cost in H3; [|lia]. apply cbind_ok in H as (t & a8 & b8 & H4 & H & ->). apply free_ok in H4 as [_ ->]. apply cret_ok in H as [Q ->]. inversion Q; subst. cbn [m_refill]. lia.
  - apply cbind_ok in H as (t & a7 & b7 & H3 & H & ->). apply free_ok in H3 as [_ ->]. apply cbind_ok in H as (f & a8 & b8 & H4 & H & ->). apply free_ok in H4 as [_ ->].
    apply cbind_ok in H as (q2 & a9 & b9 & H5 & H & ->). apply unit_ok in H5 as [_ ->]. apply cret_ok in H as [Q ->]. inversion Q; subst. cbn [m_refill]. lia.
Qed.
Lemma runs_cost xs : forall m m' os c, good m -> crun (cmovext_call eqb comp NUM) m xs = Ok ((m', os), c) ->
  good m' /\ 0 <= c /\ c + 2 * (s_pos (m_refill m') + 1) <= 2 * (s_pos (m_refill m) + 1) + 7 * zlen xs.
Proof.
  induction xs as [|x xs IH]; intros m m' os c G H; cbn [crun] in H.
  - apply cret_ok in H as [Q ->]. inversion Q; subst. rewrite (@zlen_nil A). split; [auto|lia].
  - apply cbind_ok in H as ([m1 o] & a & b & H1 & H & ->). apply (call_cost _ _ _ _ _ G) in H1 as (G1 & P & L & _). apply cbind_ok in H as ([m2 os2] & a2 & b2 & H2 & H & ->). apply cret_ok in H as [Q ->]. inversion Q; subst.
    destruct (IH _ _ _ _ G1 H2) as (G2 & P2 & L2). rewrite zlen_cons. split; [exact G2|]. lia.
Qed.
Lemma movext_amortised init xs m os c : cmovext_run eqb comp NUM init xs = Ok ((m, os), c) -> 1 <= c <= 7 * zlen xs + 1.
Proof.
  unfold cmovext_run. intros H. apply cbind_ok in H as (m0 & a & b & H0 & H & ->). unfold cmovext_new in H0. apply cbind_ok in H0 as (d & a1 & b1 & H1 & H0 & ->). apply unit_ok in H1 as [H1 ->]. apply push_pos in H1. cbn in H1.
  apply cret_ok in H0 as [<- ->]. assert (G : good (mkMovExt (delay_new NUM init) d (stack_new NUM))) by (unfold good; cbn; lia). apply (runs_cost _ _ _ _ _ G) in H as (G' & P & L). cbn [m_refill s_pos stack_new] in L. unfold good in G'. lia.
Qed.
End Mov.

(** ascending samples 1, 2, ..., NUM pile up in the refill stack *)
Section Worst.
Context (NUM : Z) (Hnum : 0 < NUM) (init : Z) (Hinit : NUM + 1 < init).
Definition asc (a n : nat) : list Z := map Z.of_nat (seq a n).
Lemma asc_snoc a n : asc a (S n) = asc a n ++ [Z.of_nat (a + n)].
Proof. unfold asc. rewrite seq_S, map_app. reflexivity. Qed.
Lemma asc_len a n : zlen (asc a n) = Z.of_nat n.
Proof. unfold asc, zlen. rewrite map_length, seq_length. reflexivity. Qed.
Lemma dropl_asc x n : Z.of_nat (2 + n) <= x -> dropl Z.ltb x (asc 2 n) = asc 2 n.
Proof.
  intros H. destruct n; [reflexivity|]. rewrite asc_snoc, dropl_snoc. destruct (Z.ltb_spec x (Z.of_nat (2 + n))); [lia|reflexivity].
Qed.
Definition holdsZ := holds NUM init.
Lemma call_old m xs ld lr x : holdsZ m xs ld lr -> zlen (dropl Z.ltb x lr) < NUM -> exists old l z, nth_error (repeat init (Z.to_nat NUM) ++ xs) (length xs) = Some old /\ ld = l ++ [z] /\
  exists m' v, movext_call Z.eqb Z.ltb NUM m x = Ok (m', v) /\
    match (if old =? z then l else ld) with [] => holdsZ m' (xs ++ [x]) (rev (dropl Z.ltb x lr ++ [x])) [] | ld1 => holdsZ m' (xs ++ [x]) ld1 (dropl Z.ltb x lr ++ [x]) end.
Proof.
  intros H Hl. destruct (delay_call_inv NUM Hnum init xs (m_window m) x (proj1 H)) as (w' & old & Ew & Eo & Hw').
  pose proof (call_any (fun a b => if Z.eq_dec a old then Z.eqb a b else Z.eqb old b) Z.ltb NUM Hnum init m xs ld lr x H) as (old2 & l & z & El & C). cbv zeta in C.
  assert (Q : (if Z.eq_dec old2 old then old2 =? z else old =? z) = (old =? z)) by (destruct (Z.eq_dec old2 old) as [->|]; reflexivity). rewrite Q in C.
  exists old, l, z. split; [exact Eo|]. split; [exact El|]. destruct (Z.ltb_spec (zlen (dropl Z.ltb x lr)) NUM); [|lia]. destruct C as (m' & v & E & C). exists m', v. split; [|unfold holdsZ; destruct (if old =? z then l else ld); exact C].
  rewrite <- E. unfold movext_call. rewrite Ew. cbn [bind]. apply bind_ext. intros t. destruct (Z.eq_dec old old); [reflexivity|congruence].
Qed.
Lemma pile n : (1 <= n)%nat -> Z.of_nat n <= NUM -> exists m os, movext_run Z.eqb Z.ltb NUM init (asc 1 n) = Ok (m, os) /\ holdsZ m (asc 1 n) [1] (asc 2 (n - 1)).
Proof.
  unfold movext_run. destruct (new_holds NUM Hnum init) as (m0 & -> & H0). cbn [bind]. intros Hn. induction Hn as [|n Hn IH]; intros Hle.
  - destruct (call_old m0 [] [init] [] 1 H0) as (old & l & z & Eo & El & m' & v & E & C); [cbn; lia|]. change (dropl Z.ltb 1 []) with (@nil Z) in C.
    cbn [length] in Eo. rewrite app_nil_r, nth_error_repeat in Eo by lia. injection Eo as <-. change [init] with ([] ++ [init]) in El. apply app_inj_tail in El as [<- <-]. rewrite Z.eqb_refl in C. exists m', [v]. change (asc 1 1) with [1]. cbn [run]. rewrite E. cbn [bind run]. split; [reflexivity|exact C].
  - destruct IH as (m & os & E & H); [lia|]. rewrite asc_snoc, run_snoc, E. cbn [bind].
    assert (D : dropl Z.ltb (Z.of_nat (1 + n)) (asc 2 (n - 1)) = asc 2 (n - 1)) by (apply dropl_asc; lia).
    destruct (call_old m _ _ _ (Z.of_nat (1 + n)) H) as (old & l & z & Eo & El & m' & v & E' & C); [rewrite D, asc_len; lia|].
    assert (Lx : length (asc 1 n) = n) by (unfold asc; rewrite map_length, seq_length; reflexivity). rewrite Lx in Eo. rewrite nth_error_app1, nth_error_repeat in Eo by (rewrite ?repeat_length; lia). injection Eo as <-.
    change [1] with ([] ++ [1]) in El. apply app_inj_tail in El as [<- <-]. replace (init =? 1) with false in C by (symmetry; apply Z.eqb_neq; lia). rewrite D in C. rewrite E'. cbn [bind]. eexists _, _. split; [reflexivity|].
    replace (S n - 1)%nat with (S (n - 1)) by lia. rewrite asc_snoc. replace (2 + (n - 1))%nat with (1 + n)%nat by lia. exact C.
Qed.
Lemma movext_spike : exists m os m' v c, movext_run Z.eqb Z.ltb NUM init (asc 1 (Z.to_nat NUM)) = Ok (m, os) /\ cmovext_call Z.eqb Z.ltb NUM m (NUM + 1) = Ok ((m', v), c) /\ 2 * NUM <= c.
Proof.
  destruct (pile (Z.to_nat NUM)) as (m & os & E & H); [lia..|]. exists m, os.
  assert (D : dropl Z.ltb (NUM + 1) (asc 2 (Z.to_nat NUM - 1)) = asc 2 (Z.to_nat NUM - 1)) by (apply dropl_asc; lia).
  destruct (call_old m _ _ _ (NUM + 1) H) as (old & l & z & Eo & El & m' & v & E' & C); [rewrite D, asc_len; lia|].
  assert (Lx : length (asc 1 (Z.to_nat NUM)) = Z.to_nat NUM) by (unfold asc; rewrite map_length, seq_length; reflexivity). rewrite Lx in Eo.
  rewrite nth_error_app2, repeat_length, Nat.sub_diag in Eo by (rewrite repeat_length; lia). replace (Z.to_nat NUM) with (S (Z.to_nat NUM - 1)) in Eo by lia. cbn in Eo. injection Eo as <-.
  change [1] with ([] ++ [1]) in El. apply app_inj_tail in El as [<- <-]. rewrite Z.eqb_refl in C.
  rewrite <- er_call in E'. destruct (cmovext_call Z.eqb Z.ltb NUM m (NUM + 1)) as [[p c]| | |] eqn:Ec; cbn in E'; try discriminate. inversion E'; subst p.
  exists m', v, c. split; [exact E|]. split; [reflexivity|].
  destruct H as (_ & _ & Hr & _). pose proof (stack_size_R NUM _ _ Hr) as S1. destruct C as (_ & _ & Hr' & _). pose proof (stack_size_R NUM _ _ Hr') as S2. unfold stack_size in *. rewrite asc_len in S1. rewrite (@zlen_nil Z) in S2.
  apply call_cost in Ec; [|unfold good; lia]. lia.
Qed.
End Worst.

Section Swa.
Context {A : Type} (op : A -> A -> A) (NUM : Z).
Lemma er_up fuel : forall t c, er (cswa_up op fuel t c) = swa_up op fuel t c.
Proof.
  induction fuel as [|f IH]; intros t c; cbn [cswa_up swa_up]; destruct (c / 2 =? 0); try reflexivity. rewrite er_bind, er_free. apply bind_ext. intros a. rewrite er_bind, er_free. apply bind_ext. intros b. rewrite er_bind, er_unit. cbn [bind].
  rewrite er_bind, er_free. apply bind_ext. intros t'. apply IH.
Qed.
Lemma er_swa s x : er (cswa_call op NUM s x) = swa_call op NUM s x.
Proof.
  unfold cswa_call, swa_call. rewrite er_bind, er_free. apply bind_ext. intros t. rewrite er_bind, er_up. apply bind_ext. intros t'. cbv zeta. rewrite er_bind, er_free. apply bind_ext. reflexivity.
Qed.
Lemma up_cost fuel : forall t c t' k, 1 <= c -> cswa_up op fuel t c = Ok (t', k) -> k = Z.log2 c.
Proof.
  induction fuel as [|f IH]; intros t c t' k Hc H; cbn [cswa_up] in H; destruct (Z.eqb_spec (c / 2) 0) as [E|E]; try discriminate.
  1,2: apply cret_ok in H as [_ ->]; assert (c < 2) by (destruct (Z_lt_le_dec c 2); auto; assert (1 <= c / 2) by (apply Z.div_le_lower_bound; lia); lia); replace c with 1 by lia; reflexivity.
  apply cbind_ok in H as (a & a1 & b1 & H1 & H & ->). apply free_ok in H1 as [_ ->]. apply cbind_ok in H as (b & a2 & b2 & H1 & H & ->). apply free_ok in H1 as [_ ->].
  apply cbind_ok in H as (v & a3 & b3 & H1 & H & ->). apply unit_ok in H1 as [_ ->]. apply cbind_ok in H as (t1 & a4 & b4 & H1 & H & ->). apply free_ok in H1 as [_ ->].
  assert (P : 1 <= c / 2) by (assert (0 <= c / 2) by (apply Z.div_pos; lia); lia). apply IH in H; auto. subst b4.
  assert (L : Z.log2 c = Z.succ (Z.log2 (c / 2))); [|lia].
  pose proof (Z.div_mod c 2 ltac:(lia)) as DM. pose proof (Z.mod_pos_bound c 2 ltac:(lia)) as MB. destruct (Z.eq_dec (c mod 2) 0) as [M|M].
  - rewrite DM at 1. rewrite M, Z.add_0_r. apply Z.log2_double. lia.
  - replace c with (2 * (c / 2) + 1) at 1 by lia. apply Z.log2_succ_double. lia.
Qed.
Lemma znth_set_other (t t1 : list A) i j v : set t j v = Ok t1 -> i <> j -> znth t1 i = znth t i.
Proof. intros H N. apply set_Ok in H as [R ->]. apply znth_zupd_ne; lia. Qed.
(** cells that are not on the way from the leaf to the root keep their value *)
Lemma up_keeps fuel : forall t c t' k i, 1 <= c -> cswa_up op fuel t c = Ok (t', k) -> znth t' i <> znth t i -> 0 < i /\ exists n, 0 < n /\ i = c / 2 ^ n.
Proof.
  induction fuel as [|f IH]; intros t c t' k i Hc H D; cbn [cswa_up] in H; destruct (Z.eqb_spec (c / 2) 0) as [E|E]; try discriminate.
  1,2: apply cret_ok in H as [<- _]; congruence.
  apply cbind_ok in H as (a & a1 & b1 & H1 & H & ->). clear H1. apply cbind_ok in H as (b & a2 & b2 & H1 & H & ->). clear H1.
  apply cbind_ok in H as (v & a3 & b3 & H1 & H & ->). clear H1. apply cbind_ok in H as (t1 & a4 & b4 & H1 & H & ->). apply free_ok in H1 as [H1 _].
  assert (P : 1 <= c / 2) by (assert (0 <= c / 2) by (apply Z.div_pos; lia); lia).
  destruct (Z.eq_dec i (c / 2)) as [->|Ni]; [split; [lia|]; exists 1; split; [lia|]; now rewrite Z.pow_1_r|].
  destruct (IH _ _ _ _ i P H) as (Hi & n & Hn & ->).
  - intros Q. apply D. rewrite Q. eapply znth_set_other; eauto.
  - split; [exact Hi|]. exists (n + 1). split; [lia|]. rewrite Z.pow_add_r, Z.pow_1_r, Z.mul_comm, Zdiv_Zdiv by lia. reflexivity.
Qed.
Lemma swa_cost s x s' v k : wf NUM s -> 0 < NUM -> cswa_call op NUM s x = Ok ((s', v), k) -> k = Z.log2 (w_leaf s) /\ Z.log2 NUM <= k <= Z.log2 NUM + 1 /\
  forall i, znth (w_tree s') i <> znth (w_tree s) i -> 0 < i /\ exists n, 0 <= n /\ i = w_leaf s / 2 ^ n.
Proof.
  intros (_ & Hl) Hn H. unfold cswa_call in H. apply cbind_ok in H as (t & a & b & H1 & H & ->). apply free_ok in H1 as [H1 ->].
  apply cbind_ok in H as (t' & a2 & b2 & H2 & H & ->). cbv zeta in H. apply cbind_ok in H as (r & a3 & b3 & H3 & H & ->). apply free_ok in H3 as [_ ->]. apply cret_ok in H as [Q ->]. inversion Q; subst. cbn [w_tree].
  assert (P1 : 1 <= w_leaf s) by lia. pose proof (up_cost _ _ _ _ _ P1 H2) as E. split; [lia|]. split.
  - pose proof (Z.log2_le_mono NUM (w_leaf s) ltac:(lia)). pose proof (Z.log2_le_mono (w_leaf s) (2 * NUM) ltac:(lia)) as U. rewrite Z.log2_double in U by lia. lia.
  - intros i D. destruct (Z.eq_dec i (w_leaf s)) as [->|Ni]; [split; [lia|]; exists 0; split; [lia|]; now rewrite Z.pow_0_r, Z.div_1_r|].
    destruct (up_keeps _ _ _ _ _ i P1 H2) as (Pi & n & Pn & ->); [|split; [exact Pi|]; exists n; split; [lia|reflexivity]]. intros Q2. apply D. rewrite Q2. eapply znth_set_other; eauto.
Qed.
End Swa.
