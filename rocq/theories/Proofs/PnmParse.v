(* Parsing of Netpbm headers *)
From Verif Require Import Proofs.BaseLemmas Proofs.WavProofs Proofs.WavRead Spec.Wav Spec.Pnm Model.Netpbm.
Open Scope Z_scope.

Fixpoint takew {A} (p : A -> bool) (l : list A) : list A :=
  match l with [] => [] | x :: t => if p x then x :: takew p t else [] end.
Fixpoint dropw {A} (p : A -> bool) (l : list A) : list A :=
  match l with [] => [] | x :: t => if p x then dropw p t else l end.

Lemma take_drop {A} (p : A -> bool) l : takew p l ++ dropw p l = l.
Proof. induction l as [|x t IH]; simpl; auto. destruct (p x); simpl; congruence. Qed.
Lemma takew_all {A} (p : A -> bool) l : Forall (fun x => p x = true) (takew p l).
Proof. induction l as [|x t IH]; simpl; auto. destruct (p x) eqn:E; auto. Qed.
Lemma dropw_head {A} (p : A -> bool) l x t : dropw p l = x :: t -> p x = false.
Proof. induction l as [|y l IH]; simpl; [discriminate|]. destruct (p y) eqn:E; auto. intros H; injection H as -> _; auto. Qed.
Lemma take_drop_app {A} (p : A -> bool) a b : Forall (fun x => p x = true) a ->
  (forall x t, b = x :: t -> p x = false) -> takew p (a ++ b) = a /\ dropw p (a ++ b) = b.
Proof.
  intros Ha Hb. induction Ha as [|x a Hx Ha IH]; simpl.
  - destruct b as [|y b]; auto. simpl. rewrite (Hb y b eq_refl). auto.
  - rewrite Hx. destruct IH as [-> ->]. auto.
Qed.

Lemma space_ws c : pnm_space c = true <-> ws c.
Proof. unfold pnm_space, ws. rewrite !orb_true_iff, !Z.eqb_eq. tauto. Qed.
Lemma digit_dig c : pnm_digit c = true <-> dig c.
Proof. unfold pnm_digit, dig. rewrite andb_true_iff, !Z.leb_le. tauto. Qed.
Lemma newline_eq c : pnm_newline c = true <-> c = 10.
Proof. apply Z.eqb_eq. Qed.

(** the state after trying to read the byte following [pre] *)
Definition dead (f : list Z) : istream := {| ibytes := f; ipos := zlen f; ieof := true; ifail := true |}.
Lemma iget_nil pre : iget (strm pre []) = (-1, dead pre).
Proof.
  unfold iget, strm, dead, igood. cbn [ieof ifail ibytes ipos negb andb]. rewrite app_nil_r.
  rewrite znth_out by lia. reflexivity.
Qed.
Lemma iget_dead f : iget (dead f) = (-1, dead f).
Proof. reflexivity. Qed.

(** ** the loops *)
Lemma spaces_ok l : forall fuel pre, (length l < fuel)%nat ->
  pnm_spaces fuel (fst (iget (strm pre l))) (snd (iget (strm pre l)))
  = Ok (iget (strm (pre ++ takew pnm_space l) (dropw pnm_space l))).
Proof.
  induction l as [|c l IH]; intros fuel pre Hf.
  - rewrite iget_nil. cbn [takew dropw fst snd]. rewrite app_nil_r, iget_nil. destruct fuel; reflexivity.
  - rewrite iget_strm. cbn [fst snd takew dropw]. destruct fuel as [|fuel]; [simpl in Hf; lia|]. cbn [pnm_spaces].
    destruct (pnm_space c) eqn:E.
    + specialize (IH fuel (pre ++ [c])). destruct (iget (strm (pre ++ [c]) l)) as [c' s']. cbn [fst snd] in IH.
      rewrite IH by (simpl in Hf; lia). rewrite <- app_assoc. reflexivity.
    + rewrite app_nil_r, iget_strm. reflexivity.
Qed.

Definition dval (acc : Z) (ds : list Z) : Z := fold_left (fun v d => 10 * v + (d - 48)) ds acc.
Lemma dval_mono ds : forall acc, 0 <= acc -> Forall dig ds -> acc <= dval acc ds.
Proof.
  induction ds as [|d ds IH]; intros acc Ha Hd; cbn [dval fold_left]; [lia|].
  inversion Hd; subst. unfold dig in *. fold (dval (10 * acc + (d - 48)) ds).
  specialize (IH (10 * acc + (d - 48))). pose proof (IH ltac:(lia) H2). lia.
Qed.

Lemma number_ok l : forall fuel pre acc, (length l < fuel)%nat -> 0 <= acc <= INT_MAX ->
  pnm_number fuel acc (fst (iget (strm pre l))) (snd (iget (strm pre l)))
  = if dval acc (takew pnm_digit l) <=? INT_MAX
    then Ok (dval acc (takew pnm_digit l), fst (iget (strm (pre ++ takew pnm_digit l) (dropw pnm_digit l))),
             snd (iget (strm (pre ++ takew pnm_digit l) (dropw pnm_digit l))))
    else Undefined.
Proof.
  induction l as [|c l IH]; intros fuel pre acc Hf Ha.
  - rewrite iget_nil. cbn [takew dropw fst snd dval fold_left]. rewrite app_nil_r, iget_nil.
    destruct (Z.leb_spec acc INT_MAX); [|lia]. destruct fuel; reflexivity.
  - rewrite iget_strm. cbn [fst snd takew dropw]. destruct fuel as [|fuel]; [simpl in Hf; lia|]. cbn [pnm_number].
    destruct (pnm_digit c) eqn:E.
    + assert (Hc : dig c) by (apply digit_dig; auto). unfold dig in Hc.
      assert (Hds : Forall dig (takew pnm_digit l)).
      { eapply Forall_impl; [|apply takew_all]. intros; apply digit_dig; auto. }
      cbn [dval fold_left]. fold (dval (10 * acc + (c - 48)) (takew pnm_digit l)).
      unfold pnm_value. destruct (Z_le_gt_dec (10 * acc + (c - 48)) INT_MAX) as [Hle|Hgt].
      * rewrite ichk_ok by (unfold INT_MIN, INT_MAX in *; lia). cbn [bind]. rewrite ichk_ok by (unfold INT_MIN, INT_MAX in *; lia). cbn [bind].
        specialize (IH fuel (pre ++ [c]) (10 * acc + (c - 48))). destruct (iget (strm (pre ++ [c]) l)) as [c' s']. cbn [fst snd] in IH.
        rewrite IH by (simpl in Hf; lia). rewrite <- app_assoc. reflexivity.
      * pose proof (dval_mono (takew pnm_digit l) (10 * acc + (c - 48)) ltac:(lia) Hds).
        destruct (Z.leb_spec (dval (10 * acc + (c - 48)) (takew pnm_digit l)) INT_MAX); [lia|].
        destruct (Z_le_gt_dec (10 * acc) INT_MAX).
        -- rewrite ichk_ok by (unfold INT_MIN, INT_MAX in *; lia). cbn [bind]. rewrite ichk_bad by lia. reflexivity.
        -- rewrite ichk_bad by lia. reflexivity.
    + cbn [dval fold_left]. destruct (Z.leb_spec acc INT_MAX); [|lia]. rewrite app_nil_r, iget_strm. reflexivity.
Qed.

Lemma skip_line_ok c : forall fuel pre r, (length c < fuel)%nat -> ~ In 10 c ->
  pnm_skip_line fuel (strm pre (c ++ 10 :: r)) = Ok (strm (pre ++ c ++ [10]) r).
Proof.
  induction c as [|x c IH]; intros fuel pre r Hf Hn; (destruct fuel as [|fuel]; [simpl in Hf; lia|]);
    cbn [pnm_skip_line app]; change (igood (strm pre _)) with true; cbn iota; rewrite iget_strm.
  - reflexivity.
  - assert (E : pnm_newline x = false) by (apply Z.eqb_neq; intros ->; apply Hn; left; auto). rewrite E.
    rewrite IH; [|simpl in Hf; lia|intros H; apply Hn; right; auto]. rewrite <- app_assoc. reflexivity.
Qed.
Lemma skip_line_end c : forall fuel pre, (length c < fuel)%nat -> ~ In 10 c ->
  pnm_skip_line fuel (strm pre c) = Ok (dead (pre ++ c)).
Proof.
  induction c as [|x c IH]; intros fuel pre Hf Hn; (destruct fuel as [|fuel]; [simpl in Hf; lia|]);
    cbn [pnm_skip_line app]; change (igood (strm pre _)) with true; cbn iota.
  - rewrite iget_nil. change (pnm_newline (-1)) with false. cbn iota. rewrite app_nil_r. destruct fuel; reflexivity.
  - rewrite iget_strm.
    assert (E : pnm_newline x = false) by (apply Z.eqb_neq; intros ->; apply Hn; left; auto). rewrite E.
    rewrite IH; [|simpl in Hf; lia|intros H; apply Hn; right; auto]. rewrite <- app_assoc. reflexivity.
Qed.

Definition not_hash (l : list Z) : Prop := match l with [] => True | b :: _ => b <> 35 end.
Lemma comments_ok cs : forall fuel pre r, (length (concat (map comment_line cs)) < fuel)%nat -> Forall (fun c => ~ In 10 c) cs -> not_hash r ->
  pnm_comments fuel (fst (iget (strm pre (concat (map comment_line cs) ++ r)))) (snd (iget (strm pre (concat (map comment_line cs) ++ r))))
  = Ok (iget (strm (pre ++ concat (map comment_line cs)) r)).
Proof.
  induction cs as [|c cs IH]; intros fuel pre r Hf Hn Hr.
  - cbn [concat map app]. rewrite app_nil_r. destruct r as [|b r].
    + rewrite iget_nil. destruct fuel; reflexivity.
    + rewrite iget_strm. cbn [fst snd]. destruct fuel; cbn [pnm_comments]; (destruct (Z.eqb_spec b 35); [contradiction|reflexivity]).
  - inversion Hn as [|? ? Hc Hcs]; subst. cbn [concat map]. unfold comment_line at 1 3. rewrite <- !app_assoc. cbn [app].
    rewrite iget_strm. cbn [fst snd]. destruct fuel as [|fuel]; [simpl in Hf; lia|]. cbn [pnm_comments]. change (35 =? 35) with true. cbn iota.
    cbn [map concat] in Hf. unfold comment_line at 1 in Hf. rewrite app_length in Hf. cbn [length] in Hf. rewrite app_length in Hf. cbn [length] in Hf.
    rewrite <- (app_assoc c). cbn [app].
    rewrite skip_line_ok by (auto; lia). cbn [bind]. specialize (IH fuel ((pre ++ [35]) ++ c ++ [10]) r).
    destruct (iget (strm ((pre ++ [35]) ++ c ++ [10]) (concat (map comment_line cs) ++ r))) as [c' s']. cbn [fst snd] in IH.
    rewrite IH by (auto; lia). do 2 f_equal. f_equal. unfold comment_line at 2. rewrite <- !app_assoc. cbn [app]. rewrite <- !app_assoc. reflexivity.
Qed.

Lemma split_newline (l : list Z) : (exists c r, l = c ++ 10 :: r /\ ~ In 10 c) \/ ~ In 10 l.
Proof.
  induction l as [|x l IH]; [right; intros []|]. destruct (Z.eq_dec x 10) as [->|Hx].
  - left. exists [], l. split; auto.
  - destruct IH as [(c & r & -> & H) | H].
    + left. exists (x :: c), r. split; auto. intros [?|?]; auto.
    + right. intros [?|?]; auto.
Qed.

Lemma comments_cases l : forall n, (length l <= n)%nat ->
  (exists cs r, l = concat (map comment_line cs) ++ r /\ Forall (fun c => ~ In 10 c) cs /\ not_hash r) \/
  (exists cs t, l = concat (map comment_line cs) ++ 35 :: t /\ Forall (fun c => ~ In 10 c) cs /\ ~ In 10 t).
Proof.
  intros n. revert l. induction n as [|n IH]; intros l Hl.
  - destruct l; [|simpl in Hl; lia]. left. exists [], []. repeat split; constructor.
  - destruct l as [|b l]; [left; exists [], []; repeat split; constructor|].
    destruct (Z.eq_dec b 35) as [->|Hb]; [|left; exists [], (b :: l); repeat split; auto].
    destruct (split_newline l) as [(c & r & -> & Hc) | H].
    + assert (Hr : (length r <= n)%nat) by (simpl in Hl; rewrite app_length in Hl; simpl in Hl; lia).
      assert (E : forall x, 35 :: c ++ 10 :: x = comment_line c ++ x).
      { intros x. unfold comment_line. cbn [app]. rewrite <- app_assoc. reflexivity. }
      destruct (IH r Hr) as [(cs & r' & -> & H1 & H2) | (cs & t & -> & H1 & H2)].
      * left. exists (c :: cs), r'. cbn [map concat]. rewrite <- app_assoc, E. auto.
      * right. exists (c :: cs), t. cbn [map concat]. rewrite <- app_assoc, E. auto.
    + right. exists [], l. auto.
Qed.

Lemma comments_end cs : forall fuel pre t, (length (concat (map comment_line cs)) + length t + 1 < fuel)%nat ->
  Forall (fun c => ~ In 10 c) cs -> ~ In 10 t ->
  exists f, pnm_comments fuel (fst (iget (strm pre (concat (map comment_line cs) ++ 35 :: t))))
    (snd (iget (strm pre (concat (map comment_line cs) ++ 35 :: t)))) = Ok (-1, dead f).
Proof.
  induction cs as [|c cs IH]; intros fuel pre t Hf Hn Ht.
  - cbn [concat map app]. rewrite iget_strm. cbn [fst snd]. destruct fuel as [|fuel]; [simpl in Hf; lia|]. cbn [pnm_comments].
    change (35 =? 35) with true. cbn iota. rewrite skip_line_end by (auto; simpl in Hf; lia). cbn [bind]. rewrite iget_dead.
    eexists. destruct fuel; reflexivity.
  - inversion Hn as [|? ? Hc Hcs]; subst. cbn [concat map]. unfold comment_line at 1 3. rewrite <- !app_assoc. cbn [app].
    rewrite iget_strm. cbn [fst snd]. destruct fuel as [|fuel]; [simpl in Hf; lia|]. cbn [pnm_comments]. change (35 =? 35) with true. cbn iota.
    cbn [map concat] in Hf. unfold comment_line at 1 in Hf. rewrite app_length in Hf. cbn [length] in Hf. rewrite app_length in Hf. cbn [length] in Hf.
    rewrite <- (app_assoc c). cbn [app].
    rewrite skip_line_ok by (auto; lia). cbn [bind].
    specialize (IH fuel ((pre ++ [35]) ++ c ++ [10]) t). destruct (iget (strm ((pre ++ [35]) ++ c ++ [10]) (concat (map comment_line cs) ++ 35 :: t))) as [c' s'].
    cbn [fst snd] in IH. apply IH; auto; lia.
Qed.

(** ** one number with what precedes it *)
Definition garbage (c : Z) : Prop := pnm_space c = false /\ pnm_digit c = false.
Lemma garbage_eof : garbage (-1). Proof. split; reflexivity. Qed.

Lemma field_garbage fuel c s : (0 < fuel)%nat -> garbage c -> pnm_field fuel c s = Ok (0, c, s).
Proof.
  intros Hf [H1 H2]. unfold pnm_field.
  assert (E : pnm_newline c = false).
  { destruct (pnm_newline c) eqn:E; auto. apply newline_eq in E. subst. discriminate. }
  rewrite E. cbn [bind]. destruct fuel; [lia|]. cbn [pnm_spaces pnm_number]. rewrite H1. cbn [bind]. rewrite H2. reflexivity.
Qed.

(** after comments: spaces and digits *)
Lemma tail_cases l fuel pre : (length l < fuel)%nat ->
  let m := ('(c, s) <- pnm_spaces fuel (fst (iget (strm pre l))) (snd (iget (strm pre l))) ;; pnm_number fuel 0 c s) in
  (exists n c s, m = Ok (n, c, s) /\ garbage c) \/
  (exists sp ds r, l = sp ++ ds ++ r /\ Forall ws sp /\ ds <> [] /\ Forall dig ds /\ (forall x t, r = x :: t -> pnm_digit x = false) /\
    (dec_value ds <= INT_MAX /\ m = Ok (dec_value ds, fst (iget (strm (pre ++ sp ++ ds) r)), snd (iget (strm (pre ++ sp ++ ds) r)))
     \/ INT_MAX < dec_value ds /\ m = Undefined)).
Proof.
  intros Hf m. subst m. rewrite spaces_ok by auto. cbn [bind].
  pose proof (take_drop pnm_space l) as E. set (sp := takew pnm_space l) in *.
  assert (Hsp : Forall ws sp). { eapply Forall_impl; [|apply takew_all]. intros; apply space_ws; auto. }
  pose proof (dropw_head pnm_space l) as Hd. set (r := dropw pnm_space l) in *.
  assert (Lr : (length r < fuel)%nat) by (rewrite <- E, app_length in Hf; lia).
  destruct r as [|x r'] eqn:Er.
  - left. rewrite iget_nil. do 3 eexists. split; [|apply garbage_eof]. destruct fuel; [lia|]. reflexivity.
  - destruct (pnm_digit x) eqn:Ex.
    2:{ left. rewrite iget_strm. exists 0, x. eexists. split; [|split; auto; apply (Hd x r' eq_refl)]. destruct fuel; [lia|]. cbn [pnm_number]. rewrite Ex. reflexivity. }
    right. exists sp, (takew pnm_digit (x :: r')), (dropw pnm_digit (x :: r')). rewrite take_drop.
    pose proof (number_ok (x :: r') fuel (pre ++ sp) 0 Lr ltac:(unfold INT_MAX; lia)) as N.
    destruct (iget (strm (pre ++ sp) (x :: r'))) as [c' s']. cbn [fst snd] in N.
    splits; auto.
    + simpl. rewrite Ex. discriminate.
    + eapply Forall_impl; [|apply takew_all]. intros; apply digit_dig; auto.
    + intros y t Ht. eapply dropw_head; eauto.
    + rewrite N. change (dval 0) with dec_value. rewrite <- app_assoc. destruct (Z.leb_spec (dec_value (takew pnm_digit (x :: r'))) INT_MAX); auto.
Qed.

Lemma field_cases l fuel pre : (length l + 1 < fuel)%nat -> (forall x t, l = x :: t -> pnm_digit x = false) ->
  let m := pnm_field fuel (fst (iget (strm pre l))) (snd (iget (strm pre l))) in
  (exists n c s, m = Ok (n, c, s) /\ garbage c) \/
  (exists sp ds r, l = sp ++ ds ++ r /\ separator sp /\ ds <> [] /\ Forall dig ds /\ (forall x t, r = x :: t -> pnm_digit x = false) /\
    (dec_value ds <= INT_MAX /\ m = Ok (dec_value ds, fst (iget (strm (pre ++ sp ++ ds) r)), snd (iget (strm (pre ++ sp ++ ds) r)))
     \/ INT_MAX < dec_value ds /\ m = Undefined)).
Proof.
  intros Hf Hl m. subst m.
  destruct l as [|b l].
  { left. rewrite iget_nil. exists 0, (-1). eexists. split; [|apply garbage_eof]. apply field_garbage; [lia|apply garbage_eof]. }
  destruct (pnm_space b) eqn:Eb.
  2:{ left. rewrite iget_strm. exists 0, b. eexists. split; [apply field_garbage; [lia|split; auto]|split; auto].
      all: apply (Hl b l eq_refl). }
  destruct (pnm_newline b) eqn:En.
  - apply newline_eq in En. subst b. rewrite iget_strm. unfold pnm_field. cbn [fst snd]. change (pnm_newline 10) with true. cbn iota.
    destruct (comments_cases l (length l) (Nat.le_refl _)) as [(cs & r & -> & H1 & H2) | (cs & t & -> & H1 & H2)].
    + pose proof (comments_ok cs fuel (pre ++ [10]) r ltac:(cbn [length] in Hf; rewrite app_length in Hf; lia) H1 H2) as C.
      destruct (iget (strm (pre ++ [10]) (concat (map comment_line cs) ++ r))) as [c s]. cbn [fst snd] in C. rewrite C. cbn [bind].
      pose proof (tail_cases r fuel ((pre ++ [10]) ++ concat (map comment_line cs)) ltac:(cbn [length] in Hf; rewrite app_length in Hf; lia)) as T.
      cbv zeta in T. destruct (iget (strm ((pre ++ [10]) ++ concat (map comment_line cs)) r)) as [c' s']. cbn [fst snd] in T.
      destruct T as [T | (sp & ds & r' & -> & T1 & T2 & T3 & T4 & T5)]; [left; exact T|right].
      exists (10 :: concat (map comment_line cs) ++ sp), ds, r'. splits; auto.
      * cbn [app]. rewrite <- app_assoc. reflexivity.
      * exists 10, cs, sp. splits; auto. right; left; auto.
      * replace (pre ++ (10 :: concat (map comment_line cs) ++ sp) ++ ds) with (((pre ++ [10]) ++ concat (map comment_line cs)) ++ sp ++ ds); auto.
        rewrite <- !app_assoc. cbn [app]. rewrite <- !app_assoc. reflexivity.
    + left. destruct (comments_end cs fuel (pre ++ [10]) t ltac:(cbn [length] in Hf; rewrite app_length in Hf; cbn [length] in Hf; lia) H1 H2) as (f & C).
      destruct (iget (strm (pre ++ [10]) (concat (map comment_line cs) ++ 35 :: t))) as [c s]. cbn [fst snd] in C. rewrite C. cbn [bind].
      exists 0, (-1). eexists. split; [|apply garbage_eof]. destruct fuel; [lia|reflexivity].
  - rewrite iget_strm. unfold pnm_field. cbn [fst snd]. rewrite En. cbn [bind].
    pose proof (tail_cases (b :: l) fuel pre ltac:(lia)) as T. cbv zeta in T. rewrite iget_strm in T. cbn [fst snd] in T.
    destruct T as [T | (sp & ds & r' & E & T1 & T2 & T3 & T4 & T5)]; [left; exact T|right].
    exists sp, ds, r'. splits; auto.
    destruct sp as [|b' sp].
    + destruct ds as [|d ds]; [contradiction|]. injection E as -> ->. inversion T3; subst. apply digit_dig in H1. rewrite (Hl d _ eq_refl) in H1. discriminate.
    + cbn [app] in E. injection E as <- E. exists b, [], sp. inversion T1; subst. splits; auto.
Qed.

Definition opened mono w h m pre rest : rpnm :=
  {| p_is := strm pre rest; p_width := Some w; p_height := Some h; p_maxval := Some m; p_mono := Some mono |}.

Lemma iopen_strm f : iopen f = strm [] f.
Proof. reflexivity. Qed.

(** whatever the file: the constructor ends, without undefined behaviour unless a number overflows *)
Lemma open_cases file :
  (exists s mono, rpnm_open (iopen file) = Ok {| p_is := s; p_width := None; p_height := None; p_maxval := None; p_mono := mono |}) \/
  (exists mono w h m text rest, file = text ++ rest /\ pnm_header mono w h m text /\ w <= INT_MAX /\ h <= INT_MAX /\ m <= INT_MAX /\
     rpnm_open (iopen file) = Ok (opened mono w h m text rest)) \/
  (pnm_overflow INT_MAX file /\ rpnm_open (iopen file) = Undefined).
Proof.
  unfold rpnm_open. cbn [iopen ibytes]. rewrite iopen_strm.
  destruct file as [|c0 file]; [left; rewrite iget_nil; do 2 eexists; reflexivity|]. rewrite iget_strm.
  destruct (Z.eqb_spec c0 80) as [->|H0]; [|left; cbn [negb]; do 2 eexists; reflexivity]. cbn [negb].
  destruct file as [|c1 file]; [left; rewrite iget_nil; do 2 eexists; reflexivity|]. rewrite iget_strm.
  destruct (pnm_digit c1) eqn:E1; [|left; cbn [negb]; do 2 eexists; reflexivity]. cbn [negb]. unfold pnm_value.
  destruct (negb (c1 - 48 =? 5) && negb (c1 - 48 =? 6)) eqn:E5; [left; do 2 eexists; reflexivity|].
  assert (Hm : exists mono : bool, c1 = (if mono then 53 else 54) /\ (c1 - 48 =? 5) = mono).
  { apply andb_false_iff in E5. rewrite !negb_false_iff, !Z.eqb_eq in E5. destruct (Z.eqb_spec (c1 - 48) 5); [exists true|exists false]; split; auto; lia. }
  destruct Hm as (mono & Ec & ->).
  set (fuel := (length (80%Z :: c1 :: file) + 2)%nat). assert (Hfu : (length file + 2 < fuel)%nat) by (unfold fuel; simpl; lia). clearbody fuel.
  pose proof (field_cases file fuel (([] ++ [80]) ++ [c1]) ltac:(lia)) as F0.
  destruct file as [|c2 file]; [left; rewrite iget_nil; do 2 eexists; reflexivity|].
  rewrite iget_strm in *. cbn [fst snd] in F0.
  destruct (pnm_space c2) eqn:E2; [|left; cbn [negb]; do 2 eexists; reflexivity]. cbn [negb].
  assert (Hnd : forall x t, c2 :: file = x :: t -> pnm_digit x = false).
  { intros x t Hx. injection Hx as <- _. apply space_ws in E2. unfold ws in E2. destruct E2 as [-> | [-> | ->]]; reflexivity. }
  specialize (F0 Hnd). clear Hnd. cbv zeta in F0.
  assert (G : forall c s, garbage c -> ('(n1, c, s) <- pnm_field fuel c s ;; '(n2, c, s) <- pnm_field fuel c s ;; if negb (pnm_space c) then
    Ok {| p_is := s; p_width := None; p_height := None; p_maxval := None; p_mono := Some mono |} else
    Ok {| p_is := s; p_width := Some 0; p_height := Some n1; p_maxval := Some n2; p_mono := Some mono |}) = Ok {| p_is := s; p_width := None; p_height := None; p_maxval := None; p_mono := Some mono |}).
  { intros c s Hg. rewrite field_garbage by (auto; lia). cbn [bind]. rewrite field_garbage by (auto; lia). cbn [bind].
    destruct Hg as [-> _]. reflexivity. }
  destruct F0 as [(n0 & c & s & -> & Hg) | (s0 & d0 & r0 & L0 & S0 & N0 & D0 & Nd0 & M0)].
  { left. cbn [bind]. rewrite field_garbage by (auto; lia). cbn [bind]. rewrite field_garbage by (auto; lia). cbn [bind].
    destruct Hg as [-> _]. cbn [negb]. do 2 eexists. reflexivity. }
  rewrite L0 in *.
  destruct M0 as [(V0 & ->) | (V0 & ->)].
  2:{ right. right. split; [|reflexivity]. exists mono, [], s0, d0, (dec_value d0), r0. splits; auto; [split; auto|subst c1; reflexivity]. }
  cbn [bind].
  pose proof (field_cases r0 fuel ((([] ++ [80]) ++ [c1]) ++ s0 ++ d0) ltac:(rewrite ?app_length in Hfu; lia) Nd0) as F1. cbv zeta in F1.
  destruct F1 as [(n1 & c & s & -> & Hg) | (s1 & d1 & r1 & L1 & S1 & N1 & D1 & Nd1 & M1)].
  { left. cbn [bind]. rewrite field_garbage by (auto; lia). cbn [bind].
    destruct Hg as [-> _]. cbn [negb]. do 2 eexists. reflexivity. }
  rewrite L1 in *.
  destruct M1 as [(V1 & ->) | (V1 & ->)].
  2:{ right. right. split; [|reflexivity]. exists mono, [(s0, d0)], s1, d1, (dec_value d1), r1.
      splits; auto; [constructor; [split; [auto|exists (dec_value d0); split; [split; auto|auto]]|constructor]|split; auto|].
      subst c1. cbn [map concat fst snd app]. rewrite app_nil_r, <- !app_assoc. reflexivity. }
  cbn [bind].
  pose proof (field_cases r1 fuel (((([] ++ [80]) ++ [c1]) ++ s0 ++ d0) ++ s1 ++ d1) ltac:(rewrite ?app_length in Hfu; lia) Nd1) as F2. cbv zeta in F2.
  destruct F2 as [(n2 & c & s & -> & Hg) | (s2 & d2 & r2 & L2 & S2 & N2 & D2 & Nd2 & M2)].
  { left. cbn [bind]. destruct Hg as [-> _]. cbn [negb]. do 2 eexists. reflexivity. }
  rewrite L2 in *.
  destruct M2 as [(V2 & ->) | (V2 & ->)].
  2:{ right. right. split; [|reflexivity]. exists mono, [(s0, d0); (s1, d1)], s2, d2, (dec_value d2), r2.
      splits; auto; [repeat constructor; cbn; eauto; [exists (dec_value d0)|exists (dec_value d1)]; repeat (split; auto)|split; auto|].
      subst c1. cbn [map concat fst snd app]. rewrite app_nil_r, <- !app_assoc. reflexivity. }
  cbn [bind].
  destruct r2 as [|t r2]; [left; rewrite iget_nil; cbn [fst snd]; do 2 eexists; reflexivity|].
  rewrite iget_strm. cbn [fst snd]. destruct (pnm_space t) eqn:Et; cbn [negb]; [|left; do 2 eexists; reflexivity].
  right. left. exists mono, (dec_value d0), (dec_value d1), (dec_value d2), ([80; c1] ++ s0 ++ d0 ++ s1 ++ d1 ++ s2 ++ d2 ++ [t]), r2.
  splits; auto.
  - cbn [app]. rewrite <- !app_assoc. reflexivity.
  - exists s0, d0, s1, d1, s2, d2, t. subst c1. splits; auto; try (split; auto). apply space_ws. auto.
  - unfold opened. do 2 f_equal. f_equal. cbn [app]. rewrite <- !app_assoc. reflexivity.
Qed.

Lemma ws_not_digit x : ws x -> pnm_digit x = false.
Proof. intros [-> | [-> | ->]]; reflexivity. Qed.
Lemma dig_not_space x : dig x -> pnm_space x = false /\ x <> 35.
Proof. unfold dig, pnm_space. intros H. split; [|lia]. destruct (Z.eqb_spec x 32), (Z.eqb_spec x 10), (Z.eqb_spec x 9); simpl; lia. Qed.

Lemma tail_ok sp ds r fuel pre : (length (sp ++ ds ++ r) < fuel)%nat -> Forall ws sp -> ds <> [] -> Forall dig ds ->
  (forall x t, r = x :: t -> pnm_digit x = false) -> dec_value ds <= INT_MAX ->
  ('(c, s) <- pnm_spaces fuel (fst (iget (strm pre (sp ++ ds ++ r)))) (snd (iget (strm pre (sp ++ ds ++ r)))) ;; pnm_number fuel 0 c s)
  = Ok (dec_value ds, fst (iget (strm (pre ++ sp ++ ds) r)), snd (iget (strm (pre ++ sp ++ ds) r))).
Proof.
  intros Hf Hsp Hne Hds Hr Hv. rewrite spaces_ok by auto. cbn [bind].
  destruct (take_drop_app pnm_space sp (ds ++ r)) as [-> ->].
  { eapply Forall_impl; [|exact Hsp]. intros; apply space_ws; auto. }
  { intros x t E. destruct ds as [|d ds]; [contradiction|]. injection E as -> _. inversion Hds; subst. apply dig_not_space; auto. }
  destruct (take_drop_app pnm_digit ds r) as [T D]; auto.
  { eapply Forall_impl; [|exact Hds]. intros; apply digit_dig; auto. }
  pose proof (number_ok (ds ++ r) fuel (pre ++ sp) 0 ltac:(rewrite app_length in Hf; lia) ltac:(unfold INT_MAX; lia)) as N.
  rewrite T, D in N. destruct (iget (strm (pre ++ sp) (ds ++ r))) as [c s]. cbn [fst snd] in N. rewrite N.
  change (dval 0 ds) with (dec_value ds). destruct (Z.leb_spec (dec_value ds) INT_MAX); [|lia]. rewrite <- app_assoc. reflexivity.
Qed.

Lemma field_ok sp ds r fuel pre : (length (sp ++ ds ++ r) < fuel)%nat -> separator sp -> ds <> [] -> Forall dig ds ->
  (forall x t, r = x :: t -> pnm_digit x = false) -> dec_value ds <= INT_MAX ->
  pnm_field fuel (fst (iget (strm pre (sp ++ ds ++ r)))) (snd (iget (strm pre (sp ++ ds ++ r))))
  = Ok (dec_value ds, fst (iget (strm (pre ++ sp ++ ds) r)), snd (iget (strm (pre ++ sp ++ ds) r))).
Proof.
  intros Hf (b & cs & sp' & Hb & Hcs & Hor & Hsp & ->) Hne Hds Hr Hv. unfold pnm_field.
  destruct (Z.eq_dec b 10) as [->|Hb10].
  - cbn [app]. rewrite iget_strm. cbn [fst snd]. change (pnm_newline 10) with true. cbn iota. rewrite <- !app_assoc.
    pose proof (comments_ok cs fuel (pre ++ [10]) (sp' ++ ds ++ r)) as C.
    cbn [app length] in Hf. rewrite <- app_assoc, app_length in Hf.
    assert (NH : not_hash (sp' ++ ds ++ r)).
    { destruct sp' as [|x sp']; cbn [app].
      - destruct ds as [|d ds]; [contradiction|]. inversion Hds; subst. cbn. apply dig_not_space; auto.
      - inversion Hsp; subst. destruct H1 as [-> | [-> | ->]]; cbn; lia. }
    specialize (C ltac:(lia) Hcs NH).
    destruct (iget (strm (pre ++ [10]) (concat (map comment_line cs) ++ sp' ++ ds ++ r))) as [c s]. cbn [fst snd] in C. rewrite C. cbn [bind].
    pose proof (tail_ok sp' ds r fuel ((pre ++ [10]) ++ concat (map comment_line cs)) ltac:(lia) Hsp Hne Hds Hr Hv) as T.
    destruct (iget (strm ((pre ++ [10]) ++ concat (map comment_line cs)) (sp' ++ ds ++ r))) as [c' s']. cbn [fst snd] in T. rewrite T.
    repeat (cbn [app]; rewrite <- ?app_assoc). reflexivity.
  - destruct Hor as [?| ->]; [contradiction|]. cbn [concat map app].
    pose proof (tail_ok (b :: sp') ds r fuel pre Hf ltac:(constructor; auto) Hne Hds Hr Hv) as T.
    cbn [app] in T. rewrite iget_strm in *. cbn [fst snd] in *.
    assert (En : pnm_newline b = false) by (apply Z.eqb_neq; auto). rewrite En. cbn [bind]. exact T.
Qed.

Lemma separator_head sp r : separator sp -> forall x t, sp ++ r = x :: t -> pnm_digit x = false.
Proof. intros (b & cs & sp' & Hb & _ & _ & _ & ->) x t E. cbn [app] in E. injection E as <- _. apply ws_not_digit; auto. Qed.

Lemma open_header mono w h m text rest : pnm_header mono w h m text -> w <= INT_MAX -> h <= INT_MAX -> m <= INT_MAX ->
  rpnm_open (iopen (text ++ rest)) = Ok (opened mono w h m text rest).
Proof.
  intros (s0 & d0 & s1 & d1 & s2 & d2 & t & S0 & (N0 & D0 & V0) & S1 & (N1 & D1 & V1) & S2 & (N2 & D2 & V2) & Ht & ->) Hw Hh Hm.
  set (mc := if mono then 53 else 54).
  unfold rpnm_open. cbn [iopen ibytes]. rewrite iopen_strm.
  set (fuel := (length (_ ++ rest) + 2)%nat).
  assert (Hfu : (length (s0 ++ d0 ++ s1 ++ d1 ++ s2 ++ d2 ++ t :: rest) < fuel)%nat).
  { unfold fuel. cbn [app length]. rewrite ?app_length. cbn [length]. rewrite ?app_length. cbn [length]. lia. }
  clearbody fuel.
  replace (([80; mc] ++ s0 ++ d0 ++ s1 ++ d1 ++ s2 ++ d2 ++ [t]) ++ rest) with (80 :: mc :: s0 ++ d0 ++ s1 ++ d1 ++ s2 ++ d2 ++ t :: rest).
  2:{ repeat (cbn [app]; rewrite <- ?app_assoc). reflexivity. }
  rewrite iget_strm. change (negb (80 =? 80)) with false. cbn iota. rewrite iget_strm.
  replace (pnm_digit mc) with true by (destruct mono; reflexivity). cbn [negb].
  replace (negb (pnm_value mc =? 5) && negb (pnm_value mc =? 6)) with false by (destruct mono; reflexivity).
  replace (pnm_value mc =? 5) with mono by (destruct mono; reflexivity).
  set (pre := ([] ++ [80]) ++ [mc]).
  pose proof (field_ok s0 d0 (s1 ++ d1 ++ s2 ++ d2 ++ t :: rest) fuel pre Hfu S0 N0 D0 (separator_head s1 _ S1) ltac:(lia)) as F0.
  pose proof (field_ok s1 d1 (s2 ++ d2 ++ t :: rest) fuel (pre ++ s0 ++ d0) ltac:(rewrite 2 app_length in Hfu; lia) S1 N1 D1 (separator_head s2 _ S2) ltac:(lia)) as F1.
  pose proof (field_ok s2 d2 (t :: rest) fuel ((pre ++ s0 ++ d0) ++ s1 ++ d1) ltac:(rewrite 4 app_length in Hfu; lia) S2 N2 D2
    ltac:(intros x u E; injection E as <- _; apply ws_not_digit; auto) ltac:(lia)) as F2.
  assert (Hsp : pnm_space (fst (iget (strm pre (s0 ++ d0 ++ s1 ++ d1 ++ s2 ++ d2 ++ t :: rest)))) = true).
  { destruct S0 as (b & cs & sp' & Hb & _ & _ & _ & ->). cbn [app]. rewrite iget_strm. apply space_ws; auto. }
  destruct (iget (strm pre (s0 ++ d0 ++ s1 ++ d1 ++ s2 ++ d2 ++ t :: rest))) as [c s]. cbn [fst snd] in *. rewrite Hsp. cbn [negb].
  rewrite F0. cbn [bind]. rewrite F1. cbn [bind]. rewrite F2. cbn [bind]. rewrite iget_strm. cbn [fst snd].
  apply space_ws in Ht. rewrite Ht. cbn [negb]. unfold opened. subst w h m pre. do 2 f_equal. f_equal.
  repeat (cbn [app]; rewrite <- ?app_assoc). reflexivity.
Qed.

(** ** a number that is too large *)
Lemma tail_over sp ds r fuel pre : (length (sp ++ ds ++ r) < fuel)%nat -> Forall ws sp -> ds <> [] -> Forall dig ds -> INT_MAX < dec_value ds ->
  ('(c, s) <- pnm_spaces fuel (fst (iget (strm pre (sp ++ ds ++ r)))) (snd (iget (strm pre (sp ++ ds ++ r)))) ;; pnm_number fuel 0 c s)
  = Undefined.
Proof.
  intros Hf Hsp Hne Hds Hv. rewrite spaces_ok by auto. cbn [bind].
  destruct (take_drop_app pnm_space sp (ds ++ r)) as [-> ->].
  { eapply Forall_impl; [|exact Hsp]. intros; apply space_ws; auto. }
  { intros x t E. destruct ds as [|d ds]; [contradiction|]. injection E as -> _. inversion Hds; subst. apply dig_not_space; auto. }
  pose proof (number_ok (ds ++ r) fuel (pre ++ sp) 0 ltac:(rewrite app_length in Hf; lia) ltac:(unfold INT_MAX; lia)) as N.
  destruct (iget (strm (pre ++ sp) (ds ++ r))) as [c s]. cbn [fst snd] in N. rewrite N.
  assert (E : takew pnm_digit (ds ++ r) = ds ++ takew pnm_digit r).
  { clear -Hds. induction Hds as [|d ds Hd Hds IH]; [reflexivity|]. cbn [app takew]. apply digit_dig in Hd. rewrite Hd. now rewrite IH. }
  assert (M : dec_value ds <= dval 0 (takew pnm_digit (ds ++ r))).
  { rewrite E. unfold dval. rewrite fold_left_app. fold (dval 0 ds). fold (dval (dval 0 ds) (takew pnm_digit r)).
    change (dec_value ds) with (dval 0 ds). apply dval_mono; [apply dval_mono; auto; lia|].
    eapply Forall_impl; [|apply takew_all]. intros; apply digit_dig; auto. }
  destruct (Z.leb_spec (dval 0 (takew pnm_digit (ds ++ r))) INT_MAX); [lia|reflexivity].
Qed.
Lemma field_over sp ds r fuel pre : (length (sp ++ ds ++ r) < fuel)%nat -> separator sp -> ds <> [] -> Forall dig ds -> INT_MAX < dec_value ds ->
  pnm_field fuel (fst (iget (strm pre (sp ++ ds ++ r)))) (snd (iget (strm pre (sp ++ ds ++ r)))) = Undefined.
Proof.
  intros Hf (b & cs & sp' & Hb & Hcs & Hor & Hsp & ->) Hne Hds Hv. unfold pnm_field.
  destruct (Z.eq_dec b 10) as [->|Hb10].
  - cbn [app]. rewrite iget_strm. cbn [fst snd]. change (pnm_newline 10) with true. cbn iota. rewrite <- !app_assoc.
    pose proof (comments_ok cs fuel (pre ++ [10]) (sp' ++ ds ++ r)) as C.
    cbn [app length] in Hf. rewrite <- app_assoc, app_length in Hf.
    assert (NH : not_hash (sp' ++ ds ++ r)).
    { destruct sp' as [|x sp']; cbn [app].
      - destruct ds as [|d ds]; [contradiction|]. inversion Hds; subst. cbn. apply dig_not_space; auto.
      - inversion Hsp; subst. destruct H1 as [-> | [-> | ->]]; cbn; lia. }
    specialize (C ltac:(lia) Hcs NH).
    destruct (iget (strm (pre ++ [10]) (concat (map comment_line cs) ++ sp' ++ ds ++ r))) as [c s]. cbn [fst snd] in C. rewrite C. cbn [bind].
    pose proof (tail_over sp' ds r fuel ((pre ++ [10]) ++ concat (map comment_line cs)) ltac:(lia) Hsp Hne Hds Hv) as T.
    destruct (iget (strm ((pre ++ [10]) ++ concat (map comment_line cs)) (sp' ++ ds ++ r))) as [c' s']. cbn [fst snd] in T. exact T.
  - destruct Hor as [?| ->]; [contradiction|]. cbn [concat map app].
    pose proof (tail_over (b :: sp') ds r fuel pre Hf ltac:(constructor; auto) Hne Hds Hv) as T.
    cbn [app] in T. rewrite iget_strm in *. cbn [fst snd] in *.
    assert (En : pnm_newline b = false) by (apply Z.eqb_neq; auto). rewrite En. cbn [bind]. exact T.
Qed.
Lemma open_over file : pnm_overflow INT_MAX file -> rpnm_open (iopen file) = Undefined.
Proof.
  intros (mono & before & s & d & w & rest & L & FB & HS & (N & D & V) & Hw & ->). subst w.
  set (mc := if mono then 53 else 54). set (body := concat _ ++ s ++ d ++ rest).
  unfold rpnm_open. cbn [iopen ibytes]. rewrite iopen_strm.
  set (fuel := (length _ + 2)%nat). assert (Hfu : (length body < fuel)%nat) by (unfold fuel; cbn [app length]; lia). clearbody fuel.
  cbn [app]. rewrite iget_strm. change (negb (80 =? 80)) with false. cbn iota. rewrite iget_strm.
  replace (pnm_digit mc) with true by (destruct mono; reflexivity). cbn [negb].
  replace (negb (pnm_value mc =? 5) && negb (pnm_value mc =? 6)) with false by (destruct mono; reflexivity).
  set (pre := ([] ++ [80]) ++ [mc]). clearbody pre.
  assert (HB : exists sp l, separator sp /\ body = sp ++ l).
  { unfold body. destruct before as [|(s0, d0) before]; [exists s, (d ++ rest); auto|].
    inversion FB; subst. cbn [map concat fst snd]. exists s0. eexists. split; [tauto|]. rewrite <- !app_assoc. reflexivity. }
  assert (Hsp : pnm_space (fst (iget (strm pre body))) = true).
  { destruct HB as (sp & l & (b & cs & sp' & Hb & _ & _ & _ & ->) & ->). cbn [app]. rewrite iget_strm. apply space_ws; auto. }
  assert (HD : forall s' d' rest', separator s' -> forall x t, s' ++ d' ++ rest' = x :: t -> pnm_digit x = false).
  { intros s' d' rest' H'. apply separator_head. exact H'. }
  destruct before as [|(s0, d0) before].
  { unfold body in *. cbn [map concat app] in *. pose proof (field_over s d rest fuel pre Hfu HS N D Hw) as F.
    destruct (iget (strm pre (s ++ d ++ rest))) as [c t]. cbn [fst snd] in *. rewrite Hsp. cbn [negb]. rewrite F. reflexivity. }
  apply Forall_cons_iff in FB as ((S0 & v0 & (N0 & D0 & V0) & B0) & FB'). cbn [fst snd] in *.
  destruct before as [|(s1, d1) before].
  { unfold body in *. cbn [map concat app fst snd] in *. rewrite app_nil_r, <- !app_assoc in *.
    pose proof (field_ok s0 d0 (s ++ d ++ rest) fuel pre Hfu S0 N0 D0 (HD _ _ _ HS) ltac:(lia)) as F0.
    pose proof (field_over s d rest fuel (pre ++ s0 ++ d0) ltac:(rewrite 2 app_length in Hfu; lia) HS N D Hw) as F.
    destruct (iget (strm pre (s0 ++ d0 ++ s ++ d ++ rest))) as [c t]. cbn [fst snd] in *. rewrite Hsp. cbn [negb]. rewrite F0. cbn [bind]. rewrite F. reflexivity. }
  apply Forall_cons_iff in FB' as ((S1 & v1 & (N1 & D1 & V1) & B1) & _). cbn [fst snd] in *.
  destruct before; [|cbn [length] in L; lia].
  unfold body in *. cbn [map concat app fst snd] in *. rewrite app_nil_r, <- !app_assoc in *.
  pose proof (field_ok s0 d0 (s1 ++ d1 ++ s ++ d ++ rest) fuel pre Hfu S0 N0 D0 (HD _ _ _ S1) ltac:(lia)) as F0.
  pose proof (field_ok s1 d1 (s ++ d ++ rest) fuel (pre ++ s0 ++ d0) ltac:(rewrite 2 app_length in Hfu; lia) S1 N1 D1 (HD _ _ _ HS) ltac:(lia)) as F1.
  pose proof (field_over s d rest fuel ((pre ++ s0 ++ d0) ++ s1 ++ d1) ltac:(rewrite 4 app_length in Hfu; lia) HS N D Hw) as F.
  destruct (iget (strm pre (s0 ++ d0 ++ s1 ++ d1 ++ s ++ d ++ rest))) as [c t]. cbn [fst snd] in *. rewrite Hsp. cbn [negb].
  rewrite F0. cbn [bind]. rewrite F1. cbn [bind]. rewrite F. reflexivity.
Qed.

(** ** the writer *)
Lemma dec_value_app a b : dec_value (a ++ [b]) = 10 * dec_value a + (b - 48).
Proof. unfold dec_value. rewrite fold_left_app. reflexivity. Qed.

Lemma dec_digits_ok fuel : forall n, 0 <= n < 10 ^ Z.of_nat fuel -> (0 < fuel)%nat -> number (dec_digits fuel n) n.
Proof.
  induction fuel as [|f IH]; intros n Hn H; [lia|]. cbn [dec_digits]. destruct (Z.ltb_spec n 10).
  - unfold number. splits. discriminate. constructor; auto. unfold dig. lia. unfold dec_value. cbn [fold_left]. lia.
  - assert (Hf : (0 < f)%nat). { destruct f; [|lia]. change (10 ^ Z.of_nat 1) with 10 in Hn. lia. }
    assert (Hd : 0 <= n / 10 < 10 ^ Z.of_nat f).
    { split. apply Z.div_pos; lia. apply Z.div_lt_upper_bound; [lia|]. rewrite Nat2Z.inj_succ, Z.pow_succ_r in Hn by lia. lia. }
    destruct (IH (n / 10) Hd Hf) as (H1 & H2 & H3). pose proof (Z.mod_pos_bound n 10 ltac:(lia)). pose proof (Z.div_mod n 10 ltac:(lia)).
    unfold number. splits.
    + intros E. apply app_eq_nil in E. destruct E. discriminate.
    + apply Forall_app. split; auto. constructor; auto. unfold dig. lia.
    + rewrite dec_value_app, H3. lia.
Qed.

Lemma print_number n : 0 <= n <= INT_MAX -> number (print_int n) n.
Proof.
  intros H. unfold print_int. destruct (Z.ltb_spec n 0); [lia|]. apply dec_digits_ok; [|lia].
  unfold INT_MAX in *. change (10 ^ Z.of_nat 20) with 100000000000000000000. lia.
Qed.

Definition wheader (mono : bool) (w h m : Z) : list Z :=
  [80; if mono then 53 else 54] ++ [32] ++ print_int w ++ [32] ++ print_int h ++ [32] ++ print_int m ++ [10].

Lemma wheader_header mono w h m : 0 <= w <= INT_MAX -> 0 <= h <= INT_MAX -> 0 <= m <= INT_MAX ->
  pnm_header mono w h m (wheader mono w h m).
Proof.
  intros Hw Hh Hm. exists [32], (print_int w), [32], (print_int h), [32], (print_int m), 10.
  assert (S32 : separator [32]). { exists 32, [], []. splits; auto; left; auto. }
  splits; auto using print_number. right; left; auto. 
Qed.

Lemma wpnm_open_file w h mono m : wpnm_open w h mono m =
  {| q_os := at_end (wheader mono w h m); q_width := w; q_height := h; q_maxval := m; q_mono := mono |}.
Proof.
  unfold wpnm_open. change oopen_trunc with (at_end []). rewrite !at_end_write. f_equal. f_equal.
  unfold wheader. replace (print_int (if mono then 5 else 6)) with [if mono then 53 else 54] by (destruct mono; reflexivity).
  repeat (cbn [app]; rewrite <- ?app_assoc). reflexivity.
Qed.

Lemma file_at_end bs : file_of (oputs (at_end bs)) = bs.
Proof. apply file_of_seqput. Qed.
