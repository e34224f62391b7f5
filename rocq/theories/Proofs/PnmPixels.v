(* Reading and writing of Netpbm pixels *)
From Verif Require Import Proofs.BaseLemmas Proofs.WavProofs Proofs.WavRead Spec.Wav Spec.Pnm Model.Netpbm Proofs.PnmParse.
Open Scope Z_scope.

(** number of values per pixel *)
Definition pnm_ch (mono : bool) : Z := if mono then 1 else 3.
(** the byte at offset [q] of a file, EOF (-1) behind its end *)
Definition byte_or_eof (file : list Z) (q : Z) : Z := match znth file q with Some b => b | None => -1 end.

Definition strq (file : list Z) (q : Z) (s : istream) : Prop :=
  (q <= zlen file /\ s = atp file q) \/ (zlen file < q /\ ifail s = true).

Lemma iget_q file q s : 0 <= q -> strq file q s -> exists s', iget s = (byte_or_eof file q, s') /\ strq file (q + 1) s'.
Proof.
  intros Hq [[H1 ->] | [H1 H2]]; unfold byte_or_eof.
  - rewrite iget_at by auto. destruct (znth file q) eqn:E.
    + apply znth_Some_range in E. eexists; split; [reflexivity|]. left. split; [lia|auto].
    + eexists; split; [reflexivity|]. right. split; auto. destruct (Z_lt_le_dec q (zlen file)); [|lia].
      destruct (znth_in_range file q ltac:(lia)) as (v & Hv). congruence.
  - rewrite znth_out by lia. unfold iget, igood. rewrite H2, andb_false_r. eexists; split; [reflexivity|]. right. split; auto. lia.
Qed.

Section Pix.
Context {T : Type} (lin : Z -> Z -> T) (enc : Z -> T -> Z).

Definition pcells (file : list Z) (mv p ch st : Z) (buf0 buf : list T) (k : Z) : Prop :=
  zlen buf = zlen buf0 /\
  (forall j, (forall n c, 0 <= n < k -> 0 <= c < ch -> j <> st * n + c) -> znth buf j = znth buf0 j) /\
  (ch <= st -> forall n c, 0 <= n < k -> 0 <= c < ch ->
     znth buf (st * n + c) = Some (lin mv (byte_or_eof file (p + n * ch + c)))).

Lemma rpnm_read_ok file mono w h mv p s buf num stride : 0 <= p -> strq file p s -> buf_ok buf num (pnm_ch mono) stride ->
  exists buf' s', rpnm_read lin {| p_is := s; p_width := w; p_height := h; p_maxval := Some mv; p_mono := Some mono |} buf num stride
    = Ok (buf', {| p_is := s'; p_width := w; p_height := h; p_maxval := Some mv; p_mono := Some mono |}) /\
    strq file (p + num * pnm_ch mono) s' /\
    pcells file mv p (pnm_ch mono) (eff_stride (pnm_ch mono) stride) buf buf' num.
Proof.
  intros Hp Hs (B1 & B2 & B3 & B4). unfold rpnm_read. cbn [p_mono fldb bind p_is p_maxval p_width p_height fld].
  set (st := eff_stride (pnm_ch mono) stride) in *. set (ch := pnm_ch mono) in *.
  set (P := fun k (bs : list T * istream) => strq file (p + k * ch) (snd bs) /\ pcells file mv p ch st buf (fst bs) k).
  assert (P0 : P 0 (buf, s)).
  { unfold P. cbn [fst snd]. rewrite Z.mul_0_l, Z.add_0_r. split; auto. unfold pcells. splits; auto. intros; lia. }
  assert (Fin : forall body, (forall j s, 0 <= j < 0 + Z.of_nat (Z.to_nat num) -> P j s -> exists s', body j s = Ok s' /\ P (j + 1) s') ->
    exists buf' s', for_loop (Z.to_nat num) 0 body (buf, s) = Ok (buf', s') /\ strq file (p + num * ch) s' /\ pcells file mv p ch st buf buf' num).
  { intros body Hb. destruct (for_loop_inv P body (Z.to_nat num) 0 (buf, s) P0 Hb) as ([b' s'] & E & [Q1 Q2]).
    cbn [fst snd] in *. replace (0 + Z.of_nat (Z.to_nat num)) with num in * by lia. exists b', s'. auto. }
  assert (Step : forall n b1, 0 <= n < num -> pcells file mv p ch st buf b1 n ->
     forall vs, zlen vs = ch -> (forall c, 0 <= c < ch -> znth vs c = Some (lin mv (byte_or_eof file (p + n * ch + c)))) ->
     forall b2, zlen b2 = zlen b1 -> (forall j, (forall c, 0 <= c < ch -> j <> st * n + c) -> znth b2 j = znth b1 j) ->
       (forall c, 0 <= c < ch -> znth b2 (st * n + c) = znth vs c) -> pcells file mv p ch st buf b2 (n + 1)).
  { intros n b1 Hn (L & U & V) vs Lv Hv b2 L2 H2 H3. assert (Hc1 : 1 <= ch) by (destruct mono; unfold ch, pnm_ch; lia).
    unfold pcells. splits; [lia| |].
    - intros j Hj. rewrite H2 by (intros c Hc; apply Hj; lia). apply U. intros n' c Hn' Hc. apply Hj; lia.
    - intros Hst n' c Hn' Hc. destruct (Z.eq_dec n' n) as [->|NE].
      + rewrite H3, Hv by auto. reflexivity.
      + rewrite H2 by (intros c' Hc' E; apply NE; nia). apply V; auto; lia. }
  destruct mono; cbn [pnm_ch] in *.
  - destruct (Fin (fun i '(b, s0) => let '(G, s1) := iget s0 in i0 <- ichk (st * i) ;; b <- set b i0 (lin mv G) ;; Ok (b, s1))) as (b' & s' & E & R).
    + intros n [b1 s1] Hn [Q1 Q2]. cbn [fst snd] in *. assert (Hnn : 0 <= p + n * ch) by (unfold ch; nia).
      destruct (iget_q file (p + n * ch) s1 Hnn Q1) as (s2 & -> & Q3). assert (Lb : zlen b1 = zlen buf) by apply Q2.
      assert (0 <= st * n) by nia. assert (st * n + ch <= zlen buf) by (unfold ch; nia). unfold ch in *.
      rewrite ichk_ok by (unfold INT_MIN, INT_MAX in *; lia). cbn [bind]. rewrite set_in_range by lia. cbn [bind]. eexists; split; [reflexivity|].
      split; cbn [fst snd]. { replace (p + (n + 1) * 1) with (p + n * 1 + 1) by lia. auto. }
      apply (Step n b1 ltac:(lia) Q2 [lin mv (byte_or_eof file (p + n * 1))]).
      * reflexivity.
      * intros c Hc. assert (c = 0) by lia. subst c. rewrite Z.add_0_r. reflexivity.
      * apply zlen_zupd.
      * intros j Hj. apply znth_zupd_ne; [lia|]. intros E. apply (Hj 0); lia.
      * intros c Hc. assert (c = 0) by lia. subst c. rewrite Z.add_0_r, znth_zupd_eq by lia. reflexivity.
    + match goal with |- context [for_loop ?n ?i ?f ?x] => replace (for_loop n i f x) with (Ok (b', s')) by (symmetry; exact E) end.
      cbn [bind]. exists b', s'. auto.
  - destruct (Fin (fun i '(b, s0) => let '(R_, s0) := iget s0 in let '(G, s0) := iget s0 in let '(B, s0) := iget s0 in
       i0 <- ichk (st * i) ;; i1 <- ichk (i0 + 1) ;; i2 <- ichk (i0 + 2) ;;
       b <- set b i0 (lin mv R_) ;; b <- set b i1 (lin mv G) ;; b <- set b i2 (lin mv B) ;; Ok (b, s0))) as (b' & s' & E & R).
    + intros n [b1 s1] Hn [Q1 Q2]. cbn [fst snd] in *. assert (Hnn : 0 <= p + n * ch) by (unfold ch; nia).
      destruct (iget_q file (p + n * ch) s1 Hnn Q1) as (s2 & -> & Q3).
      destruct (iget_q file (p + n * ch + 1) s2 ltac:(lia) Q3) as (s3 & -> & Q4).
      destruct (iget_q file (p + n * ch + 1 + 1) s3 ltac:(lia) Q4) as (s4 & -> & Q5).
      assert (Lb : zlen b1 = zlen buf) by apply Q2.
      assert (0 <= st * n) by nia. assert (st * n + ch <= zlen buf) by (unfold ch; nia). unfold ch in *.
      do 3 (rewrite ichk_ok by (unfold INT_MIN, INT_MAX in *; lia); cbn [bind]).
      do 3 (rewrite set_in_range by (rewrite ?zlen_zupd; lia); cbn [bind]). eexists; split; [reflexivity|].
      split; cbn [fst snd]. { replace (p + (n + 1) * 3) with (p + n * 3 + 1 + 1 + 1) by lia. auto. }
      apply (Step n b1 ltac:(lia) Q2 [lin mv (byte_or_eof file (p + n * 3)); lin mv (byte_or_eof file (p + n * 3 + 1)); lin mv (byte_or_eof file (p + n * 3 + 1 + 1))]).
      * reflexivity.
      * intros c Hc. assert (D : c = 0 \/ c = 1 \/ c = 2) by lia. destruct D as [-> | [-> | ->]]; [rewrite Z.add_0_r; reflexivity|reflexivity|replace (p + n * 3 + 2) with (p + n * 3 + 1 + 1) by lia; reflexivity].
      * now rewrite !zlen_zupd.
      * intros j Hj. pose proof (Hj 0). pose proof (Hj 1). pose proof (Hj 2). rewrite !znth_zupd_ne by lia. reflexivity.
      * intros c Hc. assert (D : c = 0 \/ c = 1 \/ c = 2) by lia. destruct D as [-> | [-> | ->]].
        -- rewrite Z.add_0_r, !znth_zupd_ne by lia. rewrite znth_zupd_eq by lia. reflexivity.
        -- rewrite znth_zupd_ne by lia. rewrite znth_zupd_eq by (rewrite ?zlen_zupd; lia). reflexivity.
        -- rewrite znth_zupd_eq by (rewrite ?zlen_zupd; lia). reflexivity.
    + match goal with |- context [for_loop ?n ?i ?f ?x] => replace (for_loop n i f x) with (Ok (b', s')) by (symmetry; exact E) end.
      cbn [bind]. exists b', s'. auto.
Qed.

Definition set_qos s w := {| q_os := s; q_width := q_width w; q_height := q_height w; q_maxval := q_maxval w; q_mono := q_mono w |}.

Lemma wpnm_write_ok w buf num stride : buf_ok buf num (pnm_ch (q_mono w)) stride ->
  wpnm_write enc w buf num stride
  = Ok (set_qos (owrite (map (fun x => enc (q_maxval w) x mod 256) (strided buf num (pnm_ch (q_mono w)) (eff_stride (pnm_ch (q_mono w)) stride))) (q_os w)) w).
Proof.
  intros (B1 & B2 & B3 & B4). unfold wpnm_write.
  set (st := eff_stride (pnm_ch (q_mono w)) stride) in *. set (ch := pnm_ch (q_mono w)) in *.
  set (g := fun n => map (fun x => enc (q_maxval w) x mod 256) (flat_map (fun c => match znth buf (st * n + c) with Some x => [x] | None => [] end) (zrange 0 (Z.to_nat ch)))).
  assert (Fin : forall body s0, (forall j s, 0 <= j < 0 + Z.of_nat (Z.to_nat num) -> body j s = Ok (owrite (g j) s)) ->
    for_loop (Z.to_nat num) 0 body s0 = Ok (owrite (map (fun x => enc (q_maxval w) x mod 256) (strided buf num ch st)) s0)).
  { intros body s0 Hb. rewrite (for_loop_write body owrite g) by (auto; intros; apply owrite_app). f_equal. f_equal.
    unfold strided. induction (zrange 0 (Z.to_nat num)) as [|z l IH]; cbn [flat_map]; auto. rewrite map_app, IH. reflexivity. }
  destruct (q_mono w) eqn:Em; cbn [pnm_ch] in ch; subst ch.
  - match goal with |- context [for_loop ?n ?i ?f ?x] => rewrite (Fin f x) end; [unfold set_qos; rewrite Em; reflexivity|].
    intros n s Hn. cbn beta. fold (eff_stride 1 stride). fold st. assert (0 <= st * n) by nia. assert (st * n + 1 <= zlen buf) by nia.
    rewrite ichk_ok by (unfold INT_MIN, INT_MAX in *; lia). cbn [bind].
    destruct (get_in_range buf (st * n)) as (x & Hx & ->); [lia|]. cbn [bind]. unfold g. change (zrange 0 (Z.to_nat 1)) with [0]. cbn [flat_map].
    rewrite Z.add_0_r, Hx. reflexivity.
  - match goal with |- context [for_loop ?n ?i ?f ?x] => rewrite (Fin f x) end; [unfold set_qos; rewrite Em; reflexivity|].
    intros n s Hn. cbn beta. fold (eff_stride 3 stride). fold st. assert (0 <= st * n) by nia. assert (st * n + 3 <= zlen buf) by nia.
    do 3 (rewrite ichk_ok by (unfold INT_MIN, INT_MAX in *; lia); cbn [bind]).
    destruct (get_in_range buf (st * n)) as (x & Hx & ->); [lia|]. cbn [bind].
    destruct (get_in_range buf (st * n + 1)) as (y & Hy & ->); [lia|]. cbn [bind].
    destruct (get_in_range buf (st * n + 2)) as (z & Hz & ->); [lia|]. cbn [bind].
    unfold g. change (zrange 0 (Z.to_nat 3)) with [0; 1; 2]. cbn [flat_map]. rewrite Z.add_0_r, Hx, Hy, Hz. reflexivity.
Qed.
End Pix.

(** ** contiguous buffers *)
Lemma firstn_plus {A} a b (l : list A) : firstn (a + b) l = firstn a l ++ firstn b (skipn a l).
Proof.
  revert l. induction a as [|a IH]; intros l; cbn [Nat.add firstn skipn app]; auto.
  destruct l as [|x l]; [destruct b; reflexivity|]. cbn [app]. now rewrite IH.
Qed.
Lemma skipn_skipn' {A} a b (l : list A) : skipn a (skipn b l) = skipn (a + b) l.
Proof.
  revert l. induction b as [|b IH]; intros l; [now rewrite Nat.add_0_r|]. rewrite Nat.add_succ_r.
  destruct l as [|x l]; [destruct a; reflexivity|]. cbn [skipn]. apply IH.
Qed.
Lemma flat_znth {A} (buf : list A) k : forall a i, 0 <= a + i -> (Z.to_nat (a + i) + k <= length buf)%nat ->
  flat_map (fun c => match znth buf (a + c) with Some x => [x] | None => [] end) (zrange i k) = firstn k (skipn (Z.to_nat (a + i)) buf).
Proof.
  induction k as [|k IH]; intros a i H L; cbn [zrange flat_map]; [now rewrite firstn_O|].
  rewrite IH by lia. rewrite znth_nonneg by lia.
  destruct (nth_error buf (Z.to_nat (a + i))) eqn:E; [|apply nth_error_None in E; lia].
  apply nth_error_split in E as (l1 & l2 & -> & L1). rewrite <- L1.
  rewrite (skipn_app (length l1) l1), skipn_all, Nat.sub_diag. cbn [skipn app firstn]. f_equal. f_equal.
  replace (Z.to_nat (a + (i + 1))) with (1 + length l1)%nat by lia.
  rewrite skipn_app. rewrite (skipn_all2 l1) by lia. replace (1 + length l1 - length l1)%nat with 1%nat by lia. reflexivity.
Qed.
Lemma strided_contiguous {A} (buf : list A) num ch : 0 <= num -> 0 <= ch -> zlen buf = num * ch -> strided buf num ch ch = buf.
Proof.
  intros Hn Hc L. unfold strided.
  assert (G : forall n i, 0 <= i -> ch * (i + Z.of_nat n) <= zlen buf ->
    flat_map (fun n0 => flat_map (fun c => match znth buf (ch * n0 + c) with Some x => [x] | None => [] end) (zrange 0 (Z.to_nat ch))) (zrange i n)
    = firstn (Z.to_nat (ch * Z.of_nat n)) (skipn (Z.to_nat (ch * i)) buf)).
  { induction n as [|n IH]; intros i Hi Hl; cbn [zrange flat_map].
    - rewrite Z.mul_0_r. reflexivity.
    - rewrite flat_znth by (unfold zlen in *; nia). rewrite IH by nia. rewrite Z.add_0_r.
      replace (Z.to_nat (ch * Z.of_nat (S n))) with (Z.to_nat ch + Z.to_nat (ch * Z.of_nat n))%nat by nia.
      rewrite firstn_plus, skipn_skipn'. do 3 f_equal. nia. }
  rewrite G by lia. rewrite Z.mul_0_r. cbn [skipn Z.to_nat]. apply firstn_all2. unfold zlen in *. nia.
Qed.
