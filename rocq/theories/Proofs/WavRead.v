From Coq Require Import String.
Import List.ListNotations.
Open Scope list_scope.
From Verif Require Import Proofs.BaseLemmas Proofs.ContainerProofs Model.Wav Spec.Wav Proofs.WavProofs.
Open Scope Z_scope.

Definition atp (file : list Z) (p : Z) : istream := {| ibytes := file; ipos := p; ieof := false; ifail := false |}.

Lemma atp_strm file p : 0 <= p <= zlen file -> atp file p = strm (firstn (Z.to_nat p) file) (skipn (Z.to_nat p) file).
Proof.
  intros Hp. unfold atp, strm. rewrite firstn_skipn. f_equal. unfold zlen in *. rewrite firstn_length. lia.
Qed.
Lemma strm_atp pre bs : strm pre bs = atp (pre ++ bs) (zlen pre).
Proof. reflexivity. Qed.

(** ** ints stay ints *)
Lemma range_shiftr k a : 0 <= k -> (- 2 ^ k <= a < 2 ^ k <-> Z.shiftr a k = 0 \/ Z.shiftr a k = -1).
Proof.
  intros Hk. rewrite Z.shiftr_div_pow2 by auto. pose proof (Z.pow_pos_nonneg 2 k ltac:(lia) Hk).
  pose proof (Z.div_mod a (2 ^ k) ltac:(lia)). pose proof (Z.mod_pos_bound a (2 ^ k) ltac:(lia)).
  set (q := a / 2 ^ k) in *. split; intros; [|nia]. assert (-1 <= q) by nia. assert (q < 1) by nia. lia.
Qed.
Lemma lor_range k a b : 0 <= k -> - 2 ^ k <= a < 2 ^ k -> - 2 ^ k <= b < 2 ^ k -> - 2 ^ k <= Z.lor a b < 2 ^ k.
Proof.
  intros Hk Ha Hb. apply range_shiftr in Ha, Hb; auto. apply range_shiftr; auto. rewrite Z.shiftr_lor.
  destruct Ha as [-> | ->], Hb as [-> | ->]; auto.
Qed.
Lemma int32_range z : - 2 ^ 31 <= int32 z < 2 ^ 31.
Proof. unfold int32. pose proof (Z.mod_pos_bound (z + 2147483648) 4294967296 ltac:(lia)). change (2 ^ 31) with 2147483648. lia. Qed.
Lemma readLE_loop_range n : forall i v s, - 2 ^ 31 <= v < 2 ^ 31 -> - 2 ^ 31 <= fst (readLE_loop n i v s) < 2 ^ 31.
Proof.
  induction n as [|n IH]; intros i v s Hv; cbn [readLE_loop]; auto.
  destruct (iget s) as [c s']. apply IH. apply lor_range; auto; try lia. apply int32_range.
Qed.
Lemma readLE_range b s : - 2 ^ 31 <= fst (readLE b s) < 2 ^ 31.
Proof.
  unfold readLE. pose proof (readLE_loop_range (Z.to_nat b) 0 0 s ltac:(split; vm_compute; [discriminate|reflexivity])) as H.
  destruct (readLE_loop _ _ _ _) as [v s']. cbn [fst] in H.
  assert (H1 : - 2 ^ 31 <= (if (b =? 2) && (32767 <? v) then Z.lor v (Z.lnot 32767) else v) < 2 ^ 31).
  { destruct (_ && _); auto. apply lor_range; auto; try lia. split; vm_compute; [discriminate|reflexivity]. }
  cbn [fst]. destruct ((b =? 3) && _); auto. apply lor_range; auto; try lia. split; vm_compute; [discriminate|reflexivity].
Qed.

(** ** One sample *)
Definition wfs (file : list Z) (s : istream) : Prop :=
  ibytes s = file /\ ((exists p, 0 <= p /\ s = atp file p) \/ ifail s = true).

Lemma firstn_skipn_explicit (l : list Z) n : (n <= length l)%nat -> exists a b, l = a ++ b /\ length a = n /\ firstn n l = a /\ skipn n l = b.
Proof.
  intros H. exists (firstn n l), (skipn n l). rewrite firstn_skipn, firstn_length. splits; auto. lia.
Qed.

Lemma sample_val_sval bs : zlen bs <> 1 -> sample_val bs = sval bs.
Proof. intros H. unfold sample_val. destruct (Z.eqb_spec (zlen bs) 1); [contradiction|auto]. Qed.

Lemma readLE_at file by_ p : by_ = 1 \/ by_ = 2 \/ by_ = 4 -> Forall is_byte file -> 0 <= p -> p + by_ <= zlen file ->
  readLE by_ (atp file p) = (code_at file by_ p 0, atp file (p + by_)).
Proof.
  intros Hb HF Hp Hl. unfold code_at. rewrite Z.mul_0_l, Z.add_0_r.
  assert (HF' : Forall is_byte (skipn (Z.to_nat p) file)).
  { apply Forall_forall. intros x Hx. eapply (proj1 (Forall_forall _ _) HF). rewrite <- (firstn_skipn (Z.to_nat p) file). apply in_or_app; auto. }
  rewrite atp_strm by lia.
  assert (E : forall q, atp file (p + q) = atp (firstn (Z.to_nat p) file ++ skipn (Z.to_nat p) file) (zlen (firstn (Z.to_nat p) file) + q)).
  { intros q. rewrite firstn_skipn. f_equal. f_equal. unfold zlen in *. rewrite firstn_length. lia. }
  rewrite E. clear E.
  assert (L : Z.of_nat (length (skipn (Z.to_nat p) file)) >= by_). { rewrite skipn_length. unfold zlen in Hl. lia. }
  set (pre := firstn (Z.to_nat p) file) in *. set (rest := skipn (Z.to_nat p) file) in *. clearbody pre rest. clear Hl HF.
  destruct Hb as [-> | [-> | ->]].
  - destruct rest as [|a rest]; [simpl in L; lia|]. inversion_clear HF' as [|? ? B1 B].
    rewrite readLE1_strm by auto. rewrite strm_atp. rewrite <- app_assoc. rewrite zlen_app.
    f_equal. change (firstn (Z.to_nat 1) (a :: rest)) with [a]. unfold sample_val. cbn. lia.
  - destruct rest as [|a [|b rest]]; [simpl in L; lia|simpl in L; lia|]. inversion_clear HF' as [|? ? B1 B]. inversion_clear B as [|? ? B2 B'].
    rewrite readLE2_strm by auto. rewrite strm_atp. rewrite <- app_assoc. rewrite zlen_app.
    reflexivity.
  - destruct rest as [|a [|b [|c [|d rest]]]]; try (simpl in L; lia). inversion_clear HF' as [|? ? B1 B]. inversion_clear B as [|? ? B2 B'].
    inversion_clear B' as [|? ? B3 B]. inversion_clear B as [|? ? B4 B'].
    rewrite readLE4_strm by auto. rewrite strm_atp. rewrite <- app_assoc. rewrite zlen_app.
    reflexivity.
Qed.

Lemma code_at_shift file b p k : code_at file b (p + k * b) 0 = code_at file b p k.
Proof. unfold code_at. do 3 f_equal. lia. Qed.

(** ** Failure is permanent *)
Lemma iget_fail s : ifail s = true -> ifail (snd (iget s)) = true /\ ibytes (snd (iget s)) = ibytes s.
Proof. intros H. unfold iget, igood. rewrite H, andb_false_r. cbn. auto. Qed.
Lemma readLE_loop_fail n : forall i v s, ifail s = true ->
  ifail (snd (readLE_loop n i v s)) = true /\ ibytes (snd (readLE_loop n i v s)) = ibytes s.
Proof.
  induction n as [|n IH]; intros i v s H; cbn [readLE_loop]; auto.
  pose proof (iget_fail s H) as [H1 H2]. destruct (iget s) as [c s']. cbn [snd] in *.
  destruct (IH (i + 1) (Z.lor v (int32 (Z.shiftl c (8 * i)))) s' H1). split; congruence.
Qed.
Lemma iget_at file p : 0 <= p -> iget (atp file p) =
  match znth file p with Some b => (b, atp file (p + 1)) | None => (-1, {| ibytes := file; ipos := p; ieof := true; ifail := true |}) end.
Proof. reflexivity. Qed.
Lemma readLE_loop_eof n : forall i v file p, 0 <= p -> zlen file < p + Z.of_nat n ->
  ifail (snd (readLE_loop n i v (atp file p))) = true /\ ibytes (snd (readLE_loop n i v (atp file p))) = file \/ n = O.
Proof.
  induction n as [|n IH]; intros i v file p Hp Hl; auto. left. cbn [readLE_loop]. rewrite iget_at by auto.
  destruct (znth file p) eqn:E.
  - destruct (IH (i + 1) (Z.lor v (int32 (Z.shiftl z (8 * i)))) file (p + 1)) as [? | ->]; auto; try lia.
    apply znth_Some_range in E. lia.
  - apply readLE_loop_fail. reflexivity.
Qed.
Lemma snd_readLE b s : snd (readLE b s) = snd (readLE_loop (Z.to_nat b) 0 0 s).
Proof. unfold readLE. destruct (readLE_loop _ _ _ _). reflexivity. Qed.

Lemma readLE_step file by_ s : by_ = 1 \/ by_ = 2 \/ by_ = 4 -> Forall is_byte file -> wfs file s ->
  wfs file (snd (readLE by_ s)) /\
  (ifail s = true -> ifail (snd (readLE by_ s)) = true) /\
  (forall p, 0 <= p -> s = atp file p -> zlen file < p + by_ -> ifail (snd (readLE by_ s)) = true).
Proof.
  intros Hb HF (Hbt & Hs).
  assert (HFAIL : ifail s = true -> ifail (snd (readLE by_ s)) = true /\ ibytes (snd (readLE by_ s)) = ibytes s).
  { intros H. rewrite snd_readLE. apply readLE_loop_fail; auto. }
  assert (HEOF : forall p, 0 <= p -> s = atp file p -> zlen file < p + by_ -> ifail (snd (readLE by_ s)) = true /\ ibytes (snd (readLE by_ s)) = file).
  { intros p Hp -> Hl. rewrite snd_readLE. destruct (readLE_loop_eof (Z.to_nat by_) 0 0 file p Hp) as [?|?]; auto; lia. }
  splits.
  - destruct Hs as [(p & Hp & Es)|Hf].
    + destruct (Z_le_dec (p + by_) (zlen file)).
      * rewrite Es. rewrite readLE_at by auto. cbn [snd]. split; auto. left. exists (p + by_). split; [lia|auto].
      * destruct (HEOF p Hp Es ltac:(lia)). split; auto.
    + destruct (HFAIL Hf). split; [congruence|auto].
  - intros H. apply HFAIL; auto.
  - intros p Hp Es Hl. apply (HEOF p); auto.
Qed.

Section Rd.
Context {T : Type} (ops : sample_ops T) (file : list Z) (rate bits channels frames : Z).
Hypothesis HP : wav_params rate bits channels.
Hypothesis HF : Forall is_byte file.
Context (by_ : Z) (Eby : by_ = bits / 8).

Lemma Hby : by_ = 1 \/ by_ = 2 \/ by_ = 4.
Proof. destruct HP as [Hb _]. rewrite Eby. destruct Hb as [-> | [-> | ->]]; auto. Qed.
Lemma Hch : 1 <= channels. Proof. apply HP. Qed.

(** one sample of read() *)
Definition body (r : rwav) (st n c : Z) (bs : list T * istream) : outcome (list T * istream) :=
  let '(buf, s) := bs in
      by_ <- fld (r_bytes r) ;;
      sn <- ichk (st * n) ;;
      i <- ichk (sn + c) ;;
      if by_ =? 4 then
        let '(v, s) := readLE 4 s in
        buf <- set buf i (of_bits ops v) ;;
        Ok (buf, s)
      else
        off <- fld (r_offset r) ;;
        fac <- fld (r_factor r) ;;
        let '(v, s) := readLE by_ s in
        d <- ichk (v - off) ;;
        buf <- set buf i (tdiv ops (ofZ ops d) (ofZ ops fac)) ;;
        Ok (buf, s).

Lemma decode_cases v : (by_ = 4 -> decode ops bits v = of_bits ops v) /\
  (by_ <> 4 -> decode ops bits v = tdiv ops (ofZ ops (v - (if bits =? 8 then 128 else 0)))
      (ofZ ops (if bits =? 8 then 127 else if bits =? 16 then 32767 else 1))).
Proof.
  destruct HP as [Hb _]. unfold decode. rewrite Eby. destruct Hb as [-> | [-> | ->]]; split; intros H; vm_compute in H; try discriminate; try congruence; try reflexivity.
  change (16 =? 8) with false. change (16 =? 32) with false. change (16 =? 16) with true. cbn iota. now rewrite Z.sub_0_r.
Qed.

Lemma body_ok s0 st n c buf s :
  0 <= st * n -> 0 <= c -> st * n + c < zlen buf -> zlen buf <= INT_MAX -> wfs file s ->
  exists x, body (mk_rwav s0 rate bits channels frames) st n c (buf, s) = Ok (zupd buf (st * n + c) x, snd (readLE by_ s)) /\
   (forall p, 0 <= p -> p + by_ <= zlen file -> s = atp file p -> x = decode ops bits (code_at file by_ p 0)).
Proof.
  intros H1 H2 H3 H4 Hs. unfold body. cbn [mk_rwav r_bytes r_offset r_factor fld bind]. rewrite <- Eby.
  rewrite ichk_ok by (unfold INT_MIN; lia). cbn [bind]. rewrite ichk_ok by (unfold INT_MIN; lia). cbn [bind].
  destruct (decode_cases (fst (readLE by_ s))) as [D1 D2].
  pose proof (readLE_range by_ s) as HR.
  assert (HV : forall p, 0 <= p -> p + by_ <= zlen file -> s = atp file p -> fst (readLE by_ s) = code_at file by_ p 0).
  { intros p Hp Hl ->. rewrite readLE_at; auto. apply Hby. }
  assert (HV1 : by_ = 1 -> -1 <= fst (readLE by_ s) <= 255).
  { intros E. rewrite E. destruct Hs as (Hbt & [(p & Hp & Es)|Hf]).
    - destruct (Z_lt_dec p (zlen file)).
      + rewrite Es. rewrite readLE_at by (auto; lia). cbn [fst]. unfold code_at. rewrite Z.mul_0_l, Z.add_0_r.
        assert (Hn : exists b, znth file p = Some b) by (apply znth_in_range; lia). destruct Hn as [b Hbb].
        change (Z.to_nat 1) with 1%nat.
        assert (E1 : firstn 1 (skipn (Z.to_nat p) file) = [b]).
        { rewrite znth_nonneg in Hbb by lia. apply nth_error_split in Hbb. destruct Hbb as (l1 & l2 & -> & L1). rewrite <- L1.
          rewrite skipn_app, skipn_all, Nat.sub_diag. reflexivity. }
        rewrite E1. cbn.
        assert (is_byte b). { apply (proj1 (Forall_forall _ _) HF). apply nth_error_In with (Z.to_nat p). rewrite <- znth_nonneg by lia. auto. }
        unfold is_byte in *. lia.
      + rewrite Es. unfold readLE. change (Z.to_nat 1) with 1%nat. cbn [readLE_loop]. rewrite iget_at by auto.
        rewrite (znth_out file p) by lia. cbn. lia.
    - unfold readLE. change (Z.to_nat 1) with 1%nat. cbn [readLE_loop]. unfold iget, igood. rewrite Hf, andb_false_r. cbn. lia. }
  destruct (Z.eqb_spec by_ 4) as [E4|N4].
  - rewrite <- E4. destruct (readLE by_ s) as [v s'] eqn:ER. cbn [fst snd] in *.
    rewrite set_in_range by lia. cbn [bind]. eexists; split; [reflexivity|].
    intros p Hp Hl Es. rewrite <- D1 by auto. now rewrite (HV p).
  - destruct (readLE by_ s) as [v s'] eqn:ER. cbn [fst snd] in *.
    rewrite ichk_ok. 2:{ unfold INT_MIN, INT_MAX. change (2 ^ 31) with 2147483648 in HR.
      destruct (Z.eqb_spec bits 8) as [E8|]; [|lia]. assert (by_ = 1) by (rewrite Eby, E8; reflexivity). lia. }
    cbn [bind]. rewrite set_in_range by lia. cbn [bind]. eexists; split; [reflexivity|].
    intros p Hp Hl Es. rewrite <- D2 by auto. now rewrite (HV p).
Qed.

(** loops *)
Definition st_after (s : istream) (k : Z) : Prop := True.

Lemma wfs_fail_or s : wfs file s -> igood s = negb (ifail s).
Proof. intros (Hb & [(p & Hp & ->)|Hf]); [reflexivity|]. unfold igood. rewrite Hf. cbn. apply andb_false_r. Qed.

(** what is known after [k] samples starting at stream [s] *)
Definition prog (s s' : istream) (k : Z) : Prop :=
  wfs file s' /\
  (ifail s = true -> ifail s' = true) /\
  (forall p, 0 <= p -> s = atp file p ->
     if (k =? 0) || (p + k * by_ <=? zlen file) then s' = atp file (p + k * by_) else ifail s' = true).

Lemma prog_0 s : wfs file s -> prog s s 0.
Proof. intros H. unfold prog. splits; auto. intros p Hp ->. cbn. f_equal. lia. Qed.

Lemma prog_step s s' k : 0 <= k -> prog s s' k -> prog s (snd (readLE by_ s')) (k + 1).
Proof.
  intros Hk (W & F & G). destruct (readLE_step file by_ s' Hby HF W) as (W' & F' & G').
  pose proof Hby. unfold prog. splits; auto.
  intros p Hp Es. specialize (G p Hp Es). destruct (Z.eqb_spec (k + 1) 0); [lia|]. cbn [orb].
  destruct (Z.leb_spec (p + (k + 1) * by_) (zlen file)).
  - destruct (Z.eqb_spec k 0), (Z.leb_spec (p + k * by_) (zlen file)); cbn [orb] in G; try nia;
      rewrite G; rewrite readLE_at by (auto; try apply Hby; nia); cbn [snd]; f_equal; lia.
  - destruct (Z.eqb_spec k 0), (Z.leb_spec (p + k * by_) (zlen file)); cbn [orb] in G; auto; (apply (G' (p + k * by_)); [nia|exact G|nia]).
Qed.

(** cells written by the first [k] samples: index = st*n + c with n*ch + c < k *)
Definition cells (st : Z) (buf0 buf : list T) (s : istream) (k : Z) : Prop :=
  zlen buf = zlen buf0 /\
  (forall i, (forall n c, 0 <= n -> 0 <= c < channels -> n * channels + c < k -> i <> st * n + c) -> znth buf i = znth buf0 i) /\
  (channels <= st -> forall p, 0 <= p -> s = atp file p -> forall n c, 0 <= n -> 0 <= c < channels -> n * channels + c < k ->
     p + (n * channels + c + 1) * by_ <= zlen file ->
     znth buf (st * n + c) = Some (decode ops bits (code_at file by_ p (n * channels + c)))).

Lemma cells_step s st buf0 buf s' n c x : 0 <= st -> 0 <= n -> 0 <= c < channels -> st * n + c < zlen buf0 ->
  cells st buf0 buf s (n * channels + c) -> prog s s' (n * channels + c) ->
  (forall p, 0 <= p -> p + by_ <= zlen file -> s' = atp file p -> x = decode ops bits (code_at file by_ p 0)) ->
  cells st buf0 (zupd buf (st * n + c) x) s (n * channels + c + 1).
Proof.
  intros Hst Hn Hc Hlt (L & U & V) (W & F & G) Hx. pose proof Hby as HB. pose proof Hch as HC.
  assert (0 <= st * n) by nia.
  unfold cells. splits.
  - now rewrite zlen_zupd.
  - intros i Hi. rewrite znth_zupd_ne by (try lia; intros E; apply (Hi n c); lia). apply U. intros n' c' Hn' Hc' Hk. apply Hi; lia.
  - intros Hs p Hp Es n' c' Hn' Hc' Hk Hl.
    destruct (Z.eq_dec (n' * channels + c') (n * channels + c)) as [E|NE].
    + assert (n' = n) by nia. assert (c' = c) by nia. subst n' c'. rewrite znth_zupd_eq by lia. f_equal.
      rewrite (Hx (p + (n * channels + c) * by_)).
      * now rewrite code_at_shift.
      * nia.
      * lia.
      * specialize (G p Hp Es).
        destruct (Z.eqb_spec (n * channels + c) 0), (Z.leb_spec (p + (n * channels + c) * by_) (zlen file)); cbn [orb] in G; auto; nia.
    + rewrite znth_zupd_ne; [apply V; auto; lia|nia|].
      intros E. apply NE. assert (n' = n) by nia. subst. lia.
Qed.

Lemma read_ok s buf num stride : buf_ok buf num channels stride -> wfs file s ->
  exists buf' s', rwav_read ops (mk_rwav s rate bits channels frames) buf num stride
     = Ok (buf', mk_rwav s' rate bits channels frames) /\
     prog s s' (num * channels) /\ cells (eff_stride channels stride) buf buf' s (num * channels).
Proof.
  intros (B1 & B2 & B3 & B4) Hs. unfold rwav_read. cbn [mk_rwav r_channels fld bind]. cbn zeta. fold (eff_stride channels stride).
  set (st := eff_stride channels stride) in *. pose proof Hch as HC.
  set (r := mk_rwav s rate bits channels frames).
  destruct (for_loop_inv (fun n (bs : list T * istream) => prog s (snd bs) (n * channels) /\ cells st buf (fst bs) s (n * channels))
     (fun n '(b, s) => for_loop (Z.to_nat channels) 0 (fun c bs => body r st n c bs) (b, s)) (Z.to_nat num) 0 (buf, s)) as ([buf' s'] & E & P1 & P2).
  - cbn [fst snd]. rewrite Z.mul_0_l. split; [apply prog_0; auto|]. unfold cells. splits; auto.
    intros Hst p Hp Es n c Hn Hc Hk. exfalso. nia.
  - intros n [b1 s1] Hn (P1 & P2). cbn [fst snd] in P1, P2.
    destruct (for_loop_inv (fun c (bs : list T * istream) => prog s (snd bs) (n * channels + c) /\ cells st buf (fst bs) s (n * channels + c))
       (fun c bs => body r st n c bs) (Z.to_nat channels) 0 (b1, s1)) as ([b2 s2] & E & Q1 & Q2).
    + cbn [fst snd]. rewrite Z.add_0_r. auto.
    + intros c [b2 s2] Hc (Q1 & Q2). cbn [fst snd] in Q1, Q2.
      assert (Lb : zlen b2 = zlen buf) by apply Q2.
      assert (st * n + c < zlen buf) by nia.
      destruct (body_ok s st n c b2 s2) as (x & Eb & Hx); try lia; try nia. { apply Q1. }
      unfold r. rewrite Eb. eexists. split; [reflexivity|]. cbn [fst snd]. rewrite Z.add_assoc. split.
      * apply prog_step; auto. nia.
      * eapply cells_step; eauto; lia.
    + exists (b2, s2). split; auto. cbn [fst snd] in *. replace ((n + 1) * channels) with (n * channels + (0 + Z.of_nat (Z.to_nat channels))) by lia. auto.
  - cbn [fst snd] in P1, P2. replace (0 + Z.of_nat (Z.to_nat num)) with num in P1, P2 by lia.
    unfold body in E.
    match goal with |- context [for_loop ?n ?i ?f ?x] => replace (for_loop n i f x) with (Ok (buf', s')) by (symmetry; exact E) end.
    cbn [bind]. exists buf', s'. splits; auto.
Qed.

Lemma skip_ok s num : INT_MIN <= num * channels <= INT_MAX -> INT_MIN <= num * channels * by_ <= INT_MAX -> wfs file s ->
  exists s', rwav_skip (mk_rwav s rate bits channels frames) num = Ok (mk_rwav s' rate bits channels frames) /\ wfs file s' /\
    (ifail s = true -> ifail s' = true) /\
    (forall p, 0 <= p -> s = atp file p -> if 0 <=? p + num * (channels * by_) then s' = atp file (p + num * (channels * by_)) else ifail s' = true).
Proof.
  intros H1 H2 (Hb & Hs). unfold rwav_skip. cbn [mk_rwav r_channels r_bytes fld bind]. rewrite <- Eby.
  rewrite ichk_ok by auto. cbn [bind]. rewrite ichk_ok by auto. cbn [bind]. eexists; split; [reflexivity|].
  change (r_is (mk_rwav s rate bits channels frames)) with s. unfold iseek_cur, wfs. destruct Hs as [(p & Hp & ->)|Hf].
  - cbn [ifail atp ipos ibytes]. destruct (Z.ltb_spec (p + num * channels * by_) 0).
    + cbn [ifail ibytes]. splits; auto; try discriminate. intros q Hq Eq. injection Eq as <-.
      destruct (Z.leb_spec 0 (p + num * (channels * by_))); [lia|auto].
    + cbn [ifail ibytes]. splits; auto; try discriminate.
      * left. exists (p + num * channels * by_). auto.
      * intros q Hq Eq. injection Eq as <-.
        destruct (Z.leb_spec 0 (p + num * (channels * by_))); [|lia]. unfold atp. f_equal. lia.
  - rewrite Hf. cbn [ifail ibytes]. splits; auto. intros p Hp ->. cbn in Hf. discriminate.
Qed.

Lemma rsteps_fail os : forall s, Forall (rop_ok (T:=T) channels by_) os -> wfs file s -> ifail s = true ->
  exists s', rsteps ops (mk_rwav s rate bits channels frames) os = Ok (mk_rwav s' rate bits channels frames) /\ wfs file s' /\ ifail s' = true.
Proof.
  induction os as [|o os IH]; intros s Ho W Hf; cbn [rsteps].
  - exists s. auto.
  - inversion_clear Ho as [|? ? O1 O2]. destruct o as [buf num stride|num]; cbn [rstep].
    + destruct (read_ok s buf num stride O1 W) as (buf' & s' & -> & (W' & F & _) & _). cbn [bind]. apply IH; auto.
    + destruct O1 as [O1 O1']. destruct (skip_ok s num O1 O1' W) as (s' & -> & W' & F & _). cbn [bind]. apply IH; auto.
Qed.

Lemma rsteps_good os : forall p, 0 <= p -> Forall (rop_ok (T:=T) channels by_) os ->
  exists s', rsteps ops (mk_rwav (atp file p) rate bits channels frames) os = Ok (mk_rwav s' rate bits channels frames) /\
    igood s' = reads_fit (zlen file) (channels * by_) p os.
Proof.
  pose proof Hby as HB. pose proof Hch as HC.
  induction os as [|o os IH]; intros p Hp Ho; cbn [rsteps reads_fit].
  - exists (atp file p). auto.
  - inversion_clear Ho as [|? ? O1 O2].
    assert (W : wfs file (atp file p)) by (split; auto; left; exists p; auto).
    destruct o as [buf num stride|num]; cbn [rstep].
    + destruct (read_ok (atp file p) buf num stride O1 W) as (buf' & s' & -> & (W' & F & G) & _). cbn [bind].
      specialize (G p Hp eq_refl).
      assert (E0 : (num * channels =? 0) = (num =? 0)).
      { destruct O1 as (O1 & _). destruct (Z.eqb_spec (num * channels) 0), (Z.eqb_spec num 0); auto; nia. }
      rewrite E0 in G. replace (num * channels * by_) with (num * (channels * by_)) in G by ring.
      destruct ((num =? 0) || (p + num * (channels * by_) <=? zlen file)).
      * subst s'. cbn [andb]. apply IH; auto. destruct O1 as (O1 & _). nia.
      * cbn [andb]. destruct (rsteps_fail os s' O2 W' G) as (s2 & E & W2 & F2). exists s2. split; auto.
        rewrite wfs_fail_or by auto. now rewrite F2.
    + destruct O1 as [O1 O1']. destruct (skip_ok (atp file p) num O1 O1' W) as (s' & -> & W' & F & G). cbn [bind].
      specialize (G p Hp eq_refl). destruct (Z.leb_spec 0 (p + num * (channels * by_))).
      * subst s'. cbn [andb]. apply IH; auto.
      * cbn [andb]. destruct (rsteps_fail os s' O2 W' G) as (s2 & E & W2 & F2). exists s2. split; auto.
        rewrite wfs_fail_or by auto. now rewrite F2.
Qed.
End Rd.
