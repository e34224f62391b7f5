From Coq Require Import String.
Import List.ListNotations.
Open Scope list_scope.
From Verif Require Import Proofs.BaseLemmas Proofs.ContainerProofs Model.Wav Spec.Wav Spec.WavHeader Proofs.WavProofs Proofs.WavRead Proofs.WavInst.
Open Scope Z_scope.

(** ** reading tags *)
Lemma skipn_znth (l : list Z) p b : 0 <= p -> znth l p = Some b -> skipn (Z.to_nat p) l = b :: skipn (Z.to_nat (p + 1)) l.
Proof.
  intros Hp. unfold znth. destruct (Z.ltb_spec p 0); [lia|]. replace (Z.to_nat (p + 1)) with (S (Z.to_nat p)) by lia.
  generalize (Z.to_nat p) as n. clear. intros n. revert l. induction n as [|n IH]; intros [|a l]; cbn; try discriminate.
  - intros H; injection H as ->. reflexivity.
  - apply IH.
Qed.
Lemma znth_none (l : list Z) p : 0 <= p -> znth l p = None -> zlen l <= p.
Proof.
  intros Hp. unfold znth, zlen. destruct (Z.ltb_spec p 0); [lia|]. intros E. apply nth_error_None in E. lia.
Qed.
Lemma tag_run file (t : list Z) : forall p, 0 <= p ->
  let bs := firstn (length t) (skipn (Z.to_nat p) file) in
  exists cs s, iread (length t) (atp file p) = (cs, s) /\
  (bs = t /\ cmp4 t cs = Ok false /\ s = atp file (p + zlen t) \/
   bs <> t /\ ~ (exists rest, rest <> [] /\ t = bs ++ rest) /\ cmp4 t cs = Ok true \/
   bs <> t /\ (exists rest, rest <> [] /\ t = bs ++ rest) /\ cmp4 t cs = Undefined).
Proof.
  induction t as [|x t IH]; intros p Hp; cbn zeta.
  - do 2 eexists. split; [reflexivity|]. left. cbn. rewrite Z.add_0_r. auto.
  - cbn [length iread firstn]. rewrite iget_at by auto. destruct (znth file p) as [b|] eqn:Eb.
    + destruct (IH (p + 1)) as (cs & s & E & H); [lia|]. rewrite E. do 2 eexists. split; [reflexivity|].
      rewrite (skipn_znth file p b Hp Eb). cbn [cmp4]. change (igood (atp file (p + 1))) with true. cbn iota.
      destruct (Z.eqb_spec x b) as [->|N].
      * destruct H as [(H1 & H2 & H3)|[(H1 & H2 & H3)|(H1 & H2 & H3)]].
        -- left. rewrite H1. splits; auto. rewrite H3. f_equal. unfold zlen. cbn [length]. lia.
        -- right. left. splits; auto; [congruence|]. intros (rest & Hr & Ht). apply H2. exists rest. split; auto. cbn in Ht. congruence.
        -- right. right. splits; auto; [congruence|]. destruct H2 as (rest & Hr & Ht). exists rest. split; auto. cbn. congruence.
      * right. left. splits; auto; [cbn; congruence|]. intros (rest & _ & Ht). cbn in Ht. congruence.
    + assert (skipn (Z.to_nat p) file = []) as ->.
      { apply skipn_all2. apply znth_none in Eb; auto. unfold zlen in Eb. lia. }
      destruct (iread (length t) _) as [cs s]. do 2 eexists. split; [reflexivity|].
      right. right. splits; [discriminate| |reflexivity].
      exists (x :: t). split; [discriminate|reflexivity].
Qed.
Lemma four_len (file : list Z) p : length (four_at file p) = 4%nat -> 0 <= p -> p + 4 <= zlen file.
Proof. unfold four_at. rewrite firstn_length, skipn_length. unfold zlen. lia. Qed.
Lemma tag_cases file p t : 0 <= p -> length (chars t) = 4%nat ->
  exists cs s, iread 4 (atp file p) = (cs, s) /\
  (tag file p t /\ cmp4 (chars t) cs = Ok false /\ s = atp file (p + 4) /\ p + 4 <= zlen file \/
   ~ tag file p t /\ ~ tag_cut file p t /\ cmp4 (chars t) cs = Ok true \/
   ~ tag file p t /\ tag_cut file p t /\ cmp4 (chars t) cs = Undefined).
Proof.
  intros Hp L. destruct (tag_run file (chars t) p Hp) as (cs & s & E & H). rewrite L in *. exists cs, s. split; auto.
  unfold tag, tag_cut, four_at.
  destruct H as [(H1 & H2 & H3)|[H|H]]; [left|tauto|tauto]. splits; auto.
  - rewrite H3. f_equal. unfold zlen. rewrite L. reflexivity.
  - apply four_len; auto. unfold four_at. congruence.
Qed.
Lemma tag_len file p t : 0 <= p -> length (chars t) = 4%nat -> tag file p t -> p + 4 <= zlen file.
Proof. intros Hp L H. apply four_len; auto. unfold tag in H. congruence. Qed.
Lemma tag_not_cut file p t : tag file p t -> ~ tag_cut file p t.
Proof.
  intros H (rest & Hr & E). unfold tag in H. rewrite H in E. apply Hr. apply (f_equal (@length Z)) in E.
  rewrite app_length in E. destruct rest; auto. cbn in E. lia.
Qed.
Lemma cut_beyond file p t : zlen file <= p -> length (chars t) = 4%nat -> tag_cut file p t.
Proof.
  intros Hp L. exists (chars t). unfold four_at. rewrite skipn_all2 by (unfold zlen in Hp; lia). split; [|reflexivity].
  intros E. rewrite E in L. discriminate.
Qed.
Lemma cmp4_failed s t : ifail s = true -> length (chars t) = 4%nat -> cmp4 (chars t) (fst (iread 4 s)) = Undefined.
Proof.
  intros H L. cbn [iread]. assert (G : igood (snd (iget s)) = false).
  { unfold igood. rewrite (proj1 (iget_fail s H)). apply andb_false_r. }
  destruct (iget s) as [c s1]. cbn [snd] in G. rewrite G.
  repeat match goal with |- context [let '(_, _) := ?x in _] => destruct x end. cbn [fst].
  destruct (chars t); [discriminate|reflexivity].
Qed.

(** ** reading numbers past the end *)
Lemma lor_neg a b : a < 0 \/ b < 0 -> Z.lor a b < 0.
Proof. intros H. now apply Z.lor_neg. Qed.
Lemma eof_piece i : 0 <= i <= 3 -> int32 (Z.shiftl (-1) (8 * i)) < 0.
Proof. intros H. assert (i = 0 \/ i = 1 \/ i = 2 \/ i = 3) as [-> | [-> | [-> | ->]]] by lia; vm_compute; reflexivity. Qed.
Lemma loop_neg n : forall i v s, v < 0 -> fst (readLE_loop n i v s) < 0.
Proof.
  induction n as [|n IH]; intros i v s H; cbn [readLE_loop]; auto.
  destruct (iget s). apply IH. apply lor_neg. auto.
Qed.
Lemma loop_fail_neg n i v s : n <> O -> 0 <= i <= 3 -> ifail s = true -> fst (readLE_loop n i v s) < 0.
Proof.
  destruct n as [|n]; [congruence|]. intros _ Hi H. cbn [readLE_loop]. unfold iget, igood. rewrite H, andb_false_r.
  apply loop_neg, lor_neg. right. now apply eof_piece.
Qed.
Lemma loop_eof_neg n : forall i v file p, n <> O -> 0 <= i -> i + Z.of_nat n <= 4 -> 0 <= p -> zlen file < p + Z.of_nat n ->
  fst (readLE_loop n i v (atp file p)) < 0.
Proof.
  induction n as [|n IH]; intros i v file p Hn Hi Hi4 Hp Hl; [congruence|]. cbn [readLE_loop]. rewrite iget_at by auto.
  destruct (znth file p) as [b|] eqn:E.
  - apply znth_Some_range in E. destruct n as [|n]; [lia|]. apply IH; try lia; discriminate.
  - apply loop_neg, lor_neg. right. apply eof_piece. lia.
Qed.
Lemma readLE_neg b s : fst (readLE_loop (Z.to_nat b) 0 0 s) < 0 -> fst (readLE b s) < 0.
Proof.
  unfold readLE. destruct (readLE_loop _ _ _ _) as [v s']. cbn [fst]. intros H.
  destruct (Z.ltb_spec 32767 v); [lia|]. rewrite andb_false_r. destruct (Z.ltb_spec 8388607 v); [lia|]. rewrite andb_false_r. auto.
Qed.
Lemma fld_cases file n p : n = 2 \/ n = 4 -> Forall is_byte file -> 0 <= p ->
  (p + n <= zlen file /\ readLE n (atp file p) = (field file p n, atp file (p + n))) \/
  (zlen file < p + n /\ exists v s, readLE n (atp file p) = (v, s) /\ v < 0 /\ ifail s = true).
Proof.
  intros Hn HF Hp. destruct (Z_le_dec (p + n) (zlen file)); [left|right]; (split; [lia|]).
  - rewrite readLE_at by (auto; lia). now rewrite code_at_field by (auto; lia).
  - destruct (readLE n (atp file p)) as [v s] eqn:E. exists v, s. splits; auto.
    + change v with (fst (v, s)). rewrite <- E. apply readLE_neg, loop_eof_neg; lia.
    + change s with (snd (v, s)). rewrite <- E.
      apply (readLE_step file n (atp file p)) with (p := p); auto; try lia. split; auto. left. exists p. auto.
Qed.
Lemma fld_failed n s : n = 2 \/ n = 4 -> ifail s = true -> exists v s', readLE n s = (v, s') /\ v < 0 /\ ifail s' = true.
Proof.
  intros Hn H. destruct (readLE n s) as [v s'] eqn:E. exists v, s'. splits; auto.
  - change v with (fst (v, s')). rewrite <- E. apply readLE_neg, loop_fail_neg; auto; lia.
  - change s' with (snd (v, s')). rewrite <- E. rewrite snd_readLE. now apply readLE_loop_fail.
Qed.

(** ** the verdict *)
Definition rejected file : Prop := (forall rate bits ch fr st, ~ wav_header file rate bits ch fr st) /\ ~ wav_undefined file.
Definition verdict file (o : outcome rwav) : Prop :=
  match o with
  | Ok r => (accepted r /\ rwav_good r = true /\ exists rate bits ch fr st,
               wav_header file rate bits ch fr st /\ r = mk_rwav (atp file st) rate bits ch fr) \/
            ((~ accepted r \/ rwav_good r = false /\ zlen file < 58) /\ rejected file)
  | Undefined => wav_undefined file
  | _ => False
  end.
Lemma not_acc (P : Prop) s a b c d e f : ~ accepted {| r_is := s; r_bits := a; r_bytes := b; r_rate := c; r_channels := d; r_frames := e; r_offset := f; r_factor := None |} \/ P.
Proof. left. intros H. apply H. reflexivity. Qed.
(** nothing more than the failure of one of the conditions of the format chunk *)
Lemma rej_fmt file : (forall size rate bits ch, ~ fmt_chunk file size rate bits ch) ->
  ~ tag_cut file 0 "RIFF" -> (tag file 0 "RIFF" -> ~ tag_cut file 8 "WAVE") ->
  (tag file 0 "RIFF" -> tag file 8 "WAVE" -> ~ tag_cut file 12 "fmt ") -> rejected file.
Proof.
  intros H K0 K8 K12. split.
  - intros rate bits ch fr st (size & d & HC & _). eapply H; eauto.
  - intros [U|[U|[U|(size & rate & bits & ch & HC & _)]]]; try tauto. eapply H; eauto.
Qed.
Lemma rej_at file size rate bits ch : fmt_chunk file size rate bits ch -> ~ rate_overflow rate bits ch ->
  (rate_ok file rate bits ch ->
     (forall d, data_tag_at file size d -> ~ tag_cut file d "data" /\ (tag file d "data" -> d + 8 <= zlen file ->
        0 < field file (d + 4) 4 /\ 0 < field file 4 4 /\ field file (d + 4) 4 + overhead bits <= INT_MAX /\ field file (d + 4) 4 + overhead bits - 8 <> field file 4 4)) /\
     (size = 18 -> 38 <= zlen file -> field file 36 2 = 0 -> ~ tag_cut file 38 "fact")) -> rejected file.
Proof.
  intros HC NR H. pose proof HC as HC'. destruct HC'. split.
  - intros rate' bits' ch' fr st (size' & d & HC2 & RO & HD & HT & -> & HL & X). destruct HC2. cbn zeta in X.
    assert (rate' = rate) as -> by congruence. assert (bits' = bits) as -> by congruence.
    assert (ch' = ch) as -> by congruence. assert (size' = size) as -> by congruence.
    destruct (H RO) as [H1 _]. destruct (H1 d HD) as [_ H2]. specialize (H2 HT HL). lia.
  - intros [U|[(_ & U)|[(_ & _ & U)|(size' & rate' & bits' & ch' & HC2 & X)]]];
      [revert U; now apply tag_not_cut|revert U; now apply tag_not_cut|revert U; now apply tag_not_cut|]. destruct HC2.
    assert (rate' = rate) as -> by congruence. assert (bits' = bits) as -> by congruence.
    assert (ch' = ch) as -> by congruence. assert (size' = size) as -> by congruence.
    destruct X as [X|(RO & X)]; [tauto|]. destruct (H RO) as [H1 H3].
    destruct X as [X|(d & HD & X)]; [tauto|]. destruct (H1 d HD) as [H4 H5]. destruct X as [X|(HT & HL & Y)]; [tauto|].
    specialize (H5 HT HL). lia.
Qed.
Lemma in_int_dec z : in_int z \/ ~ in_int z.
Proof. unfold in_int. lia. Qed.
Lemma ichk_bad z : ~ in_int z -> ichk z = Undefined.
Proof. unfold in_int, ichk, int_ok. intros H. destruct (Z.leb_spec INT_MIN z), (Z.leb_spec z INT_MAX); auto. lia. Qed.
Lemma ichk_good z : in_int z -> ichk z = Ok z.
Proof. intros H. now apply ichk_ok. Qed.

(** from the data tag on *)
Lemma data_part file size rate bits ch d fr (K : option Z -> istream -> rwav) :
  Forall is_byte file -> fmt_chunk file size rate bits ch -> rate_ok file rate bits ch -> data_tag_at file size d ->
  (size = 18 -> d + 0 <= zlen file -> fr = Some (field file 46 4)) ->
  (forall f s, r_factor (K f s) = None) ->
  verdict file ('(early, s, frames) <- Ok (false, atp file d, fr) ;;
    if early : bool then Ok (K frames s) else
    let '(Subchunk2ID, s) := iread 4 s in
    ne <- cmp4 (chars "data") Subchunk2ID ;;
    if ne : bool then Ok (K frames s) else
    let '(Subchunk2Size, s) := readLE 4 s in
    let overhead := if bits =? 32 then 58 else 44 in
    '(early, frames) <-
      (if (Subchunk2Size <=? 0) || (field file 4 4 <=? 0) then Ok (false, Some (-1))
       else
         so <- ichk (Subchunk2Size + overhead) ;;
         so <- ichk (so - 8) ;;
         if negb (so =? field file 4 4) then Ok (true, frames)
         else if size =? 16 then
           if bits ÷ 8 * ch =? 0 then Undefined else Ok (false, Some (Z.quot Subchunk2Size (bits ÷ 8 * ch)))
         else Ok (false, frames)) ;;
    if early : bool then Ok (K frames s) else
    let '(offset, factor) :=
      if bits =? 8 then (128, 127) else if bits =? 16 then (0, 32767) else (0, 1) in
    Ok {| r_is := s; r_bits := Some bits; r_bytes := Some (bits ÷ 8); r_rate := Some rate; r_channels := Some ch;
          r_frames := frames; r_offset := Some offset; r_factor := Some factor |}).
Proof.
  intros HF HC RO HD Hfr HK. pose proof HC as HC'. destruct HC'. cbn [bind]. cbn iota beta.
  assert (Hd : 0 <= d) by (destruct HD as [(_ & ->)|(_ & -> & _)]; lia).
  assert (HR : forall (P : Prop) f s, ~ accepted (K f s) \/ P) by (intros P f s; left; intros A; apply A; apply HK).
  assert (Hb : bits ÷ 8 = bits / 8) by (destruct fc_format as [([-> | ->] & _)|(-> & _)]; reflexivity).
  assert (Hb1 : 1 <= bits / 8 <= 4) by (destruct fc_format as [([-> | ->] & _)|(-> & _)]; vm_compute; split; discriminate).
  assert (NO : ~ rate_overflow rate bits ch) by (unfold rate_ok, rate_overflow in *; tauto).
  assert (UD : forall d', data_tag_at file size d' -> d' = d) by (intros d'; unfold data_tag_at in *; lia).
  assert (NF : size = 18 -> ~ tag_cut file 38 "fact").
  { intros E. apply tag_not_cut. unfold data_tag_at in HD. destruct HD as [(? & _)|(_ & _ & _ & _ & HT & _)]; [lia|auto]. }
  destruct (tag_cases file d "data" Hd eq_refl) as (cs & s & E & [(T1 & U & -> & L)|[(T1 & T2 & U)|(T1 & T2 & U)]]); rewrite E; cbn iota beta; rewrite U; cbn [bind]; cbn iota beta.
  2:{ right. split; [apply HR|]. eapply rej_at; eauto. intros _. split; [|tauto].
      intros d' HD'. rewrite (UD d' HD'). tauto. }
  2:{ right. right. right. exists size, rate, bits, ch. split; auto. right. split; auto. right. exists d. tauto. }
  destruct (fld_cases file 4 (d + 4)) as [(L2 & R)|(L2 & v & s' & R & Hv & Hs)]; auto; [lia| |].
  - rewrite R. cbn iota beta. replace (d + 4 + 4) with (d + 8) by lia. set (data := field file (d + 4) 4) in *.
    cbn zeta. change (if bits =? 32 then 58 else 44) with (overhead bits).
    assert (FIN : forall f, wav_header file rate bits ch f (d + 8) ->
      verdict file (let '(offset, factor) := if bits =? 8 then (128, 127) else if bits =? 16 then (0, 32767) else (0, 1) in
        Ok {| r_is := atp file (d + 8); r_bits := Some bits; r_bytes := Some (bits ÷ 8); r_rate := Some rate; r_channels := Some ch;
          r_frames := Some f; r_offset := Some offset; r_factor := Some factor |})).
    { intros f H. rewrite Hb.
      assert (X : (let '(offset, factor) := if bits =? 8 then (128, 127) else if bits =? 16 then (0, 32767) else (0, 1) in
        Ok {| r_is := atp file (d + 8); r_bits := Some bits; r_bytes := Some (bits / 8); r_rate := Some rate; r_channels := Some ch;
          r_frames := Some f; r_offset := Some offset; r_factor := Some factor |}) = Ok (mk_rwav (atp file (d + 8)) rate bits ch f)).
      { unfold mk_rwav. destruct (bits =? 8); [reflexivity|]. destruct (bits =? 16); reflexivity. }
      rewrite X. left. splits; [discriminate|reflexivity|]. do 5 eexists. split; [apply H|reflexivity]. }
    destruct (Z.leb_spec data 0) as [D0|D0]; [cbn [orb bind]; apply FIN; exists size, d; splits; auto; try lia; left; auto|].
    destruct (Z.leb_spec (field file 4 4) 0) as [C0|C0]; [cbn [orb bind]; apply FIN; exists size, d; splits; auto; try lia; left; auto|].
    cbn [orb]. assert (Hov : 44 <= overhead bits <= 58) by (unfold overhead; destruct (bits =? 32); lia).
    destruct (Z_le_dec (data + overhead bits) INT_MAX) as [HI|HI].
    2:{ rewrite ichk_bad by (unfold in_int; lia). right. right. right. exists size, rate, bits, ch. split; auto. right. split; auto. right.
        exists d. split; auto. right. splits; auto; try lia. }
    rewrite !ichk_good by (unfold in_int, INT_MIN, INT_MAX in *; lia). cbn [bind].
    rewrite ichk_good by (unfold in_int, INT_MIN, INT_MAX in *; lia). cbn [bind].
    destruct (Z.eqb_spec (data + overhead bits - 8) (field file 4 4)) as [EC|EC]; cbn [negb].
    2:{ cbn [bind]. right. split; [apply HR|]. eapply rej_at; eauto. intros _. split; [|tauto].
        intros d' HD'. rewrite (UD d' HD'). split; [now apply tag_not_cut|]. fold data. lia. }
    destruct (Z.eqb_spec size 16) as [E16|E16].
    + rewrite Hb. destruct (Z.eqb_spec (bits / 8 * ch) 0) as [Z0|Z0].
      * right. right. right. exists size, rate, bits, ch. split; auto. right. split; auto. right.
        exists d. split; auto. right. splits; auto; try lia.
      * cbn [bind]. rewrite <- Hb. apply FIN. rewrite Hb. exists size, d. splits; auto; try lia. cbn zeta. right. splits; auto; try lia.
        right. splits; auto. nia.
    + cbn [bind]. rewrite Hfr by lia. apply FIN. exists size, d. splits; auto; try lia.
  - rewrite R. cbn iota beta zeta. destruct (Z.leb_spec v 0); [|lia]. cbn [orb bind]. cbn iota beta.
    destruct (if bits =? 8 then (128, 127) else if bits =? 16 then (0, 32767) else (0, 1)) as [o f].
    right. split.
    { right. split; [unfold rwav_good, igood; cbn [r_is]; rewrite Hs, andb_false_r; reflexivity|].
      destruct HD as [(_ & ->)|(_ & -> & _)]; lia. }
    eapply rej_at; eauto. intros _. split; [|tauto].
    intros d' HD'. rewrite (UD d' HD'). split; [now apply tag_not_cut|]. intros. lia.
Qed.

(** the fact chunk *)
Lemma verdict_open file : Forall is_byte file -> verdict file (rwav_open (iopen file)).
Proof.
  intros HF. unfold rwav_open. cbn zeta. change (iopen file) with (atp file 0).
  Ltac rdtag file p t T := let cs := fresh "cs" in let s := fresh "s" in let E := fresh "E" in let K := fresh "K" in let L := fresh "L" in
    destruct (tag_cases file p t ltac:(lia) eq_refl) as (cs & s & E & [(T & K & -> & L)|[(T & K & L)|(T & K & L)]]);
    rewrite E; cbn iota beta; [rewrite K|rewrite L|rewrite L]; cbn [bind]; cbn iota beta; clear E;
    [let x := eval compute in (p + 4) in change (p + 4) with x in *| |].
  Ltac rdfld file n p L := let v := fresh "v" in let s := fresh "s" in let R := fresh "R" in let Hv := fresh "Hv" in let Hs := fresh "Hs" in
    destruct (fld_cases file n p ltac:(auto) ltac:(assumption) ltac:(lia)) as [(L & R)|(L & v & s & R & Hv & Hs)];
    rewrite R; cbn iota beta; clear R; [let x := eval compute in (p + n) in change (p + n) with x in *|].
  Ltac rdfail n := match goal with Hs : ifail ?s = true |- context [readLE n ?s] =>
    let v := fresh "v" in let s' := fresh "s" in let R := fresh "R" in let Hv := fresh "Hv" in let Hs' := fresh "Hs" in
    destruct (fld_failed n s ltac:(auto) Hs) as (v & s' & R & Hv & Hs'); rewrite R; cbn iota beta; clear R; clear Hs end.
  Ltac nofmt := right; split; [apply not_acc|]; apply rej_fmt;
    [intros size' rate' bits' ch' HC; destruct HC; try tauto; try lia; try congruence
    |try assumption; try (apply tag_not_cut; assumption)
    |intros ?; try assumption; try (apply tag_not_cut; assumption); try tauto
    |intros ? ?; try assumption; try (apply tag_not_cut; assumption); try tauto].
  rdtag file 0 "RIFF"%string T0.
  2:{ nofmt. }
  2:{ left. auto. }
  rdfld file 4 4 L4.
  2:{ pose proof (cmp4_failed s "WAVE" Hs eq_refl) as U. destruct (iread 4 s) as [csx sx]. cbn [fst] in U. rewrite U. cbn [bind].
      right. left. split; auto. apply cut_beyond; [lia|reflexivity]. }
  rdtag file 8 "WAVE"%string T8.
  2:{ nofmt. }
  2:{ right. left. auto. }
  rdtag file 12 "fmt "%string T12.
  2:{ nofmt. }
  2:{ right. right. left. auto. }
  rdfld file 4 16 L16.
  2:{ destruct (Z.eqb_spec v 16); [lia|]. destruct (Z.eqb_spec v 18); [lia|]. cbn [negb andb]. nofmt. }
  destruct (negb (field file 16 4 =? 16) && negb (field file 16 4 =? 18)) eqn:ESZ.
  { rewrite andb_true_iff, !negb_true_iff, !Z.eqb_neq in ESZ. nofmt. }
  assert (SZ : field file 16 4 = 16 \/ field file 16 4 = 18).
  { rewrite andb_false_iff, !negb_false_iff, !Z.eqb_eq in ESZ. tauto. } clear ESZ.
  rdfld file 2 20 L20.
  2:{ destruct (Z.eqb_spec v 1); [lia|]. destruct (Z.eqb_spec v 3); [lia|]. cbn [negb andb]. nofmt. }
  destruct (negb (field file 20 2 =? 1) && negb (field file 20 2 =? 3)) eqn:EAF.
  { rewrite andb_true_iff, !negb_true_iff, !Z.eqb_neq in EAF. nofmt. }
  assert (AF : field file 20 2 = 1 \/ field file 20 2 = 3).
  { rewrite andb_false_iff, !negb_false_iff, !Z.eqb_eq in EAF. tauto. } clear EAF.
  Ltac shortfmt v := destruct (Z.eqb_spec v 8); [lia|]; destruct (Z.eqb_spec v 16); [lia|]; destruct (Z.eqb_spec v 32); [lia|]; cbn [negb andb]; nofmt.
  rdfld file 2 22 L22. 2:{ rdfail 4. rdfail 4. rdfail 2. rdfail 2. shortfmt v3. }
  rdfld file 4 24 L24. 2:{ rdfail 4. rdfail 2. rdfail 2. shortfmt v2. }
  rdfld file 4 28 L28. 2:{ rdfail 2. rdfail 2. shortfmt v1. }
  rdfld file 2 32 L32. 2:{ rdfail 2. shortfmt v0. }
  rdfld file 2 34 L34. 2:{ shortfmt v. }
  remember (field file 34 2) as bits eqn:Ebits. remember (field file 22 2) as ch eqn:Ech. remember (field file 24 4) as rate eqn:Erate.
  destruct (negb (bits =? 8) && negb (bits =? 16) && negb (bits =? 32)) eqn:EB.
  { rewrite !andb_true_iff, !negb_true_iff, !Z.eqb_neq in EB. nofmt. }
  assert (B : bits = 8 \/ bits = 16 \/ bits = 32).
  { rewrite !andb_false_iff, !negb_false_iff, !Z.eqb_eq in EB. tauto. } clear EB.
  destruct (((bits =? 8) || (bits =? 16)) && negb (field file 20 2 =? 1)) eqn:E1.
  { rewrite andb_true_iff, orb_true_iff, negb_true_iff, !Z.eqb_eq, Z.eqb_neq in E1. nofmt. }
  rewrite andb_false_iff, orb_false_iff, negb_false_iff, !Z.eqb_neq, Z.eqb_eq in E1.
  destruct ((bits =? 32) && negb (field file 20 2 =? 3)) eqn:E2.
  { rewrite andb_true_iff, negb_true_iff, !Z.eqb_eq, Z.eqb_neq in E2. nofmt. }
  rewrite andb_false_iff, negb_false_iff, !Z.eqb_neq, Z.eqb_eq in E2.
  assert (FM : (bits = 8 \/ bits = 16) /\ field file 20 2 = 1 \/ bits = 32 /\ field file 20 2 = 3) by (clear - B E1 E2; lia).
  assert (Hb : bits ÷ 8 = bits / 8) by (destruct B as [-> | [-> | ->]]; reflexivity).
  assert (Hb1 : 1 <= bits / 8 <= 4) by (destruct B as [-> | [-> | ->]]; vm_compute; split; discriminate).
  pose proof (field2_range file 22 HF ltac:(lia) ltac:(lia)) as Rch. rewrite <- Ech in Rch.
  rewrite ichk_good by (rewrite Hb; unfold in_int, INT_MIN, INT_MAX; nia). cbn [bind].
  destruct (Z.eqb_spec (bits ÷ 8 * ch) (field file 32 2)) as [EA|EA]; cbn [negb].
  2:{ nofmt. }
  assert (HC : fmt_chunk file (field file 16 4) rate bits ch) by (constructor; auto; lia).
  destruct (in_int_dec (rate * (bits ÷ 8))) as [I1|I1].
  2:{ rewrite ichk_bad by auto. right. right. right. do 4 eexists. split; [eauto|]. left. left. congruence. }
  rewrite ichk_good by auto. cbn [bind].
  destruct (in_int_dec (rate * (bits ÷ 8) * ch)) as [I2|I2].
  2:{ rewrite ichk_bad by auto. right. right. right. do 4 eexists. split; [eauto|]. left. right. congruence. }
  rewrite ichk_good by auto. cbn [bind].
  assert (NO : ~ rate_overflow rate bits ch) by (unfold rate_overflow; rewrite <- Hb; tauto).
  destruct (Z.eqb_spec (rate * (bits ÷ 8) * ch) (field file 28 4)) as [ER|ER]; cbn [negb].
  2:{ right. split; [apply not_acc|]. eapply rej_at; eauto. intros (_ & _ & X). exfalso. apply ER. congruence. }
  assert (RO : rate_ok file rate bits ch) by (unfold rate_ok; rewrite <- Hb; auto).
  destruct SZ as [SZ|SZ]; rewrite SZ; [change (16 =? 18) with false|change (18 =? 18) with true]; cbn iota.
  { rewrite SZ in HC. refine (data_part file 16 rate bits ch 36 None (fun f s => {| r_is := s; r_bits := Some bits; r_bytes := Some (bits ÷ 8); r_rate := Some rate; r_channels := Some ch; r_frames := f; r_offset := None; r_factor := None |}) HF HC RO _ _ _).
    - left. auto.
    - discriminate.
    - reflexivity. }
  rewrite SZ in HC.
  Ltac rej18 := right; split; [apply not_acc|]; eapply rej_at; eauto; intros _; split;
    [intros d' [(? & _)|(_ & _ & ? & ? & ? & ?)]; [lia|exfalso; first [tauto|lia|congruence]]
    |intros _ ? ?; first [assumption|apply tag_not_cut; assumption|exfalso; first [lia|congruence]]].
  rdfld file 2 36 L36.
  2:{ destruct (Z.eqb_spec v 0); [lia|]. cbn [negb bind]. rej18. }
  destruct (Z.eqb_spec (field file 36 2) 0) as [X0|X0]; cbn [negb]; [|cbn [bind]; rej18].
  rdtag file 38 "fact"%string T38.
  2:{ rej18. }
  2:{ right. right. right. do 4 eexists. split; [eauto|]. right. split; auto. }
  rdfld file 4 42 L42.
  2:{ destruct (Z.eqb_spec v 4); [lia|]. cbn [negb bind]. rej18. }
  destruct (Z.eqb_spec (field file 42 4) 4) as [X4|X4]; cbn [negb]; [|cbn [bind]; rej18].
  assert (HD : data_tag_at file 18 50) by (right; splits; auto).
  rdfld file 4 46 L46.
  2:{ cbn [bind]. cbn iota beta. pose proof (cmp4_failed s "data" Hs eq_refl) as U. destruct (iread 4 s) as [csx sx]. cbn [fst] in U. rewrite U. cbn [bind].
      right. right. right. do 4 eexists. split; [eauto|]. right. split; auto. right. exists 50. split; auto. left. apply cut_beyond; [lia|reflexivity]. }
  refine (data_part file 18 rate bits ch 50 (Some (field file 46 4)) (fun f s => {| r_is := s; r_bits := Some bits; r_bytes := Some (bits ÷ 8); r_rate := Some rate; r_channels := Some ch; r_frames := f; r_offset := None; r_factor := None |}) HF HC RO HD _ _).
  - auto.
  - reflexivity.
Qed.

(** ** the verdict is unique *)
Lemma header_fun file rate bits ch fr st rate' bits' ch' fr' st' :
  wav_header file rate bits ch fr st -> wav_header file rate' bits' ch' fr' st' ->
  rate' = rate /\ bits' = bits /\ ch' = ch /\ fr' = fr /\ st' = st.
Proof.
  intros (size & d & HC & _ & HD & _ & -> & _ & X) (size' & d' & HC' & _ & HD' & _ & -> & _ & X'). cbn zeta in X, X'.
  destruct HC, HC'.
  assert (rate' = rate) as -> by congruence. assert (bits' = bits) as -> by congruence.
  assert (ch' = ch) as -> by congruence. assert (size' = size) as -> by congruence.
  assert (d' = d) as -> by (unfold data_tag_at in *; lia). splits; auto. lia.
Qed.
Lemma header_defined file rate bits ch fr st : wav_header file rate bits ch fr st -> ~ wav_undefined file.
Proof.
  intros (size & d & HC & RO & HD & HT & -> & HL & X) U. cbn zeta in X. pose proof HC as HC'. destruct HC'.
  destruct U as [U|[(_ & U)|[(_ & _ & U)|(size' & rate' & bits' & ch' & HC2 & Y)]]];
      [revert U; now apply tag_not_cut|revert U; now apply tag_not_cut|revert U; now apply tag_not_cut|]. destruct HC2.
  assert (rate' = rate) as -> by congruence. assert (bits' = bits) as -> by congruence.
  assert (ch' = ch) as -> by congruence. assert (size' = size) as -> by congruence.
  destruct Y as [Y|(_ & Y)]; [unfold rate_ok, rate_overflow in *; tauto|].
  destruct Y as [(E18 & _ & _ & Y)|(d' & HD' & Y)].
  - destruct HD as [(? & _)|(_ & _ & _ & _ & HT' & _)]; [lia|]. revert Y. now apply tag_not_cut.
  - assert (d' = d) as -> by (unfold data_tag_at in *; lia).
    destruct Y as [Y|(_ & _ & Y)]; [revert Y; now apply tag_not_cut|]. lia.
Qed.
