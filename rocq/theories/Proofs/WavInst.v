From Coq Require Import String Reals Lra.
From Flocq Require Import Core IEEE754.Bits IEEE754.Binary.
Import List.ListNotations.
Open Scope list_scope.
From Verif Require Import Proofs.BaseLemmas Proofs.ContainerProofs Model.Wav Spec.Wav Proofs.WavProofs Proofs.WavRead.
Open Scope Z_scope.

(** ** whole files *)
Lemma sample_val_le bits v : bits = 8 \/ bits = 16 \/ bits = 32 -> code_range bits v ->
  sample_val (le (Z.to_nat (bits / 8)) v) = v.
Proof.
  intros [-> | [-> | ->]] H; unfold code_range in H; cbn in H.
  - now apply sample_val_le1.
  - change (Z.to_nat (16 / 8)) with 2%nat. rewrite sample_val_sval; [now apply sval_le2|]. rewrite zlen_le. discriminate.
  - change (Z.to_nat (32 / 8)) with 4%nat. rewrite sample_val_sval; [now apply sval_le4|]. rewrite zlen_le. discriminate.
Qed.

Lemma codes_slice by_ cs : 0 < by_ -> forall k v, nth_error cs k = Some v ->
  firstn (Z.to_nat by_) (skipn (Z.to_nat (Z.of_nat k * by_)) (codes_bytes by_ cs)) = le (Z.to_nat by_) v.
Proof.
  intros Hb. unfold codes_bytes. induction cs as [|c cs IH]; intros [|k] v Hv; try discriminate; cbn [flat_map].
  - injection Hv as ->. rewrite Z.mul_0_l. cbn [Z.to_nat skipn].
    rewrite firstn_app, le_length, Nat.sub_diag, firstn_O, app_nil_r. rewrite firstn_all2; auto. now rewrite le_length.
  - replace (Z.to_nat (Z.of_nat (S k) * by_)) with (Z.to_nat by_ + Z.to_nat (Z.of_nat k * by_))%nat by nia.
    rewrite skipn_app, le_length. rewrite skipn_all2 by (rewrite le_length; lia). cbn [app].
    rewrite Nat.add_comm, Nat.add_sub. now apply IH.
Qed.

Lemma code_at_file bits hdr cs k v : bits = 8 \/ bits = 16 \/ bits = 32 -> znth cs k = Some v -> code_range bits v ->
  code_at (hdr ++ codes_bytes (bits / 8) cs) (bits / 8) (zlen hdr) k = v.
Proof.
  intros Hb Hv Hr. assert (1 <= bits / 8) by (destruct Hb as [-> | [-> | ->]]; vm_compute; discriminate).
  pose proof (znth_Some_range _ _ _ Hv).
  unfold code_at.
  replace (Z.to_nat (zlen hdr + k * (bits / 8))) with (length hdr + Z.to_nat (k * (bits / 8)))%nat by (unfold zlen; nia).
  rewrite skipn_app, skipn_all2 by lia. cbn [app]. rewrite Nat.add_comm, Nat.add_sub.
  rewrite znth_nonneg in Hv by lia. replace k with (Z.of_nat (Z.to_nat k)) by lia. rewrite (codes_slice (bits / 8) cs ltac:(lia) _ v Hv).
  now apply sample_val_le.
Qed.

Lemma le_le_bytes by_ cs : Forall is_byte (codes_bytes by_ cs).
Proof.
  unfold codes_bytes. induction cs; cbn [flat_map]; auto. apply Forall_app. split; auto. apply le_bytes.
Qed.
Lemma chars_bytes s : Forall is_byte (chars s).
Proof.
  unfold chars. apply Forall_map. apply Forall_forall. intros c _. unfold is_byte.
  pose proof (Ascii.N_ascii_bounded c). lia.
Qed.
Lemma riff_bytes rate bits channels c f d : Forall is_byte c -> Forall is_byte f -> Forall is_byte d ->
  Forall is_byte (riff rate bits channels c f d).
Proof.
  intros Hc Hf Hd. unfold riff. repeat (apply Forall_app; split); auto using le_bytes, chars_bytes.
  destruct (bits =? 32); auto. repeat (apply Forall_app; split); auto using le_bytes, chars_bytes.
Qed.

Section File.
Context {T : Type} (ops : sample_ops T) (rate bits channels : Z) (os : list (@wop T)).
Hypothesis HP : wav_params rate bits channels.
Hypothesis HO : Forall (wop_ok channels) os.
Let w0 := fresh_wwav rate bits channels (at_end (hdr0 rate bits channels)).
Let code := wwav_code ops w0.
Let zero := w_offset w0.
Definition all_codes := flat_map (wop_codes code channels zero) os.
Definition all_samples := codes_bytes (bits / 8) all_codes.

Lemma Hbits : bits = 8 \/ bits = 16 \/ bits = 32. Proof. apply HP. Qed.
Lemma Hb8 : 1 <= bits / 8. Proof. destruct Hbits as [-> | [-> | ->]]; vm_compute; discriminate. Qed.
Lemma Hchan : 1 <= channels. Proof. apply HP. Qed.

Lemma all_samples_len : zlen all_samples = total_frames os * channels * (bits / 8).
Proof.
  pose proof Hb8. pose proof Hchan. unfold all_samples, all_codes. rewrite zlen_codes_bytes by lia. rewrite zlen_all_codes by (auto; lia). lia.
Qed.

Lemma total_nonneg : 0 <= total_frames os.
Proof.
  unfold total_frames. induction HO as [|o l Ho Hl IH]; cbn [map fold_right]; [lia|]. specialize (IH Hl).
  assert (0 <= wop_frames o); [|lia]. destruct o; cbn in *; [destruct Ho|]; lia.
Qed.

(** every state of the writer before destruction *)
Lemma written : exists w, wwav_open rate bits channels = Ok w0 /\ wsteps ops w0 os = Ok w /\
  w = fresh_wwav rate bits channels (at_end (hdr0 rate bits channels ++ all_samples)).
Proof.
  pose proof Hchan. eexists. split; [now apply wwav_open_ok|].
  rewrite wsteps_ok by auto. split; [reflexivity|]. unfold set_os, fresh_wwav, w0. cbn [w_os fresh_wwav w_bytes w_channels w_rate w_offset w_factor w_min w_max].
  rewrite at_end_write. reflexivity.
Qed.

Hypothesis HS : overhead bits + total_frames os * channels * (bits / 8) <= INT_MAX.

Lemma closed : exists w p, wwav_open rate bits channels = Ok w0 /\ wsteps ops w0 os = Ok w /\
  wwav_close w = Ok {| opos := p; oputs := seqput 0 (hdr0 rate bits channels ++ all_samples) ++ patches bits (total_frames os) (zlen all_samples) |}.
Proof.
  destruct written as (w & H1 & H2 & ->). pose proof all_samples_len as L. pose proof total_nonneg.
  destruct (wwav_close_ok rate bits channels all_samples (total_frames os)) as (p & Hp); auto; try lia.
  eexists; exists p. eauto.
Qed.

(** crash points *)
Lemma crash k puts : (k <= length puts)%nat ->
  puts = seqput 0 (hdr0 rate bits channels ++ all_samples) ++ patches bits (total_frames os) (zlen all_samples) ->
  overhead bits <= Z.of_nat k ->
  exists hdr smp fr, file_of (firstn k puts) = hdr ++ smp /\ zlen hdr = overhead bits /\
     smp = firstn (k - Z.to_nat (overhead bits)) all_samples /\
     (fr = -1 \/ fr = total_frames os /\ smp = all_samples) /\
     rwav_open (iopen (file_of (firstn k puts))) = Ok (mk_rwav (strm hdr smp) rate bits channels fr).
Proof.
  intros Hk -> Ho. pose proof all_samples_len as L. pose proof total_nonneg as TN. pose proof Hb8 as B8. pose proof Hchan as HC.
  assert (H0 : zlen (hdr0 rate bits channels) = overhead bits) by (unfold hdr0; apply zlen_riff; apply le_length).
  rewrite firstn_app, seqput_length.
  destruct (Nat.le_gt_cases k (length (hdr0 rate bits channels ++ all_samples))) as [Hc|Hc].
  - replace (k - length (hdr0 rate bits channels ++ all_samples))%nat with 0%nat by lia. cbn [firstn]. rewrite app_nil_r.
    rewrite seqput_firstn, file_of_seqput.
    assert (E : firstn k (hdr0 rate bits channels ++ all_samples) = hdr0 rate bits channels ++ firstn (k - Z.to_nat (overhead bits)) all_samples).
    { rewrite firstn_app. f_equal.
      - apply firstn_all2. unfold zlen in H0. lia.
      - f_equal. unfold zlen in H0. lia. }
    rewrite E. exists (hdr0 rate bits channels). eexists. exists (-1). splits; auto.
    unfold hdr0. rewrite open_riff; auto.
    + unfold fields_ok. splits; try apply le_length; apply le_bytes.
    + intros Hx. exfalso. rewrite sval_le4 in Hx by (unfold INT_MIN, INT_MAX; lia). lia.
  - rewrite firstn_all2 by (rewrite seqput_length; lia).
    rewrite crash_file_ok.
    destruct (crash_file_read rate bits channels (total_frames os) all_samples (k - length (hdr0 rate bits channels ++ all_samples)))
      as (hdr & LH & E & R); auto; try lia.
    rewrite R. rewrite E. exists hdr, all_samples. eexists. splits; [reflexivity|auto| | |reflexivity].
    + rewrite firstn_all2; auto. rewrite app_length in Hc. unfold zlen in *. lia.
    + destruct (_ || _); auto.
Qed.

Definition final_file := wav_file rate bits channels (total_frames os) all_samples.

Lemma final_file_ok : file_of (seqput 0 (hdr0 rate bits channels ++ all_samples) ++ patches bits (total_frames os) (zlen all_samples)) = final_file.
Proof.
  rewrite <- (firstn_all (patches bits (total_frames os) (zlen all_samples))). rewrite crash_file_ok.
  unfold crash_file, final_file, wav_file, patches.
  rewrite !app_length, !seqput_length, !le_length.
  destruct (bits =? 32) eqn:E; rewrite ?seqput_length, ?le_length; cbn [length]; rewrite !mix_full; auto; rewrite ?le_length; auto; try lia.
Qed.

Lemma final_read : exists hdr, zlen hdr = overhead bits /\ final_file = hdr ++ all_samples /\
  rwav_open (iopen final_file) = Ok (mk_rwav (strm hdr all_samples) rate bits channels (if total_frames os =? 0 then -1 else total_frames os)).
Proof.
  pose proof all_samples_len as L. pose proof total_nonneg as TN.
  rewrite <- final_file_ok. rewrite <- (firstn_all (patches bits (total_frames os) (zlen all_samples))). rewrite crash_file_ok.
  destruct (crash_file_read rate bits channels (total_frames os) all_samples (length (patches bits (total_frames os) (zlen all_samples))))
      as (hdr & LH & E & R); auto; try lia.
  exists hdr. rewrite R, E. splits; auto. do 2 f_equal.
  replace (Nat.ltb _ _) with false; auto. unfold patches. rewrite !app_length, !seqput_length, !le_length.
  destruct (bits =? 32); rewrite ?seqput_length, ?le_length; reflexivity.
Qed.

(** write, close, open, read everything *)
Lemma roundtrip (buf : list T) fr : Forall (code_range bits) all_codes ->
  zlen buf = total_frames os * channels ->
  forall hdr, zlen hdr = overhead bits -> Forall is_byte hdr ->
  exists s', rwav_read ops (mk_rwav (strm hdr all_samples) rate bits channels fr) buf (total_frames os) (-1)
    = Ok (map (decode ops bits) all_codes, mk_rwav s' rate bits channels fr) /\ igood s' = true.
Proof.
  intros HR Hbuf hdr LH HB. pose proof all_samples_len as L. pose proof total_nonneg as TN. pose proof Hchan as HC. pose proof Hb8 as B8.
  set (file := hdr ++ all_samples).
  assert (HF : Forall is_byte file) by (apply Forall_app; split; auto; apply le_le_bytes).
  assert (Hov : 44 <= overhead bits <= 58) by (unfold overhead; destruct (bits =? 32); lia).
  destruct (read_ok ops file rate bits channels fr HP HF (bits / 8) eq_refl (strm hdr all_samples) buf (total_frames os) (-1))
    as (buf' & s' & E & P & C).
  { unfold buf_ok, eff_stride. cbn. splits; try lia; try nia. }
  { split; auto. left. exists (zlen hdr). split; [lia|reflexivity]. }
  assert (EL : zlen all_codes = total_frames os * channels).
  { unfold all_samples in L. rewrite zlen_codes_bytes in L by lia. nia. }
  exists s'. split.
  - rewrite E. do 2 f_equal. destruct C as (LC & U & V). unfold eff_stride in *. cbn in U, V.
    apply list_eq_znth.
    + rewrite zlen_map. lia.
    + intros i Hi.
      assert (Hm : i = i / channels * channels + i mod channels) by (pose proof (Z.div_mod i channels ltac:(lia)); lia).
      pose proof (Z.mod_pos_bound i channels ltac:(lia)). assert (0 <= i / channels) by (apply Z.div_pos; lia).
      destruct (znth_in_range all_codes i) as (v & Hv); [lia|].
      assert (Hmap : znth (map (decode ops bits) all_codes) i = Some (decode ops bits v)).
      { rewrite znth_nonneg in Hv by lia. rewrite znth_nonneg by lia. rewrite nth_error_map, Hv. reflexivity. }
      rewrite Hmap. rewrite Hm at 1. rewrite (Z.mul_comm (i / channels)).
      rewrite (V ltac:(lia) (zlen hdr) ltac:(lia) eq_refl (i / channels) (i mod channels)); try lia.
      * rewrite <- Hm. f_equal. f_equal. apply code_at_file; auto using Hbits.
        rewrite Forall_forall in HR. apply HR. apply nth_error_In with (Z.to_nat i). rewrite <- znth_nonneg by lia. auto.
      * rewrite <- Hm. unfold file. rewrite zlen_app. nia.
  - destruct P as (_ & _ & G). specialize (G (zlen hdr) ltac:(lia) eq_refl).
    replace (zlen hdr + total_frames os * channels * (bits / 8) <=? zlen file) with true in G.
    + rewrite orb_true_r in G. rewrite G. reflexivity.
    + symmetry. apply Z.leb_le. unfold file. rewrite zlen_app. lia.
Qed.
End File.

Lemma wwav_code_encode {T} (ops : sample_ops T) rate bits channels s x : wav_params rate bits channels ->
  wwav_code ops (fresh_wwav rate bits channels s) x = encode ops bits x.
Proof.
  intros (Hb & _). unfold wwav_code, fresh_wwav, encode, std_min, std_max. cbn [w_bytes w_offset w_factor w_min w_max].
  destruct Hb as [-> | [-> | ->]]; reflexivity.
Qed.
Lemma w_offset_silence rate bits channels s : wav_params rate bits channels ->
  w_offset (fresh_wwav rate bits channels s) = silence_code bits.
Proof. intros (Hb & _). unfold fresh_wwav, silence_code. cbn [w_offset]. destruct Hb as [-> | [-> | ->]]; reflexivity. Qed.

Lemma all_codes_spec {T} (ops : sample_ops T) rate bits channels os : wav_params rate bits channels ->
  all_codes ops rate bits channels os = flat_map (wop_codes (encode ops bits) channels (silence_code bits)) os.
Proof.
  intros HP. unfold all_codes. rewrite w_offset_silence by auto. apply flat_map_ext. intros [buf num st|num]; cbn [wop_codes]; auto.
  apply map_ext. intros x. now apply wwav_code_encode.
Qed.

(** ** Headers *)
Lemma iread_wfs file n : forall s, wfs file s -> wfs file (snd (iread n s)).
Proof.
  induction n as [|n IH]; intros s H; cbn [iread]; auto.
  destruct (iget s) as [c s1] eqn:E1. destruct (iread n s1) as [cs s2] eqn:E2. cbn [snd].
  specialize (IH s1). rewrite E2 in IH. apply IH. destruct H as (Hb & [(p & Hp & ->)|Hf]).
  - rewrite iget_at in E1 by auto. destruct (znth file p); injection E1 as <- <-; split; auto. left. exists (p + 1). split; auto. lia.
  - pose proof (iget_fail s Hf) as [H1 H2]. rewrite E1 in H1, H2. cbn [snd] in *. split; [congruence|auto].
Qed.
Lemma readLE2_le s : fst (readLE 2 s) <= 32767.
Proof.
  unfold readLE. destruct (readLE_loop _ _ _ _) as [v s']. cbn [fst]. change (2 =? 2) with true. change (2 =? 3) with false. cbn [andb].
  destruct (Z.ltb_spec 32767 v); [|lia].
  assert (Z.lor v (Z.lnot 32767) < 0); [|lia]. apply Z.lor_neg. right. reflexivity.
Qed.
Lemma ichk_inv z v : ichk z = Ok v -> v = z /\ INT_MIN <= z <= INT_MAX.
Proof. unfold ichk, int_ok. destruct ((INT_MIN <=? z) && (z <=? INT_MAX)) eqn:E; [|discriminate]. intros X; injection X as <-. apply andb_prop in E. rewrite !Z.leb_le in E. auto. Qed.

Lemma ext_branch file sz s early s' fr : Forall is_byte file -> wfs file s ->
  (if sz =? 18 then
       let '(ExtSize, s) := readLE 2 s in
       if negb (ExtSize =? 0) then Ok (true, s, None) else
       let '(SubchunkID, s) := iread 4 s in
       ne <- cmp4 (chars "fact") SubchunkID ;;
       if ne : bool then Ok (true, s, None) else
       let '(SubchunkSize, s) := readLE 4 s in
       if negb (SubchunkSize =? 4) then Ok (true, s, None) else
       let '(fr, s) := readLE 4 s in
       Ok (false, s, Some fr)
     else Ok (false, s, @None Z)) = Ok (early, s', fr) ->
  wfs file s' /\ (early = false -> sz = 18 -> exists f, fr = Some f).
Proof.
  intros HF W. destruct (Z.eqb_spec sz 18) as [->|].
  2:{ intros X; injection X as <- <- <-. split; auto. intros; contradiction. }
  pose proof (proj1 (readLE_step file 2 s ltac:(lia) HF W)) as W1. destruct (readLE 2 s) as [v1 s1]. cbn [snd] in W1.
  destruct (negb (v1 =? 0)); [intros X; injection X as <- <- <-; split; [auto|discriminate]|].
  pose proof (iread_wfs file 4 s1 W1) as W2. destruct (iread 4 s1) as [v2 s2]. cbn [snd] in W2.
  destruct (cmp4 (chars "fact") v2) as [[]| | |]; cbn [bind]; try discriminate; [intros X; injection X as <- <- <-; split; [auto|discriminate]|].
  pose proof (proj1 (readLE_step file 4 s2 ltac:(lia) HF W2)) as W3. destruct (readLE 4 s2) as [v3 s3]. cbn [snd] in W3.
  destruct (negb (v3 =? 4)); [intros X; injection X as <- <- <-; split; [auto|discriminate]|].
  pose proof (proj1 (readLE_step file 4 s3 ltac:(lia) HF W3)) as W4. destruct (readLE 4 s3) as [v4 s4]. cbn [snd] in W4.
  intros X; injection X as <- <- <-; split; eauto.
Qed.

Lemma accepted_usable file s r f : Forall is_byte file -> wfs file s -> rwav_open s = Ok r -> r_factor r = Some f ->
  exists rate bits channels frames, r = mk_rwav (r_is r) rate bits channels frames /\ wfs file (r_is r) /\
   (bits = 8 \/ bits = 16 \/ bits = 32) /\ (1 <= channels -> wav_params rate bits channels).
Proof.
  intros HF W H Hf. unfold rwav_open in H. cbn zeta in H.
  Ltac stp file W H HF Hf := match type of H with
  | (let '(_, _) := iread ?n ?t in _) = _ => let E := fresh in pose proof (iread_wfs file n t W) as E; clear W; rename E into W;
      destruct (iread n t); cbn [snd] in W
  | (let '(_, _) := readLE ?n ?t in _) = _ => let E := fresh in
      pose proof (proj1 (readLE_step file n t ltac:(lia) HF W)) as E; clear W; rename E into W;
      destruct (readLE n t) eqn:?; cbn [fst snd] in W
  | bind (cmp4 ?a ?b) _ = _ => destruct (cmp4 a b) as [[] | | | ]; cbn [bind] in H; try discriminate H
  | (if ?b then _ else _) = _ => destruct b eqn:?; try (injection H as <-; discriminate Hf)
  | Ok _ = Ok _ => injection H as <-; discriminate Hf
  end.
  stp file W H HF Hf. stp file W H HF Hf. { stp file W H HF Hf. }
  cbn beta iota in H. stp file W H HF Hf. stp file W H HF Hf. stp file W H HF Hf. { stp file W H HF Hf. }
  stp file W H HF Hf. stp file W H HF Hf. { stp file W H HF Hf. }
  destruct (readLE 4 i2) as [sz s3] eqn:Esz. pose proof (proj1 (readLE_step file 4 i2 ltac:(lia) HF W)) as W3. rewrite Esz in W3. cbn [snd] in W3.
  destruct (negb (sz =? 16) && negb (sz =? 18)) eqn:Hsz; [stp file W H HF Hf|].
  destruct (readLE 2 s3) as [af s4] eqn:E4. pose proof (proj1 (readLE_step file 2 s3 ltac:(lia) HF W3)) as W4. rewrite E4 in W4. cbn [snd] in W4.
  destruct (negb (af =? 1) && negb (af =? 3)); [stp file W H HF Hf|].
  destruct (readLE 2 s4) as [ch s5] eqn:E5. pose proof (proj1 (readLE_step file 2 s4 ltac:(lia) HF W4)) as W5. rewrite E5 in W5. cbn [snd] in W5.
  destruct (readLE 4 s5) as [rate s6] eqn:E6. pose proof (proj1 (readLE_step file 4 s5 ltac:(lia) HF W5)) as W6. rewrite E6 in W6. cbn [snd] in W6.
  destruct (readLE 4 s6) as [br s7] eqn:E7. pose proof (proj1 (readLE_step file 4 s6 ltac:(lia) HF W6)) as W7. rewrite E7 in W7. cbn [snd] in W7.
  destruct (readLE 2 s7) as [ba s8] eqn:E8. pose proof (proj1 (readLE_step file 2 s7 ltac:(lia) HF W7)) as W8. rewrite E8 in W8. cbn [snd] in W8.
  destruct (readLE 2 s8) as [bits s9] eqn:E9. pose proof (proj1 (readLE_step file 2 s8 ltac:(lia) HF W8)) as W9. rewrite E9 in W9. cbn [snd] in W9.
  destruct (negb (bits =? 8) && negb (bits =? 16) && negb (bits =? 32)) eqn:EB; [stp file W H HF Hf|].
  match type of H with (if ?b then _ else _) = _ => destruct b; [stp file W H HF Hf|] end.
  match type of H with (if ?b then _ else _) = _ => destruct b; [stp file W H HF Hf|] end.
  assert (Hb : bits = 8 \/ bits = 16 \/ bits = 32).
  { revert EB. rewrite !Bool.andb_false_iff, !Bool.negb_false_iff, !Z.eqb_eq. tauto. }
  assert (Hq : bits ÷ 8 = bits / 8 /\ 1 <= bits / 8 <= 4) by (destruct Hb as [-> | [-> | ->]]; splits; try reflexivity; vm_compute; discriminate).
  destruct Hq as [Eq Hq]. rewrite Eq in H.
  destruct (ichk (bits / 8 * ch)) as [v1| | |] eqn:I1; cbn [bind] in H; try discriminate H. apply ichk_inv in I1. destruct I1 as [-> I1].
  destruct (Z.eqb_spec (bits / 8 * ch) ba) as [Eba|]; cbn [negb] in H; [|stp file W H HF Hf].
  destruct (ichk (rate * (bits / 8))) as [v2| | |] eqn:I2; cbn [bind] in H; try discriminate H. apply ichk_inv in I2. destruct I2 as [-> I2].
  destruct (ichk (rate * (bits / 8) * ch)) as [v3| | |] eqn:I3; cbn [bind] in H; try discriminate H. apply ichk_inv in I3. destruct I3 as [-> I3].
  match type of H with (if ?b then _ else _) = _ => destruct b; [stp file W H HF Hf|] end.
  match type of H with bind ?x _ = _ => destruct x as [[[early s10] fr]| | |] eqn:EX end; cbn [bind] in H; try discriminate H.
  destruct (ext_branch file sz s9 early s10 fr HF W9 EX) as [W10 HX]. clear EX.
  destruct early; [stp file W H HF Hf|].
  destruct (iread 4 s10) as [l10 s11] eqn:E11. pose proof (iread_wfs file 4 s10 W10) as W11. rewrite E11 in W11. cbn [snd] in W11.
  destruct (cmp4 (chars "data") l10) as [[] | | | ]; cbn [bind] in H; try discriminate H; [stp file W H HF Hf|].
  destruct (readLE 4 s11) as [ds s12] eqn:E12. pose proof (proj1 (readLE_step file 4 s11 ltac:(lia) HF W11)) as W12. rewrite E12 in W12. cbn [snd] in W12.
  match type of H with bind ?x _ = _ => destruct x as [[early fr']| | |] eqn:EX end; cbn [bind] in H; try discriminate H.
  destruct early; [stp file W H HF Hf|].
  assert (Ho : exists g, fr' = Some g).
  { revert EX. match goal with |- (if ?a || ?b then _ else _) = _ -> _ => destruct (a || b) end; [intros X; injection X as <-; eauto|].
    do 2 match goal with |- bind ?x _ = _ -> _ => destruct x; cbn [bind]; try discriminate end.
    match goal with |- (if ?x then _ else _) = _ -> _ => destruct x end; [discriminate|].
    destruct (Z.eqb_spec sz 16); cbn [bind].
    - match goal with |- context [?z =? 0] => destruct (z =? 0) end; [discriminate|]. intros X; injection X as <-. eauto.
    - intros X; injection X as <-. apply HX; auto. revert Hsz. rewrite !Bool.andb_false_iff, !Bool.negb_false_iff, !Z.eqb_eq. lia. }
  destruct Ho as (g & ->).
  destruct (if bits =? 8 then (128, 127) else if bits =? 16 then (0, 32767) else (0, 1)) as [off fac] eqn:EO.
  injection H as <-. cbn [r_is]. exists rate, bits, ch, g. splits; auto.
  - unfold mk_rwav. f_equal; f_equal; destruct Hb as [-> | [-> | ->]]; cbn in EO |- *; congruence.
  - intros Hch. unfold wav_params. splits; auto.
    + pose proof (readLE2_le s7) as R. rewrite E8 in R. cbn [fst] in R. lia.
    + pose proof (readLE_range 4 s5) as R. rewrite E6 in R. cbn [fst] in R. unfold INT_MIN, INT_MAX. change (2 ^ 31) with 2147483648 in R. lia.
    + pose proof (readLE_range 4 s5) as R. rewrite E6 in R. cbn [fst] in R. unfold INT_MIN, INT_MAX. change (2 ^ 31) with 2147483648 in R. lia.
    + replace (rate * ch * (bits / 8)) with (rate * (bits / 8) * ch) by ring. lia.
    + replace (rate * ch * (bits / 8)) with (rate * (bits / 8) * ch) by ring. lia.
Qed.

Lemma iread4_at file p : 0 <= p -> p + 4 <= zlen file -> exists a b c d,
  iread 4 (atp file p) = ([Some a; Some b; Some c; Some d], atp file (p + 4)).
Proof.
  intros Hp Hl. cbn [iread].
  destruct (znth_in_range file p) as (a & Ea); [lia|]. destruct (znth_in_range file (p + 1)) as (b & Eb); [lia|].
  destruct (znth_in_range file (p + 1 + 1)) as (c & Ec); [lia|]. destruct (znth_in_range file (p + 1 + 1 + 1)) as (d & Ed); [lia|].
  exists a, b, c, d.
  rewrite iget_at, Ea by lia. rewrite iget_at, Eb by lia. rewrite iget_at, Ec by lia. rewrite iget_at, Ed by lia.
  cbn. do 2 f_equal. lia.
Qed.
Lemma cmp4_some x y z w a b c d : exists r, cmp4 [x; y; z; w] [Some a; Some b; Some c; Some d] = Ok r.
Proof. cbn. repeat match goal with |- context [if ?b then _ else _] => destruct b; eauto end. Qed.

Lemma code_at_field file len p : len = 2 \/ len = 4 -> 0 <= p -> p + len <= zlen file -> code_at file len p 0 = field file p len.
Proof.
  intros Hl Hp Hr. unfold code_at, field. rewrite Z.mul_0_l, Z.add_0_r. apply sample_val_sval. unfold zlen in *.
  rewrite firstn_length, skipn_length. lia.
Qed.
Lemma field2_range file p : Forall is_byte file -> 0 <= p -> p + 2 <= zlen file -> -32768 <= field file p 2 <= 32767.
Proof.
  intros HF Hp Hl. unfold field.
  assert (HF' : Forall is_byte (skipn (Z.to_nat p) file)).
  { rewrite <- (firstn_skipn (Z.to_nat p) file) in HF. now apply Forall_app in HF. }
  assert (L : Z.of_nat (length (skipn (Z.to_nat p) file)) >= 2). { rewrite skipn_length. unfold zlen in Hl. lia. }
  destruct (skipn (Z.to_nat p) file) as [|a [|b l]]; try (cbn in L; lia).
  inversion_clear HF' as [|? ? B1 B]. inversion_clear B as [|? ? B2 _]. unfold is_byte in *.
  change (firstn (Z.to_nat 2) (a :: b :: l)) with [a; b]. unfold sval. cbn [uval]. change (256 ^ zlen [a; b]) with 65536.
  destruct (Z.ltb_spec (2 * (a + 256 * (b + 256 * 0))) 65536); lia.
Qed.

(** the constructor is well defined on every file that is long enough and whose fields stay away from the
    edges of the int range *)
Lemma open_defined file : Forall is_byte file -> 58 <= zlen file -> field file 22 2 <> 0 ->
  Z.abs (field file 24 4) * 4 * Z.abs (field file 22 2) <= INT_MAX ->
  field file 40 4 <= INT_MAX - 58 -> field file 54 4 <= INT_MAX - 58 ->
  exists r, rwav_open (iopen file) = Ok r.
Proof.
  intros HF HL Hch Hrate Hd40 Hd54. unfold rwav_open. cbn zeta. change (iopen file) with (atp file 0).
  pose proof (field2_range file 22 HF ltac:(lia) ltac:(lia)) as Hch2.
  Ltac dif E := match goal with |- exists r, (if ?b then _ else _) = _ => destruct b eqn:E; [eauto|] end.
  Ltac rd4 file p := let a := fresh "a" in let b := fresh "b" in let c := fresh "c" in let d := fresh "d" in let E := fresh "E" in
    destruct (iread4_at file p ltac:(lia) ltac:(lia)) as (a & b & c & d & E); rewrite E; clear E; cbn iota beta;
    let x := constr:(p + 4) in let y := eval compute in x in change x with y;
    let r := fresh "r" in let E := fresh "E" in
    match goal with |- context [cmp4 ?l [Some a; Some b; Some c; Some d]] =>
      let l' := eval compute in l in change l with l';
      match l' with [?x; ?y; ?z; ?w] => destruct (cmp4_some x y z w a b c d) as (r & E) end; rewrite E; clear E end;
    cbn [bind]; destruct r; [eauto|].
  Ltac rdn file n p := rewrite (readLE_at file n p) by (auto; lia); rewrite (code_at_field file n p) by (auto; lia); cbn iota beta;
    let x := constr:(p + n) in let y := eval compute in x in change x with y.
  rd4 file 0. rdn file 4 4. rd4 file 8. rd4 file 12. rdn file 4 16.
  dif ESZ.
  rdn file 2 20. dif EAF.
  rdn file 2 22. rdn file 4 24. rdn file 4 28. rdn file 2 32. rdn file 2 34.
  dif EB. dif X1. dif X2.
  set (bits := field file 34 2) in *. set (ch := field file 22 2) in *. set (rate := field file 24 4) in *.
  assert (Hb : bits = 8 \/ bits = 16 \/ bits = 32).
  { revert EB. rewrite !Bool.andb_false_iff, !Bool.negb_false_iff, !Z.eqb_eq. tauto. }
  assert (Hq : 1 <= bits ÷ 8 <= 4) by (destruct Hb as [-> | [-> | ->]]; split; vm_compute; discriminate).
  set (by_ := bits ÷ 8) in *.
  rewrite ichk_ok by (unfold INT_MIN, INT_MAX; nia). cbn [bind]. let E := fresh in dif E.
  assert (H1 : Z.abs (rate * by_) <= Z.abs rate * 4) by (rewrite Z.abs_mul; nia).
  assert (H2 : Z.abs (rate * by_ * ch) <= Z.abs rate * 4 * Z.abs ch) by (rewrite Z.abs_mul; nia).
  assert (H3 : Z.abs (rate * by_) <= INT_MAX) by nia.
  rewrite ichk_ok by (unfold INT_MIN, INT_MAX in *; lia). cbn [bind].
  rewrite ichk_ok by (unfold INT_MIN, INT_MAX in *; lia). cbn [bind]. let E := fresh in dif E.
  assert (TAIL : forall dd fr, field file dd 4 <= INT_MAX - 58 -> 0 <= dd -> dd + 4 <= zlen file ->
    exists r, ('(early, frames) <- (if (field file dd 4 <=? 0) || (field file 4 4 <=? 0) then Ok (false, Some (-1))
     else so <- ichk (field file dd 4 + (if bits =? 32 then 58 else 44)) ;; so <- ichk (so - 8) ;;
       if negb (so =? field file 4 4) then Ok (true, fr)
       else if field file 16 4 =? 16 then
         if by_ * ch =? 0 then Undefined else Ok (false, Some (Z.quot (field file dd 4) (by_ * ch)))
       else Ok (false, fr)) ;;
    if early : bool then Ok {| r_is := atp file (dd + 4); r_bits := Some bits; r_bytes := Some by_; r_rate := Some rate; r_channels := Some ch; r_frames := frames; r_offset := None; r_factor := None |} else
    let '(offset, factor) := if bits =? 8 then (128, 127) else if bits =? 16 then (0, 32767) else (0, 1) in
    Ok {| r_is := atp file (dd + 4); r_bits := Some bits; r_bytes := Some by_; r_rate := Some rate; r_channels := Some ch; r_frames := frames; r_offset := Some offset; r_factor := Some factor |}) = Ok r).
  { intros dd fr Hd Hd0 Hdl. destruct (Z.leb_spec (field file dd 4) 0); cbn [orb].
    { cbn [bind]. destruct (if bits =? 8 then (128, 127) else if bits =? 16 then (0, 32767) else (0, 1)). eauto. }
    match goal with |- context [field file 4 4 <=? 0] => destruct (field file 4 4 <=? 0) end; [cbn [bind]; destruct (if bits =? 8 then (128, 127) else if bits =? 16 then (0, 32767) else (0, 1)); eauto|].
    rewrite ichk_ok by (unfold INT_MIN, INT_MAX in *; destruct (bits =? 32); lia). cbn [bind].
    rewrite ichk_ok by (unfold INT_MIN, INT_MAX in *; destruct (bits =? 32); lia). cbn [bind].
    match goal with |- context [negb ?x] => destruct (negb x) end; [cbn [bind]; eauto|].
    destruct (field file 16 4 =? 16).
    - destruct (Z.eqb_spec (by_ * ch) 0); [nia|]. cbn [bind].
      destruct (if bits =? 8 then (128, 127) else if bits =? 16 then (0, 32767) else (0, 1)). eauto.
    - cbn [bind]. destruct (if bits =? 8 then (128, 127) else if bits =? 16 then (0, 32767) else (0, 1)). eauto. }
  destruct (field file 16 4 =? 18) eqn:E18.
  - rdn file 2 36. match goal with |- context [negb ?x] => destruct (negb x) end; [cbn [bind]; eauto|].
    destruct (iread4_at file 38 ltac:(lia) ltac:(lia)) as (a' & b' & c' & d' & E); rewrite E; clear E.
    change (38 + 4) with 42. change (chars "fact") with [102; 97; 99; 116].
    destruct (cmp4_some 102 97 99 116 a' b' c' d') as ([] & E); rewrite E; clear E; cbn [bind]; [eauto|].
    rdn file 4 42. match goal with |- context [negb ?x] => destruct (negb x) end; [cbn [bind]; eauto|]. rdn file 4 46. cbn [bind].
    rd4 file 50. rdn file 4 54. apply (TAIL 54 (Some (field file 46 4))); auto; lia.
  - cbn [bind]. rd4 file 36. rdn file 4 40. apply (TAIL 40 None); auto; lia.
Qed.

(** ** Real valued samples *)
Open Scope R_scope.
(** TYPE = real numbers with a rounding function [rnd] applied after every operation *)
Definition Rops (rnd : R -> R) (ob : Z -> R) (tb : R -> Z) : sample_ops R := {|
  ofZ := fun z => rnd (IZR z);
  tadd := fun x y => rnd (x + y); tmul := fun x y => rnd (x * y); tdiv := fun x y => rnd (x / y);
  tltb := Rlt_bool; trint := ZnearestE; of_bits := ob; to_bits := tb |}.

(** relative error at most 2^-20 plus a tiny absolute error: true for exact arithmetic and for IEEE single
    and double precision in every rounding mode *)
Definition small_error (rnd : R -> R) : Prop := forall x, Rabs (rnd x - x) <= Rabs x / 1048576 + / 1048576.

Lemma Znearest_close x n : Rabs (x - IZR n) < / 2 -> ZnearestE x = n.
Proof. intros H. apply Znearest_imp. auto. Qed.

Lemma ZnearestE_IZR n : ZnearestE (IZR n) = n.
Proof. apply (@Zrnd_IZR ZnearestE (valid_rnd_N _)). Qed.
Lemma ZnearestE_le x y : x <= y -> (ZnearestE x <= ZnearestE y)%Z.
Proof. apply (@Zrnd_le ZnearestE (valid_rnd_N _)). Qed.

Lemma rnd_bound rnd x b : small_error rnd -> Rabs x <= b -> x - (b / 1048576 + / 1048576) <= rnd x <= x + (b / 1048576 + / 1048576).
Proof. intros H Hb. specialize (H x). apply Rabs_le_inv in H. lra. Qed.

Lemma div_near d f e : 0 < f -> Rabs e <= d * f -> Rabs (e / f) <= d.
Proof.
  intros Hf He. unfold Rdiv. rewrite Rabs_mult, (Rabs_inv f), (Rabs_pos_eq f) by lra.
  apply Rmult_le_reg_r with f; auto. rewrite Rmult_assoc, Rinv_l by lra. lra.
Qed.

(** one decoding and encoding with factor [f] and offset [o] stays within 1/2 of the code *)
Lemma near_code rnd f o c : small_error rnd -> (f = 127 /\ o = 128 /\ 0 <= c <= 255 \/ f = 32767 /\ o = 0 /\ -32768 <= c <= 32767) ->
  Rabs (rnd (rnd o + rnd (rnd f * rnd (rnd (c - o) / rnd f))) - c) < 7 / 16.
Proof.
  intros HE Hcase.
  assert (B : 0 < f /\ Rabs (c - o) <= 32768 /\ 0 <= o <= 128 /\ 127 <= f <= 32767 /\ Rabs (c - o) <= f + 1 /\ Rabs c <= 32768).
  { destruct Hcase as [(-> & -> & H)|(-> & -> & H)]; splits; try lra; apply Rabs_le; lra. }
  destruct B as (Hf & Hd & Ho & Hf' & Hdf & Hc').
  pose proof (rnd_bound rnd (c - o) 32768 HE Hd) as B1. set (d := rnd (c - o)) in *.
  assert (Bf : f * (1 - / 1048576) - / 1048576 <= rnd f <= f * (1 + / 1048576) + / 1048576).
  { pose proof (rnd_bound rnd f f HE ltac:(rewrite Rabs_pos_eq; lra)). lra. }
  set (F := rnd f) in *.
  assert (HF : 0 < F) by lra.
  assert (HQ : Rabs (d / F) <= 2).
  { apply div_near; auto. apply Rabs_le_inv in Hdf. apply Rabs_le. lra. }
  pose proof (rnd_bound rnd (d / F) 2 HE HQ) as B2. set (q := rnd (d / F)) in *.
  assert (B3 : Rabs (F * q - d) <= F * (3 / 1048576)).
  { replace (F * q - d) with (F * (q - d / F)) by (field; lra). rewrite Rabs_mult, (Rabs_pos_eq F) by lra.
    apply Rmult_le_compat_l; [lra|]. apply Rabs_le. lra. }
  apply Rabs_le_inv in B3. apply Rabs_le_inv in Hd.
  assert (HFq : Rabs (F * q) <= 33000) by (apply Rabs_le; lra).
  pose proof (rnd_bound rnd (F * q) 33000 HE HFq) as B4. set (m := rnd (F * q)) in *.
  pose proof (rnd_bound rnd o 128 HE ltac:(rewrite Rabs_pos_eq; lra)) as B5.
  assert (Hs : Rabs (rnd o + m) <= 34000) by (apply Rabs_le; lra).
  pose proof (rnd_bound rnd (rnd o + m) 34000 HE Hs) as B6.
  apply Rabs_lt. lra.
Qed.

Ltac rltb := repeat match goal with
  | |- context [Rlt_bool ?a ?b] =>
    lazymatch a with context [Rlt_bool] => fail | _ => idtac end;
    lazymatch b with context [Rlt_bool] => fail | _ => idtac end;
    destruct (Rlt_bool_spec a b) end.

Lemma clamp_near rnd v lo hi c : small_error rnd -> Rabs (v - c) < 7 / 16 -> lo <= c <= hi -> Rabs lo <= 32768 -> Rabs hi <= 32768 ->
  forall ob tb, Rabs (std_min (Rops rnd ob tb) (std_max (Rops rnd ob tb) v (rnd lo)) (rnd hi) - c) < / 2.
Proof.
  intros HE Hv Hc Hlo Hhi ob tb. unfold std_min, std_max. cbn [Rops tltb].
  pose proof (rnd_bound rnd lo 32768 HE Hlo). pose proof (rnd_bound rnd hi 32768 HE Hhi).
  apply Rabs_def2 in Hv. apply Rabs_def1.
  - rltb; lra.
  - rltb; lra.
Qed.

Section Inst.
Context (rnd : R -> R) (ob : Z -> R) (tb : R -> Z) (HE : small_error rnd).
Let ops := Rops rnd ob tb.

Lemma code_of_decoded rate bits channels s c : (bits = 8 \/ bits = 16)%Z -> code_range bits c ->
  wwav_code ops (fresh_wwav rate bits channels s) (decode ops bits c) = c.
Proof.
  intros Hb Hr. unfold wwav_code, fresh_wwav, decode. cbn [w_bytes w_offset w_factor w_min w_max].
  destruct Hb as [-> | ->]; cbn in Hr |- *.
  - apply Znearest_close. rewrite minus_IZR. apply clamp_near; auto.
    + apply near_code; auto. left. splits; auto; apply IZR_le; lia.
    + split; apply IZR_le; lia.
    + rewrite Rabs_R0. lra.
    + rewrite Rabs_pos_eq; lra.
  - apply Znearest_close. apply clamp_near; auto.
    + replace (IZR c) with (IZR c - 0) at 1 by ring. apply near_code; auto. right. splits; auto; apply IZR_le; lia.
    + split; apply IZR_le; lia.
    + apply Rabs_le; lra.
    + rewrite Rabs_pos_eq; lra.
Qed.

Lemma clamp_range v lo hi : (lo <= hi)%Z -> rnd (IZR lo) = IZR lo -> rnd (IZR hi) = IZR hi ->
  (lo <= ZnearestE (std_min ops (std_max ops v (rnd (IZR lo))) (rnd (IZR hi))) <= hi)%Z.
Proof.
  intros Hlh El Eh. rewrite El, Eh.
  assert (B : IZR lo <= std_min ops (std_max ops v (IZR lo)) (IZR hi) <= IZR hi).
  { apply IZR_le in Hlh. unfold std_min, std_max, ops. cbn [Rops tltb].
    rltb; lra. }
  destruct B as [B1 B2]. split.
  - rewrite <- (ZnearestE_IZR lo) at 1. now apply ZnearestE_le.
  - rewrite <- (ZnearestE_IZR hi) at 2. now apply ZnearestE_le.
Qed.
End Inst.

Lemma id_small : small_error (fun x => x).
Proof. intros x. rewrite Rminus_diag_eq, Rabs_R0 by auto. pose proof (Rabs_pos x). lra. Qed.

(** exact arithmetic: quantisation error *)
Lemma quantise bits rate channels s ob tb x : (bits = 8 \/ bits = 16)%Z -> -1 <= x <= 1 ->
  Rabs (decode (Rops (fun x => x) ob tb) bits (wwav_code (Rops (fun x => x) ob tb) (fresh_wwav rate bits channels s) x) - x)
  <= / 2 / (if (bits =? 8)%Z then 127 else 32767).
Proof.
  intros Hb Hx. unfold wwav_code, fresh_wwav, decode, std_min, std_max. cbn [w_bytes w_offset w_factor w_min w_max Rops ofZ tadd tmul tdiv tltb trint].
  destruct Hb as [-> | ->]; cbn.
  - rewrite (Rlt_bool_false (128 + 127 * x)) by lra. rewrite Rlt_bool_false by lra.
    pose proof (Znearest_half (fun x => negb (Z.even x)) (128 + 127 * x)) as H.
    set (n := ZnearestE (128 + 127 * x)) in *. rewrite minus_IZR.
    replace ((IZR n - 128) / 127 - x) with (- (128 + 127 * x - IZR n) / 127) by field.
    unfold Rdiv at 1. rewrite Rabs_mult, Rabs_Ropp, (Rabs_pos_eq (/ 127)) by lra. lra.
  - rewrite (Rlt_bool_false (0 + 32767 * x)) by lra. rewrite Rlt_bool_false by lra.
    pose proof (Znearest_half (fun x => negb (Z.even x)) (0 + 32767 * x)) as H.
    set (n := ZnearestE (0 + 32767 * x)) in *.
    replace (IZR n / 32767 - x) with (- (0 + 32767 * x - IZR n) / 32767) by field.
    unfold Rdiv at 1. rewrite Rabs_mult, Rabs_Ropp, (Rabs_pos_eq (/ 32767)) by lra. lra.
Qed.

Lemma clamped bits rate channels s ob tb x : (bits = 8 \/ bits = 16)%Z ->
  (1 <= x -> wwav_code (Rops (fun x => x) ob tb) (fresh_wwav rate bits channels s) x = if (bits =? 8)%Z then 255%Z else 32767%Z) /\
  (x <= -128 / 127 -> wwav_code (Rops (fun x => x) ob tb) (fresh_wwav rate bits channels s) x = if (bits =? 8)%Z then 0%Z else (-32768)%Z).
Proof.
  intros Hb. unfold wwav_code, fresh_wwav, std_min, std_max. cbn [w_bytes w_offset w_factor w_min w_max Rops ofZ tadd tmul tdiv tltb trint].
  destruct Hb as [-> | ->]; cbn; split; intros Hx;
    rltb; try lra; try apply ZnearestE_IZR.
  - replace (128 + 127 * x) with 255 by lra. apply ZnearestE_IZR.
  - replace (128 + 127 * x) with 0 by lra. apply ZnearestE_IZR.
  - replace (0 + 32767 * x) with 32767 by lra. apply ZnearestE_IZR.
Qed.
Open Scope Z_scope.

(** ** Bit patterns of IEEE single precision floats *)
Definition b32_to_int (x : binary32) : Z := int32 (bits_of_b32 x).
Definition b32_of_int (z : Z) : binary32 := b32_of_bits (z mod 4294967296).

Lemma bits_of_b32_range x : 0 <= bits_of_b32 x < 4294967296.
Proof. apply (bits_of_binary_float_range 23 8); reflexivity. Qed.

Lemma int32_mod z : 0 <= z < 4294967296 -> int32 z mod 4294967296 = z.
Proof.
  intros H. unfold int32.
  replace ((z + 2147483648) mod 4294967296 - 2147483648) with (z + (- ((z + 2147483648) / 4294967296)) * 4294967296).
  - rewrite Z_mod_plus_full. apply Z.mod_small; auto.
  - pose proof (Z.div_mod (z + 2147483648) 4294967296 ltac:(lia)). lia.
Qed.

Lemma b32_roundtrip x : b32_of_int (b32_to_int x) = x.
Proof.
  unfold b32_of_int, b32_to_int. rewrite int32_mod by apply bits_of_b32_range.
  apply (binary_float_of_bits_of_binary_float 23 8); reflexivity.
Qed.
Lemma int_roundtrip z : INT_MIN <= z <= INT_MAX -> b32_to_int (b32_of_int z) = z.
Proof.
  intros H. unfold b32_of_int, b32_to_int. unfold bits_of_b32, b32_of_bits.
  rewrite (bits_of_binary_float_of_bits 23 8).
  - unfold int32, INT_MIN, INT_MAX in *. destruct (Z_lt_dec z 0).
    + rewrite <- (Z_mod_plus_full z 1). rewrite (Z.mod_small (z + 1 * 4294967296)) by lia.
      replace (z + 1 * 4294967296 + 2147483648) with (z + 2147483648 + 1 * 4294967296) by lia.
      rewrite Z_mod_plus_full, Z.mod_small; lia.
    + rewrite (Z.mod_small z) by lia. rewrite Z.mod_small; lia.
  - change (2 ^ (23 + 8 + 1)) with 4294967296. apply Z.mod_pos_bound. lia.
Qed.
Lemma b32_to_int_range x : INT_MIN <= b32_to_int x <= INT_MAX.
Proof. unfold b32_to_int. pose proof (int32_range (bits_of_b32 x)). unfold INT_MIN, INT_MAX. change (2 ^ 31) with 2147483648 in *. lia. Qed.
