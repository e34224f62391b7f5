(* C16-C21: WAV files *)
From Coq Require Import String Reals Lra.
From Flocq Require Import Core Relative IEEE754.Bits IEEE754.Binary.
Import List.ListNotations.
Open Scope list_scope.
From Verif Require Import Proofs.BaseLemmas Proofs.ContainerProofs Model.Wav Spec.Wav Spec.WavHeader Proofs.WavProofs Proofs.WavRead Proofs.WavInst Proofs.WavHeader.
Open Scope Z_scope.

(** ** C16 *)
(** Any sequence of write and silence calls followed by destruction produces exactly the RIFF layout of
    [wav_file], which the reader accepts with the same parameters.  [wav_params] includes that the block
    align field fits 15 bits, see C16_wide_block_align_refuted. *)
Theorem C16_header_roundtrip :
  forall (T : Type) (ops : sample_ops T) (rate bits channels : Z) (os : list wop),
  wav_params rate bits channels -> Forall (wop_ok channels) os ->
  overhead bits + total_frames os * channels * (bits / 8) <= INT_MAX ->
  exists w0 w s r, wwav_open rate bits channels = Ok w0 /\ wsteps ops w0 os = Ok w /\ wwav_close w = Ok s /\
    file_of (oputs s) = wav_file rate bits channels (total_frames os) (data_bytes ops bits channels os) /\
    rwav_open (iopen (file_of (oputs s))) = Ok r /\ accepted r /\ rwav_good r = true /\
    r_rate r = Some rate /\ r_bits r = Some bits /\ r_channels r = Some channels /\
    r_frames r = Some (if total_frames os =? 0 then -1 else total_frames os).
Proof.
  intros T ops rate bits channels os HP HO HS.
  destruct (closed ops rate bits channels os HP HO HS) as (w & p & E1 & E2 & E3).
  destruct (final_read ops rate bits channels os HP HO HS) as (hdr & LH & E4 & E5).
  do 4 eexists. splits; eauto; cbn [oputs].
  - rewrite final_file_ok. unfold final_file, all_samples, data_bytes. now rewrite all_codes_spec.
  - rewrite final_file_ok. exact E5.
  - discriminate.
  - reflexivity.
  - reflexivity.
  - reflexivity.
  - reflexivity.
  - reflexivity.
Qed.
Print Assumptions C16_header_roundtrip.

(** The reader sign extends the 16 bit block align field: with more than 32767 bytes per frame a file whose
    rate and size fit 31 bits is written but not accepted (and good() stays true). *)
Theorem C16_wide_block_align_refuted :
  exists w s r, wwav_open 1 16 20000 = Ok w /\ wwav_close w = Ok s /\ rwav_open (iopen (file_of (oputs s))) = Ok r /\
    r_frames r = None /\ rwav_good r = true.
Proof. do 3 eexists. do 3 (split; [vm_compute; reflexivity|]). split; reflexivity. Qed.
Print Assumptions C16_wide_block_align_refuted.

(** ** C17 *)
(** One sample code survives decoding and encoding for every arithmetic with small rounding errors; 8 and
    16 bit codes, all of them. *)
Theorem C17_codes_survive :
  forall (rnd : R -> R) (ob : Z -> R) (tb : R -> Z) (bits c : Z), small_error rnd ->
  bits = 8 \/ bits = 16 -> code_range bits c ->
  encode (Rops rnd ob tb) bits (decode (Rops rnd ob tb) bits c) = c.
Proof.
  intros rnd ob tb bits c HE Hb Hc.
  rewrite <- (wwav_code_encode _ 1 bits 1 (at_end [])).
  - now apply code_of_decoded.
  - unfold wav_params, INT_MIN, INT_MAX. destruct Hb as [-> | ->]; cbn; lia.
Qed.
Print Assumptions C17_codes_survive.

(** ... in particular for IEEE single and double precision arithmetic, rounding to nearest even *)
Definition rnd32 (x : R) : R := round radix2 (FLT_exp (-149) 24) ZnearestE x.
Definition rnd64 (x : R) : R := round radix2 (FLT_exp (-1074) 53) ZnearestE x.

Lemma rnd_FLT_small emin prec : Prec_gt_0 prec -> (emin <= -30)%Z -> (22 <= prec)%Z ->
  small_error (fun x => round radix2 (FLT_exp emin prec) ZnearestE x).
Proof.
  intros HP He Hp x. destruct (error_N_FLT radix2 emin prec HP (fun x => negb (Z.even x)) x) as (eps & eta & H1 & H2 & _ & ->).
  assert (B1 : (bpow radix2 (- prec + 1) <= bpow radix2 (-21))%R) by (apply bpow_le; lia).
  assert (B2 : (bpow radix2 emin <= bpow radix2 (-30))%R) by (apply bpow_le; lia).
  replace (bpow radix2 (-21)) with (/ 2097152)%R in B1 by (cbn; lra).
  replace (bpow radix2 (-30)) with (/ 1073741824)%R in B2 by (cbn; lra).
  replace (x * (1 + eps) + eta - x)%R with (x * eps + eta)%R by ring.
  eapply Rle_trans; [apply Rabs_triang|]. rewrite Rabs_mult. pose proof (Rabs_pos x). pose proof (Rabs_pos eps).
  assert (Rabs eps <= / 1048576)%R by lra. assert (Rabs x * Rabs eps <= Rabs x * / 1048576)%R by (apply Rmult_le_compat_l; auto).
  unfold Rdiv. lra.
Qed.
Lemma rnd32_small : small_error rnd32.
Proof. apply rnd_FLT_small; [exact (eq_refl : (0 < 24)%Z)|lia|lia]. Qed.
Lemma rnd64_small : small_error rnd64.
Proof. apply rnd_FLT_small; [exact (eq_refl : (0 < 53)%Z)|lia|lia]. Qed.

Theorem C17_codes_survive_single : forall ob tb bits c, bits = 8 \/ bits = 16 -> code_range bits c ->
  encode (Rops rnd32 ob tb) bits (decode (Rops rnd32 ob tb) bits c) = c.
Proof. intros. apply C17_codes_survive; auto using rnd32_small. Qed.
Print Assumptions C17_codes_survive_single.

(** samples in [-1,1] come back within half a step, samples outside are clamped to the extreme codes *)
Theorem C17_quantisation :
  forall (ob : Z -> R) (tb : R -> Z) (bits : Z) (x : R), bits = 8 \/ bits = 16 -> 
  let ops := Rops (fun x => x) ob tb in
  ((-1 <= x <= 1)%R -> (Rabs (decode ops bits (encode ops bits x) - x) <= / 2 / (if bits =? 8 then 127 else 32767))%R) /\
  ((1 <= x)%R -> encode ops bits x = if bits =? 8 then 255 else 32767) /\
  ((x <= -128 / 127)%R -> encode ops bits x = if bits =? 8 then 0 else -32768).
Proof.
  intros ob tb bits x Hb ops.
  assert (HP : wav_params 1 bits 1) by (unfold wav_params, INT_MIN, INT_MAX; destruct Hb as [-> | ->]; cbn; lia).
  rewrite <- (wwav_code_encode ops 1 bits 1 (at_end [])) by auto.
  splits; [intros; now apply quantise|apply clamped; auto|apply clamped; auto].
Qed.
Print Assumptions C17_quantisation.

Lemma map_repeat {A B} (f : A -> B) x n : map f (repeat x n) = repeat (f x) n.
Proof. induction n; cbn; congruence. Qed.
Lemma zlen_skipn_le {A} (l : list A) n : 0 <= n <= zlen l -> zlen (skipn (Z.to_nat n) l) = zlen l - n.
Proof. unfold zlen. rewrite skipn_length. lia. Qed.
Lemma znth_skipn {A} (l : list A) n i : 0 <= n -> 0 <= i -> znth (skipn (Z.to_nat n) l) i = znth l (n + i).
Proof. intros. rewrite !znth_nonneg by lia. rewrite nth_error_skipn. f_equal. lia. Qed.

(** 32 bit samples: whatever is written (any mixture of calls, strides, NaN payloads included) is read back
    bit for bit. *)
Theorem C17_float_bits_survive :
  forall (ops : sample_ops binary32), of_bits ops = b32_of_int -> to_bits ops = b32_to_int ->
  forall rate channels os (buf : list binary32), wav_params rate 32 channels -> Forall (wop_ok channels) os ->
  58 + total_frames os * channels * 4 <= INT_MAX -> zlen buf = total_frames os * channels ->
  exists w0 w s r r', wwav_open rate 32 channels = Ok w0 /\ wsteps ops w0 os = Ok w /\ wwav_close w = Ok s /\
    rwav_open (iopen (file_of (oputs s))) = Ok r /\
    rwav_read ops r buf (total_frames os) (-1) = Ok (flat_map (wop_samples channels (b32_of_bits 0)) os, r') /\
    rwav_good r' = true.
Proof.
  intros ops Hof Hto rate channels os buf HP HO HS Hbuf.
  destruct (closed ops rate 32 channels os HP HO HS) as (w & p & E1 & E2 & E3).
  destruct (final_read ops rate 32 channels os HP HO HS) as (hdr & LH & E4 & E5).
  assert (HB : Forall is_byte hdr).
  { assert (X : Forall is_byte (final_file ops rate 32 channels os)).
    { unfold final_file, wav_file. apply Forall_app. split; [apply riff_bytes; apply le_bytes|apply le_le_bytes]. }
    rewrite E4 in X. apply Forall_app in X. exact (proj1 X). }
  assert (HR : Forall (code_range 32) (all_codes ops rate 32 channels os)).
  { rewrite all_codes_spec by auto. apply Forall_flat_map. apply Forall_forall. intros [b n st|n] _; cbn [wop_codes].
    - apply Forall_map. apply Forall_forall. intros x _. unfold encode, code_range. cbn. rewrite Hto. apply b32_to_int_range.
    - apply Forall_forall. intros x Hx. apply repeat_spec in Hx. subst x. cbn. unfold INT_MIN, INT_MAX. lia. }
  destruct (roundtrip ops rate 32 channels os HP HO HS buf (if total_frames os =? 0 then -1 else total_frames os) HR Hbuf hdr LH HB)
    as (s' & ER & G).
  do 5 eexists. splits; eauto; cbn [oputs].
  - rewrite final_file_ok. exact E5.
  - rewrite ER. do 2 f_equal. rewrite all_codes_spec by auto. rewrite !flat_map_concat_map, concat_map, map_map. f_equal.
    apply map_ext. intros [b n st|n]; cbn [wop_codes wop_samples].
    + rewrite map_map. rewrite <- (map_id (strided _ _ _ _)) at 2. apply map_ext. intros x. unfold decode, encode. cbn.
      rewrite Hof, Hto. apply b32_roundtrip.
    + rewrite map_repeat. f_equal. unfold decode. cbn. rewrite Hof. reflexivity.
  - exact G.
Qed.
Print Assumptions C17_float_bits_survive.

(** 8 and 16 bit files: reading everything and writing the values back reproduces the data bytes *)
Theorem C17_data_survives :
  forall (rnd : R -> R) (ob : Z -> R) (tb : R -> Z) (bits : Z) (cs : list Z), small_error rnd ->
  bits = 8 \/ bits = 16 -> Forall (code_range bits) cs ->
  codes_bytes (bits / 8) (map (encode (Rops rnd ob tb) bits) (map (decode (Rops rnd ob tb) bits) cs)) = codes_bytes (bits / 8) cs.
Proof.
  intros rnd ob tb bits cs HE Hb HC. f_equal. rewrite map_map. rewrite <- (map_id cs) at 2.
  apply map_ext_Forall. eapply Forall_impl; [|exact HC]. intros c Hc. now apply C17_codes_survive.
Qed.
Print Assumptions C17_data_survives.

(** what a complete write/read cycle delivers: the decoded codes *)
Theorem C17_write_then_read :
  forall (T : Type) (ops : sample_ops T) rate bits channels os (buf : list T), wav_params rate bits channels -> Forall (wop_ok channels) os ->
  overhead bits + total_frames os * channels * (bits / 8) <= INT_MAX -> zlen buf = total_frames os * channels ->
  let codes := flat_map (wop_codes (encode ops bits) channels (silence_code bits)) os in
  Forall (code_range bits) codes ->
  exists w0 w s r r', wwav_open rate bits channels = Ok w0 /\ wsteps ops w0 os = Ok w /\ wwav_close w = Ok s /\
    rwav_open (iopen (file_of (oputs s))) = Ok r /\
    rwav_read ops r buf (total_frames os) (-1) = Ok (map (decode ops bits) codes, r') /\
    rwav_good r' = true.
Proof.
  intros T ops rate bits channels os buf HP HO HS Hbuf codes HR.
  destruct (closed ops rate bits channels os HP HO HS) as (w & p & E1 & E2 & E3).
  destruct (final_read ops rate bits channels os HP HO HS) as (hdr & LH & E4 & E5).
  assert (HB : Forall is_byte hdr).
  { assert (X : Forall is_byte (final_file ops rate bits channels os)).
    { unfold final_file, wav_file. apply Forall_app. split; [apply riff_bytes; apply le_bytes|apply le_le_bytes]. }
    rewrite E4 in X. apply Forall_app in X. exact (proj1 X). }
  assert (HR' : Forall (code_range bits) (all_codes ops rate bits channels os)) by (rewrite all_codes_spec; auto).
  destruct (roundtrip ops rate bits channels os HP HO HS buf (if total_frames os =? 0 then -1 else total_frames os) HR' Hbuf hdr LH HB)
    as (s' & ER & G).
  do 5 eexists. splits; eauto; cbn [oputs].
  - rewrite final_file_ok. exact E5.
  - rewrite ER. rewrite all_codes_spec by auto. reflexivity.
  - exact G.
Qed.
Print Assumptions C17_write_then_read.

(** ** C18 *)
(** [oputs s] lists every byte put into the file in program order; a crash leaves the file made of a prefix
    of it.  Once the header is out, every such file opens with the right parameters, consists of a header
    and a prefix of the data, and reports either an unknown length or the exact one. *)
Theorem C18_every_crash_point_readable :
  forall (T : Type) (ops : sample_ops T) rate bits channels os, wav_params rate bits channels -> Forall (wop_ok channels) os ->
  overhead bits + total_frames os * channels * (bits / 8) <= INT_MAX ->
  exists w0 w s, wwav_open rate bits channels = Ok w0 /\ wsteps ops w0 os = Ok w /\ wwav_close w = Ok s /\
  forall k, (k <= length (oputs s))%nat -> overhead bits <= Z.of_nat k ->
  exists hdr smp r, file_of (firstn k (oputs s)) = hdr ++ smp /\ zlen hdr = overhead bits /\
    smp = firstn (k - Z.to_nat (overhead bits)) (data_bytes ops bits channels os) /\
    rwav_open (iopen (file_of (firstn k (oputs s)))) = Ok r /\ accepted r /\ rwav_good r = true /\
    r_rate r = Some rate /\ r_bits r = Some bits /\ r_channels r = Some channels /\
    (r_frames r = Some (-1) \/ r_frames r = Some (total_frames os) /\ smp = data_bytes ops bits channels os).
Proof.
  intros T ops rate bits channels os HP HO HS.
  destruct (closed ops rate bits channels os HP HO HS) as (w & p & E1 & E2 & E3).
  do 3 eexists. splits; eauto. intros k Hk Ho. cbn [oputs] in *.
  destruct (crash ops rate bits channels os HP HO HS k _ Hk eq_refl Ho) as (hdr & smp & fr & F1 & F2 & F3 & F4 & F5).
  assert (ED : all_samples ops rate bits channels os = data_bytes ops bits channels os).
  { unfold all_samples, data_bytes. now rewrite all_codes_spec. }
  rewrite ED in F3, F4.
  exists hdr, smp. eexists. splits; eauto; try reflexivity.
  - discriminate.
  - cbn [mk_rwav r_frames]. destruct F4 as [-> | [-> ?]]; auto.
Qed.
Print Assumptions C18_every_crash_point_readable.

(** and before destruction the puts of the writer are a prefix of those after it *)
Theorem C18_writes_are_prefix :
  forall (T : Type) (ops : sample_ops T) rate bits channels os, wav_params rate bits channels -> Forall (wop_ok channels) os ->
  overhead bits + total_frames os * channels * (bits / 8) <= INT_MAX ->
  forall os1 os2, os = os1 ++ os2 ->
  exists w0 w1 w s l, wwav_open rate bits channels = Ok w0 /\ wsteps ops w0 os1 = Ok w1 /\ wsteps ops w0 os = Ok w /\ wwav_close w = Ok s /\
    oputs s = oputs (w_os w1) ++ l /\ file_of (oputs (w_os w1)) = 
      riff rate bits channels (le 4 (overhead bits - 8)) (le 4 0) (le 4 (-1)) ++ data_bytes ops bits channels os1.
Proof.
  intros T ops rate bits channels os HP HO HS os1 os2 ->.
  destruct (closed ops rate bits channels _ HP HO HS) as (w & p & E1 & E2 & E3).
  apply Forall_app in HO. destruct HO as [HO1 HO2].
  destruct (written ops rate bits channels os1 HP HO1) as (w1 & _ & F2 & ->).
  do 4 eexists. exists (seqput (zlen (hdr0 rate bits channels ++ all_samples ops rate bits channels os1)) (all_samples ops rate bits channels os2) ++ patches bits (total_frames (os1 ++ os2)) (zlen (all_samples ops rate bits channels (os1 ++ os2)))).
  splits; eauto; cbn [w_os fresh_wwav at_end oputs].
  - unfold all_samples, all_codes, codes_bytes. rewrite !flat_map_app.
    rewrite !(app_assoc _ _ (flat_map (le _) _)). rewrite seqput_app. rewrite <- app_assoc. reflexivity.
  - rewrite file_of_seqput. unfold hdr0, all_samples, data_bytes. now rewrite all_codes_spec.
Qed.
Print Assumptions C18_writes_are_prefix.

(** ** C19 *)
(** For every file the reader accepts, and every sequence of read and skip calls, good() afterwards is true
    exactly if every (non empty) read stayed within the file and no skip went before its start. *)
Theorem C19_end_of_file_observable :
  forall (T : Type) (ops : sample_ops T) (file : list Z) (r : rwav) (channels bytes : Z), Forall is_byte file ->
  rwav_open (iopen file) = Ok r -> accepted r -> rwav_good r = true ->
  r_channels r = Some channels -> r_bytes r = Some bytes -> 1 <= channels ->
  forall os, Forall (rop_ok (T:=T) channels bytes) os ->
  exists r', rsteps ops r os = Ok r' /\ rwav_good r' = reads_fit (zlen file) (channels * bytes) (ipos (r_is r)) os.
Proof.
  intros T ops file r channels bytes HF EO HA HG HC HB Hch os Hos.
  destruct (r_factor r) as [f|] eqn:Ef; [|contradiction HA; auto].
  destruct (accepted_usable file (iopen file) r f HF) as (rate & bits & ch & fr & E & W & Hb & HP); auto.
  { split; auto. left. exists 0. split; [lia|reflexivity]. }
  rewrite E in HC, HB. cbn [mk_rwav r_channels r_bytes] in HC, HB. injection HC as ->. injection HB as <-.
  destruct W as (Wb & [(p & Hp & Ep)|Wf]).
  - rewrite E, Ep. destruct (rsteps_good ops file rate bits channels fr (HP Hch) HF (bits / 8) eq_refl os p Hp Hos) as (s' & -> & G).
    eexists. split; [reflexivity|exact G].
  - exfalso. unfold rwav_good, igood in HG. rewrite Wf, andb_false_r in HG. discriminate.
Qed.
Print Assumptions C19_end_of_file_observable.

(** reading exactly what is there (in any partition) keeps good(); anything further clears it for good *)
Theorem C19_exact_reads_good :
  forall (T : Type) (os : list (rop T)) len fb p, 0 <= fb -> 0 <= p ->
  (forall o, In o os -> exists b n st, o = RRead b n st /\ 0 <= n) ->
  reads_fit len fb p os = true <-> 
  (fold_right Z.add 0 (map (fun o => match o with RRead _ n _ => n | RSkip n => n end) os) = 0 \/
   p + fb * fold_right Z.add 0 (map (fun o => match o with RRead _ n _ => n | RSkip n => n end) os) <= len).
Proof.
  intros T os len fb. induction os as [|o os IH]; intros p Hfb Hp Ho; cbn [reads_fit map fold_right]; [tauto|].
  destruct (Ho o (or_introl eq_refl)) as (b & n & st & -> & Hn).
  specialize (IH (p + n * fb) Hfb ltac:(nia) (fun o' Ho' => Ho o' (or_intror Ho'))).
  set (tot := fold_right Z.add 0 _) in *.
  assert (Htot : 0 <= tot).
  { unfold tot. clear - Ho. induction os as [|o' os IH']; cbn [map fold_right]; [lia|].
    destruct (Ho o' (or_intror (or_introl eq_refl))) as (b' & n' & st' & -> & Hn').
    assert (0 <= fold_right Z.add 0 (map (fun o => match o with RRead _ n _ => n | RSkip n => n end) os)); [|lia].
    apply IH'. intros o'' [<- | H]; [|apply Ho; right; right; auto]. apply Ho. left; reflexivity. }
  rewrite andb_true_iff, orb_true_iff, Z.eqb_eq, Z.leb_le, IH.
  split.
  - intros [[-> | H1] [H2 | H2]]; try (left; lia); try (right; nia).
  - intros [H | H].
    + assert (n = 0) by lia. assert (tot = 0) by lia. auto.
    + assert (0 <= fb * tot) by nia. assert (0 <= fb * n) by nia. split; [right; nia|].
      right. nia.
Qed.
Print Assumptions C19_exact_reads_good.

Theorem C19_failure_is_permanent :
  forall (T : Type) (os1 os2 : list (rop T)) len fb p, reads_fit len fb p os1 = false -> reads_fit len fb p (os1 ++ os2) = false.
Proof.
  intros T os1. induction os1 as [|[b n st|n] os IH]; intros os2 len fb p H; cbn [reads_fit app] in *; [discriminate| |];
    apply andb_false_iff in H; apply andb_false_iff; destruct H; auto.
Qed.
Print Assumptions C19_failure_is_permanent.

(** ** C20 *)
(** the constructor does not always have defined behaviour *)
Theorem C20_zero_channels_refuted : exists file, Forall is_byte file /\ zlen file = 45 /\ rwav_open (iopen file) = Undefined.
Proof.
  exists (riff 8000 16 0 (le 4 37) (le 4 0) (le 4 1) ++ [0]). splits; [|vm_compute; reflexivity|vm_compute; reflexivity].
  apply Forall_app. split; [apply riff_bytes; apply le_bytes|repeat constructor; unfold is_byte; lia].
Qed.
Print Assumptions C20_zero_channels_refuted.

Theorem C20_short_file_refuted : rwav_open (iopen []) = Undefined /\ rwav_open (iopen (chars "RIF")) = Undefined.
Proof. split; reflexivity. Qed.
Print Assumptions C20_short_file_refuted.

(** and a rejected header is not visible through good() *)
Theorem C20_rejection_invisible_refuted : exists file r, Forall is_byte file /\ rwav_open (iopen file) = Ok r /\
  rwav_good r = true /\ ~ accepted r /\ r_rate r = None /\ r_channels r = None /\ r_frames r = None.
Proof.
  exists (chars "OggS"). eexists. splits; try (vm_compute; reflexivity).
  - apply chars_bytes.
  - intros H. apply H. reflexivity.
Qed.
Print Assumptions C20_rejection_invisible_refuted.

(** What the constructor does on every byte string: it terminates; its behaviour is undefined exactly on the byte
    strings described by [wav_undefined]; and it accepts exactly the headers described by [wav_header], with the
    values of that description and the first sample as the next byte to be read. *)
Theorem C20_terminates :
  forall file, Forall is_byte file -> rwav_open (iopen file) = Undefined \/ exists r, rwav_open (iopen file) = Ok r.
Proof.
  intros file HF. pose proof (verdict_open file HF) as V. destruct (rwav_open (iopen file)); cbn in V; eauto; contradiction.
Qed.
Print Assumptions C20_terminates.

Theorem C20_undefined_iff :
  forall file, Forall is_byte file -> (rwav_open (iopen file) = Undefined <-> wav_undefined file).
Proof.
  intros file HF. pose proof (verdict_open file HF) as V. split.
  - intros E. rewrite E in V. exact V.
  - intros U. destruct (rwav_open (iopen file)) as [r| | |]; cbn in V; try contradiction; auto. exfalso.
    destruct V as [(_ & _ & rate & bits & ch & fr & st & H & _)|(_ & _ & H)]; [|contradiction].
    apply (header_defined _ _ _ _ _ _ H U).
Qed.
Print Assumptions C20_undefined_iff.

Theorem C20_accepts_iff :
  forall file rate bits channels frames start, Forall is_byte file ->
  ((exists r, rwav_open (iopen file) = Ok r /\ accepted r /\ rwav_good r = true /\
      r_rate r = Some rate /\ r_bits r = Some bits /\ r_channels r = Some channels /\ r_frames r = Some frames /\
      ipos (r_is r) = start /\ ibytes (r_is r) = file)
   <-> wav_header file rate bits channels frames start).
Proof.
  intros file rate bits ch fr st HF. pose proof (verdict_open file HF) as V. split.
  - intros (r & E & A & G & E1 & E2 & E3 & E4 & E5 & _). rewrite E in V. cbn in V.
    destruct V as [(_ & _ & rate' & bits' & ch' & fr' & st' & H & ->)|([H|(H & _)] & _)]; [|contradiction|congruence].
    cbn in E1, E2, E3, E4, E5. congruence.
  - intros H. destruct (rwav_open (iopen file)) as [r| | |]; cbn in V; try contradiction.
    + destruct V as [(A & G & rate' & bits' & ch' & fr' & st' & H' & ->)|(_ & H' & _)]; [|exfalso; eapply H'; eauto].
      destruct (header_fun _ _ _ _ _ _ _ _ _ _ _ H H') as (-> & -> & -> & -> & ->).
      eexists. splits; try reflexivity; auto.
    + exfalso. apply (header_defined _ _ _ _ _ _ H V).
Qed.
Print Assumptions C20_accepts_iff.

(** on a file at least as long as the longest header, the reader of an accepted header is good *)
Theorem C20_accepted_good :
  forall file r, Forall is_byte file -> rwav_open (iopen file) = Ok r -> accepted r -> 58 <= zlen file -> rwav_good r = true.
Proof.
  intros file r HF E HA HL. pose proof (verdict_open file HF) as V. rewrite E in V. cbn in V.
  destruct V as [(_ & G & _)|([H|H] & _)]; [exact G|contradiction|lia].
Qed.
Print Assumptions C20_accepted_good.

(** in particular, on files of at least 58 bytes with a nonzero channel count and sizes away from the
    edges of int the constructor is well defined ... *)
Theorem C20_open_defined :
  forall file, Forall is_byte file -> 58 <= zlen file -> field file 22 2 <> 0 ->
  Z.abs (field file 24 4) * 4 * Z.abs (field file 22 2) <= INT_MAX ->
  field file 40 4 <= INT_MAX - 58 -> field file 54 4 <= INT_MAX - 58 ->
  exists r, rwav_open (iopen file) = Ok r.
Proof. exact open_defined. Qed.
Print Assumptions C20_open_defined.

(** ... and an accepted header has all of its fields set consistently *)
Theorem C20_accepted_is_complete :
  forall file r, Forall is_byte file -> rwav_open (iopen file) = Ok r -> accepted r ->
  exists rate bits channels frames, (bits = 8 \/ bits = 16 \/ bits = 32) /\
    r_rate r = Some rate /\ r_bits r = Some bits /\ r_bytes r = Some (bits / 8) /\ r_channels r = Some channels /\
    r_frames r = Some frames /\ r_offset r = Some (silence_code bits) /\ (1 <= channels -> wav_params rate bits channels).
Proof.
  intros file r HF EO HA. destruct (r_factor r) as [f|] eqn:Ef; [|contradiction HA; auto].
  destruct (accepted_usable file (iopen file) r f HF) as (rate & bits & ch & fr & E & W & Hb & HP); auto.
  { split; auto. left. exists 0. split; [lia|reflexivity]. }
  exists rate, bits, ch, fr. rewrite E. splits; auto.
Qed.
Print Assumptions C20_accepted_is_complete.

(** ** C21 *)
(** read() stores sample (n, c) at stride*n + c and touches nothing else *)
Theorem C21_read_cells :
  forall (T : Type) (ops : sample_ops T) (file : list Z) (r : rwav) (bits channels : Z), Forall is_byte file ->
  rwav_open (iopen file) = Ok r -> accepted r ->
  r_channels r = Some channels -> r_bits r = Some bits -> 1 <= channels ->
  forall buf num stride, buf_ok buf num channels stride ->
  exists buf' r', rwav_read ops r buf num stride = Ok (buf', r') /\ zlen buf' = zlen buf /\
    (forall i, (forall n c, 0 <= n < num -> 0 <= c < channels -> i <> eff_stride channels stride * n + c) -> znth buf' i = znth buf i) /\
    (rwav_good r' = true -> channels <= eff_stride channels stride -> forall n c, 0 <= n < num -> 0 <= c < channels ->
      znth buf' (eff_stride channels stride * n + c) = Some (decode ops bits (code_at file (bits / 8) (ipos (r_is r)) (n * channels + c)))).
Proof.
  intros T ops file r bits channels HF EO HA HC HB Hch buf num stride Hbuf.
  destruct (r_factor r) as [f|] eqn:Ef; [|contradiction HA; auto].
  destruct (accepted_usable file (iopen file) r f HF) as (rate & bits' & ch & fr & E & W & Hb & HP); auto.
  { split; auto. left. exists 0. split; [lia|reflexivity]. }
  rewrite E in HC, HB. cbn [mk_rwav r_channels r_bits] in HC, HB. injection HC as ->. injection HB as ->.
  rewrite E. destruct (read_ok ops file rate bits channels fr (HP Hch) HF (bits / 8) eq_refl (r_is r) buf num stride Hbuf W)
    as (buf' & s' & -> & (W' & F & G) & L & U & V).
  do 2 eexists. splits; [reflexivity|auto| |].
  - intros i Hi. apply U. intros n c Hn Hc Hlt. apply Hi; auto. split; auto. nia.
  - intros Hg Hst n c Hn Hc. cbn [mk_rwav r_is] in *. unfold rwav_good in Hg. cbn [mk_rwav r_is] in Hg.
    destruct W as (Wb & [(p & Hp & Ep)|Wf]).
    2:{ exfalso. specialize (F Wf). unfold igood in Hg. rewrite F, andb_false_r in Hg. discriminate. }
    rewrite Ep. cbn [atp ipos]. specialize (G p Hp Ep).
    destruct ((num * channels =? 0) || (p + num * channels * (bits / 8) <=? zlen file)) eqn:EF.
    2:{ exfalso. unfold igood in Hg. rewrite G, andb_false_r in Hg. discriminate. }
    apply orb_true_iff in EF. rewrite Z.eqb_eq, Z.leb_le in EF.
    assert (Hb8 : 1 <= bits / 8) by (destruct Hb as [-> | [-> | ->]]; vm_compute; discriminate).
    assert (Hk : n * channels + c + 1 <= num * channels) by nia.
    apply V; auto; try lia.
    assert ((n * channels + c + 1) * (bits / 8) <= num * channels * (bits / 8)) by (apply Z.mul_le_mono_nonneg_r; lia). nia.
Qed.
Print Assumptions C21_read_cells.

(** write() emits the cells stride*n + c in frame order and silence() the silence code *)
Theorem C21_write_emits :
  forall (T : Type) (ops : sample_ops T) rate bits channels os, wav_params rate bits channels -> Forall (wop_ok channels) os ->
  exists w0 w, wwav_open rate bits channels = Ok w0 /\ wsteps ops w0 os = Ok w /\
    file_of (oputs (w_os w)) = file_of (oputs (w_os w0)) ++ 
      flat_map (fun o => match o with
        | WWrite buf num stride => flat_map (fun x => le (Z.to_nat (bits / 8)) (encode ops bits x)) (strided buf num channels (eff_stride channels stride))
        | WSilence num => flat_map (fun _ => le (Z.to_nat (bits / 8)) (silence_code bits)) (zrange 0 (Z.to_nat (num * channels)))
        end) os.
Proof.
  intros T ops rate bits channels os HP HO.
  destruct (written ops rate bits channels os HP HO) as (w & E1 & E2 & ->).
  do 2 eexists. splits; eauto. cbn [w_os fresh_wwav at_end oputs]. rewrite !file_of_seqput. f_equal.
  unfold all_samples. rewrite all_codes_spec by auto. unfold codes_bytes. clear. induction os as [|o os IH]; cbn [flat_map]; auto.
  rewrite flat_map_app, IH. f_equal. destruct o as [b n st|n]; cbn [wop_codes].
  - rewrite flat_map_concat_map, map_map, <- flat_map_concat_map. reflexivity.
  - generalize (Z.to_nat (n * channels)) as m. intros m. generalize 0 as i. induction m as [|m IHm]; intros i; cbn [repeat zrange flat_map]; auto.
    now rewrite (IHm (i + 1)).
Qed.
Print Assumptions C21_write_emits.

(** silence reads back as exactly zero *)
Theorem C21_silence_is_zero :
  (forall rnd ob tb bits, rnd 0%R = 0%R -> bits = 8 \/ bits = 16 -> decode (Rops rnd ob tb) bits (silence_code bits) = 0%R) /\
  (forall ops : sample_ops binary32, of_bits ops = b32_of_int -> decode ops 32 (silence_code 32) = B754_zero 24 128 false).
Proof.
  split.
  - intros rnd ob tb bits H0 [-> | ->]; unfold decode, silence_code; cbn; rewrite H0; unfold Rdiv; now rewrite Rmult_0_l.
  - intros ops H. unfold decode, silence_code. cbn. rewrite H. reflexivity.
Qed.
Print Assumptions C21_silence_is_zero.

(** skip(k) followed by read is the same as reading k more frames and discarding them *)
Theorem C21_skip_is_discard :
  forall (T : Type) (ops : sample_ops T) (file : list Z) (r : rwav) (bits channels k num : Z) (big small : list T), Forall is_byte file ->
  rwav_open (iopen file) = Ok r -> accepted r ->
  r_channels r = Some channels -> r_bits r = Some bits -> 1 <= channels -> 0 <= k -> 0 < num ->
  zlen big = (k + num) * channels -> zlen small = num * channels -> (k + num) * channels * (bits / 8) <= INT_MAX ->
  exists big' small' r1 r2 r3, rwav_read ops r big (k + num) (-1) = Ok (big', r1) /\
    rwav_skip r k = Ok r2 /\ rwav_read ops r2 small num (-1) = Ok (small', r3) /\
    rwav_good r3 = rwav_good r1 /\ (rwav_good r1 = true -> small' = skipn (Z.to_nat (k * channels)) big' /\ r3 = r1).
Proof.
  intros T ops file r bits channels k num big small HF EO HA HC HB Hch Hk Hnum Lb Ls HI.
  destruct (r_factor r) as [f|] eqn:Ef; [|contradiction HA; auto].
  destruct (accepted_usable file (iopen file) r f HF) as (rate & bits' & ch & fr & E & W & Hb & HP); auto.
  { split; auto. left. exists 0. split; [lia|reflexivity]. }
  rewrite E in HC, HB. cbn [mk_rwav r_channels r_bits] in HC, HB. injection HC as ->. injection HB as ->.
  assert (Hb8 : 1 <= bits / 8) by (destruct Hb as [-> | [-> | ->]]; vm_compute; discriminate).
  rewrite E. clear E.
  assert (HI1 : 0 <= (k + num) * channels <= INT_MAX) by nia.
  assert (HK : 0 <= k * (channels * (bits / 8))) by (repeat apply Z.mul_nonneg_nonneg; lia).
  destruct (read_ok ops file rate bits channels fr (HP Hch) HF (bits / 8) eq_refl (r_is r) big (k + num) (-1)) as (big' & s1 & -> & (W1 & F1 & G1) & L1 & U1 & V1); auto.
  { unfold buf_ok, eff_stride. cbn. splits; try lia; nia. }
  destruct (skip_ok file rate bits channels fr (bits / 8) eq_refl (r_is r) k) as (s2 & -> & W2 & F2 & G2); auto; try (unfold INT_MIN; nia).
  destruct (read_ok ops file rate bits channels fr (HP Hch) HF (bits / 8) eq_refl s2 small num (-1)) as (small' & s3 & E3 & (W3 & F3 & G3) & L3 & U3 & V3); auto.
  { unfold buf_ok, eff_stride. cbn. splits; try lia; nia. }
  do 5 eexists. split; [reflexivity|]. split; [reflexivity|]. split; [exact E3|]. unfold rwav_good; cbn [mk_rwav r_is]. split.
  - destruct W as (Wb & [(p & Hp & Ep)|Wf]).
    + specialize (G1 p Hp Ep). specialize (G2 p Hp Ep). replace (0 <=? p + k * (channels * (bits / 8))) with true in G2 by (symmetry; apply Z.leb_le; lia).
      specialize (G3 (p + k * (channels * (bits / 8))) ltac:(lia) G2).
      replace ((k + num) * channels =? 0) with false in G1 by (symmetry; apply Z.eqb_neq; nia).
      replace (num * channels =? 0) with false in G3 by (symmetry; apply Z.eqb_neq; nia). cbn [orb] in G1, G3.
      replace (p + k * (channels * (bits / 8)) + num * channels * (bits / 8)) with (p + (k + num) * channels * (bits / 8)) in G3 by ring.
      destruct (_ <=? _); unfold igood; [now rewrite G1, G3|now rewrite G1, G3, !andb_false_r].
    + unfold igood. rewrite (F1 Wf), (F3 (F2 Wf)), !andb_false_r. reflexivity.
  - intros Hg. destruct W as (Wb & [(p & Hp & Ep)|Wf]).
    2:{ exfalso. unfold igood in Hg. rewrite (F1 Wf), andb_false_r in Hg. discriminate. }
    specialize (G1 p Hp Ep). specialize (G2 p Hp Ep). replace (0 <=? p + k * (channels * (bits / 8))) with true in G2 by (symmetry; apply Z.leb_le; lia).
    specialize (G3 (p + k * (channels * (bits / 8))) ltac:(lia) G2).
    replace ((k + num) * channels =? 0) with false in G1 by (symmetry; apply Z.eqb_neq; nia).
    replace (num * channels =? 0) with false in G3 by (symmetry; apply Z.eqb_neq; nia). cbn [orb] in G1, G3.
    replace (p + k * (channels * (bits / 8)) + num * channels * (bits / 8)) with (p + (k + num) * channels * (bits / 8)) in G3 by ring.
    destruct (Z.leb_spec (p + (k + num) * channels * (bits / 8)) (zlen file)) as [Hfit|].
    2:{ exfalso. unfold igood in Hg. rewrite G1, andb_false_r in Hg. discriminate. }
    split; [|now rewrite G1, G3].
    apply list_eq_znth.
    + rewrite zlen_skipn_le; rewrite ?L1, ?L3; nia.
    + intros i Hi. rewrite L3 in Hi. 
      assert (Hm : i = channels * (i / channels) + i mod channels) by (apply Z.div_mod; lia).
      pose proof (Z.mod_pos_bound i channels ltac:(lia)). assert (0 <= i / channels) by (apply Z.div_pos; lia).
      assert (Hq : i / channels * channels + i mod channels < num * channels) by nia.
      assert (Hq' : (k + i / channels) * channels + i mod channels < (k + num) * channels) by nia.
      assert (Hf1 : p + ((k + i / channels) * channels + i mod channels + 1) * (bits / 8) <= zlen file).
      { assert (((k + i / channels) * channels + i mod channels + 1) * (bits / 8) <= (k + num) * channels * (bits / 8)) by (apply Z.mul_le_mono_nonneg_r; lia). lia. }
      assert (Hf2 : p + k * (channels * (bits / 8)) + (i / channels * channels + i mod channels + 1) * (bits / 8) <= zlen file).
      { replace (p + k * (channels * (bits / 8)) + (i / channels * channels + i mod channels + 1) * (bits / 8)) with
        (p + ((k + i / channels) * channels + i mod channels + 1) * (bits / 8)) by ring. auto. }
      unfold eff_stride in V1, V3. cbn in V1, V3.
      rewrite znth_skipn by (auto; nia).
      rewrite Hm at 1. rewrite (V3 ltac:(lia) (p + k * (channels * (bits / 8))) ltac:(lia) G2 (i / channels) (i mod channels)); try lia.
      replace (k * channels + i) with (channels * (k + i / channels) + i mod channels) by nia.
      rewrite (V1 ltac:(lia) p Hp Ep (k + i / channels) (i mod channels)); try lia.
      f_equal. f_equal. unfold code_at. do 4 f_equal. ring.
Qed.
Print Assumptions C21_skip_is_discard.

(** ** Concrete cases *)
Definition Zops : sample_ops Z := {| ofZ := fun z => z; tadd := Z.add; tmul := Z.mul; tdiv := Z.div; tltb := Z.ltb;
  trint := fun z => z; of_bits := fun z => z; to_bits := fun z => z |}.
Definition ex_ops : list (@wop Z) := [WWrite [1; 0; 7; -1; 2; 7; 0; 0] 2 3; WSilence 2; WWrite [] 0 (-1)].

Example C16_example_params : wav_params 44100 16 2 /\ Forall (wop_ok 2) ex_ops /\ total_frames ex_ops = 4 /\
  overhead 16 + total_frames ex_ops * 2 * (16 / 8) <= INT_MAX.
Proof.
  split; [unfold wav_params, INT_MIN, INT_MAX; cbn; lia|]. split; [|split; [reflexivity|cbn; discriminate]].
  unfold ex_ops. apply Forall_cons; [|apply Forall_cons; [|apply Forall_cons; [|apply Forall_nil]]];
    unfold wop_ok, buf_ok, eff_stride, INT_MAX; cbn; lia.
Qed.
Example C16_example_run :
  (w <- wwav_open 44100 16 2 ;; w <- wsteps Zops w ex_ops ;; s <- wwav_close w ;; r <- rwav_open (iopen (file_of (oputs s))) ;;
   '(b, r) <- rwav_read Zops r [9; 9; 9; 9; 9; 9; 9; 9] 4 (-1) ;; Ok (b, r_frames r, rwav_good r, skipn 44 (file_of (oputs s))))
  = Ok ([1; 0; -1; 1; 0; 0; 0; 0], Some 4, true, [255; 127; 0; 0; 1; 128; 255; 127; 0; 0; 0; 0; 0; 0; 0; 0]).
Proof. vm_compute. reflexivity. Qed.
Example C18_example_crash :
  (w <- wwav_open 44100 16 2 ;; w <- wsteps Zops w ex_ops ;; s <- wwav_close w ;;
   Ok (length (oputs s), map (fun k => match rwav_open (iopen (file_of (firstn k (oputs s)))) with Ok r => r_frames r | _ => None end) (seq 40 29)))
  = Ok (68%nat, [Some (-1); Some (-1); Some (-1); Some (-1); Some (-1); Some (-1); Some (-1); Some (-1); Some (-1); Some (-1); Some (-1);
      Some (-1); Some (-1); Some (-1); Some (-1); Some (-1); Some (-1); Some (-1); Some (-1); Some (-1); Some (-1);
      Some (-1); Some (-1); Some (-1); Some (-1); Some (-1); Some (-1); Some (-1); Some 4]).
Proof. vm_compute. reflexivity. Qed.
Example C19_example :
  (w <- wwav_open 8000 8 1 ;; w <- wsteps Zops w [WSilence 3] ;; s <- wwav_close w ;; r <- rwav_open (iopen (file_of (oputs s))) ;;
   a <- rsteps Zops r [RRead [0; 0] 2 (-1); RRead [0] 1 (-1)] ;; b <- rsteps Zops r [RSkip 3; RRead [0] 1 (-1)] ;;
   Ok (rwav_good a, rwav_good b)) = Ok (true, false).
Proof. vm_compute. reflexivity. Qed.
Example C17_example_codes : code_range 16 (-32768) /\ code_range 8 0 /\ code_range 8 255 /\ code_range 32 (-1).
Proof. vm_compute. repeat split; discriminate. Qed.
Example C20_example : let file := wav_file 8000 16 1 2 [1; 0; 2; 0] ++ repeat 0 10 in
  zlen file = 58 /\ field file 22 2 = 1 /\ field file 24 4 = 8000 /\ field file 40 4 = 4 /\ field file 54 4 = 0.
Proof. vm_compute. auto. Qed.
Example C20_example_header : wav_header (wav_file 8000 16 1 2 [1; 0; 2; 0]) 8000 16 1 2 44 /\
  wav_header (wav_file 48000 32 2 1 [0; 0; 128; 63; 0; 0; 128; 191]) 48000 32 2 1 58.
Proof.
  split; [exists 16, 36|exists 18, 50]; splits; try reflexivity; try (vm_compute; intuition discriminate);
    try (constructor; try reflexivity; vm_compute; intuition discriminate).
Qed.
Example C20_example_undefined : wav_undefined (chars "RIFF" ++ [0; 0; 0; 0] ++ chars "WAV") /\ ~ wav_undefined (chars "OggS").
Proof.
  split.
  - right. left. split; [reflexivity|]. exists [69]. split; [discriminate|reflexivity].
  - intros [(rest & _ & H)|[(H & _)|[(H & _)|(a & b & c & d & H & _)]]]; try discriminate. destruct H. discriminate.
Qed.
