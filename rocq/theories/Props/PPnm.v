(* C22 - C24, C72: netpbm.hh *)
From Coq Require Import Reals Lra.
From Verif Require Import Proofs.BaseLemmas Proofs.WavProofs Proofs.WavRead Spec.Wav Spec.Pnm Model.Netpbm
  Proofs.PnmParse Proofs.PnmPixels Proofs.PnmCurve.
Open Scope Z_scope.

(** ** C22 *)
(** The header WritePNM emits is parsed to the same values, whatever follows it, and the reader is
    positioned exactly behind it. *)
Theorem C22_header_roundtrip :
  forall width height maxval mono, 0 <= width <= INT_MAX -> 0 <= height <= INT_MAX -> 0 <= maxval <= INT_MAX ->
  let header := file_of (oputs (q_os (wpnm_open width height mono maxval))) in
  forall pixels, exists r, rpnm_open (iopen (header ++ pixels)) = Ok r /\
    p_width r = Some width /\ p_height r = Some height /\ p_maxval r = Some maxval /\ p_mono r = Some mono /\
    rpnm_good r = true /\ ipos (p_is r) = zlen header.
Proof.
  intros w h m mono Hw Hh Hm header pixels. unfold header. rewrite wpnm_open_file. cbn [q_os]. rewrite file_at_end.
  eexists. split; [apply (open_header mono w h m); [apply wheader_header; auto| lia..]|]. splits; reflexivity.
Qed.
Print Assumptions C22_header_roundtrip.

Example C22_example :
  file_of (oputs (q_os (wpnm_open 640 9 false 255))) = [80; 54; 32; 54; 52; 48; 32; 57; 32; 50; 53; 53; 10] /\
  exists r, rpnm_open (iopen ([80; 54; 32; 54; 52; 48; 32; 57; 32; 50; 53; 53; 10] ++ [1; 2])) = Ok r /\
    p_width r = Some 640 /\ ipos (p_is r) = 13.
Proof. split; [vm_compute; reflexivity|]. eexists. split; [vm_compute; reflexivity|]. split; reflexivity. Qed.

(** a negative dimension is written but cannot be read back *)
Theorem C22_negative_refuted :
  exists width, INT_MIN <= width <= INT_MAX /\
  forall r, rpnm_open (iopen (file_of (oputs (q_os (wpnm_open width 1 true 255))))) = Ok r -> p_width r <> Some width.
Proof. exists (-5). split; [unfold INT_MIN, INT_MAX; lia|]. intros r. vm_compute. intros E. injection E as <-. discriminate. Qed.
Print Assumptions C22_negative_refuted.

(** ** C23 *)
Theorem C23_codes_survive :
  forall maxval code, 1 <= maxval <= 255 -> 0 <= code <= maxval -> pnm_srgb maxval (pnm_linear maxval code) = code.
Proof.
  intros m v Hm Hv. apply code_roundtrip; auto. pose proof (linear_range m v Hm Hv).
  rewrite Rminus_diag_eq, Rabs_R0 by auto. lra.
Qed.
Print Assumptions C23_codes_survive.

(** also if linear() is computed with a relative error of up to 10^-6 *)
Theorem C23_codes_survive_inexact :
  forall maxval code x, 1 <= maxval <= 255 -> 0 <= code <= maxval ->
  (Rabs (x - pnm_linear maxval code) <= 0.000001 * pnm_linear maxval code)%R -> pnm_srgb maxval x = code.
Proof. exact code_roundtrip. Qed.
Print Assumptions C23_codes_survive_inexact.

Theorem C23_srgb_monotone :
  forall maxval a b, 1 <= maxval <= 255 -> (a <= b)%R -> pnm_srgb maxval a <= pnm_srgb maxval b.
Proof. exact srgb_mono. Qed.
Print Assumptions C23_srgb_monotone.

(** for maxvals beyond 255 the two segments of the curve do not fit together well enough *)
Theorem C23_large_maxval_monotone_refuted :
  exists a b, (a <= b)%R /\ pnm_srgb 2089 b < pnm_srgb 2089 a.
Proof. exact srgb_not_mono. Qed.
Print Assumptions C23_large_maxval_monotone_refuted.

Theorem C23_srgb_clamps :
  forall maxval x, ((x <= 0)%R -> pnm_srgb maxval x = 0) /\ ((1 <= x)%R -> pnm_srgb maxval x = maxval).
Proof. exact srgb_clamp. Qed.
Print Assumptions C23_srgb_clamps.

Theorem C23_srgb_range : forall maxval x, 1 <= maxval <= 255 -> 0 <= pnm_srgb maxval x <= maxval.
Proof.
  intros m x Hm. destruct (srgb_clamp m x) as [H0 H1].
  destruct (Rle_dec x 0) as [A|A]; [rewrite H0 by auto; lia|]. destruct (Rle_dec 1 x) as [B|B]; [rewrite H1 by auto; lia|].
  split.
  - rewrite <- (srgb_0 m). apply srgb_mono; auto. lra.
  - rewrite <- (srgb_1 m) at 2. apply srgb_mono; auto. lra.
Qed.
Print Assumptions C23_srgb_range.

(** whole images: reading the pixels of a file and writing them again gives the same file *)
Theorem C23_image_roundtrip :
  forall mono width height maxval codes num buf,
  0 <= width <= INT_MAX -> 0 <= height <= INT_MAX -> 1 <= maxval <= 255 -> 0 <= num ->
  let ch := if mono : bool then 1 else 3 in
  zlen codes = num * ch -> zlen buf = num * ch -> num * ch <= INT_MAX -> Forall (fun c => 0 <= c <= maxval) codes ->
  let w0 := wpnm_open width height mono maxval in
  let file := file_of (oputs (q_os w0)) ++ codes in
  exists r buf' r' w,
    rpnm_open (iopen file) = Ok r /\ rpnm_read pnm_linear r buf num (-1) = Ok (buf', r') /\ rpnm_good r' = true /\
    wpnm_write pnm_srgb w0 buf' num (-1) = Ok w /\ file_of (oputs (q_os w)) = file.
Proof.
  intros mono w h m codes num buf Hw Hh Hm Hn ch Lc Lb Hi HF w0 file. unfold file, w0. clear file w0. rewrite wpnm_open_file. cbn [q_os]. rewrite file_at_end.
  set (hd := wheader mono w h m).
  assert (Hch : 1 <= ch) by (unfold ch; destruct mono; lia).
  eexists. 
  assert (BO : forall b, zlen b = num * ch -> @buf_ok R b num (pnm_ch mono) (-1)).
  { intros b Hb. assert (E : pnm_ch mono = ch) by reflexivity. rewrite E. unfold buf_ok, eff_stride. cbn. splits; auto; try lia; intros; nia. }
  destruct (rpnm_read_ok pnm_linear (hd ++ codes) mono (Some w) (Some h) m (zlen hd) (strm hd codes) buf num (-1)) as (buf' & s' & ER & SQ & L' & U' & V').
  { apply zlen_nonneg. } { left. rewrite zlen_app. pose proof (zlen_nonneg codes). split; [lia|]. apply strm_atp. } { apply BO; auto. }
  exists buf'. do 2 eexists. split.
  { apply (open_header mono w h m); [apply wheader_header; auto; unfold INT_MAX in *; lia|lia| lia|unfold INT_MAX; lia]. }
  split; [exact ER|]. split.
  { unfold rpnm_good. cbn [p_is]. destruct SQ as [[_ ->] | [C _]]; [reflexivity|].
    rewrite zlen_app in C. change (pnm_ch mono) with ch in C. lia. }
  assert (E : buf' = map (pnm_linear m) codes).
  { apply list_eq_znth. { unfold zlen in *. rewrite map_length. lia. }
    intros i Hi'. change (eff_stride (pnm_ch mono) (-1)) with ch in V'. change (pnm_ch mono) with ch in V'.
    rewrite L', Lb in Hi'.
    specialize (V' ltac:(lia) (i / ch) (i mod ch)). rewrite <- Z.div_mod in V' by lia.
    pose proof (Z.mod_pos_bound i ch ltac:(lia)). pose proof (Z.div_mod i ch ltac:(lia)).
    rewrite V'; auto.
    2:{ split. apply Z.div_pos; lia. apply Z.div_lt_upper_bound; nia. }
    replace (zlen hd + i / ch * ch + i mod ch) with (zlen hd + i) by lia.
    unfold byte_or_eof. pose proof (zlen_nonneg hd). rewrite znth_app by lia. destruct (Z.ltb_spec (zlen hd + i) (zlen hd)); [lia|].
    replace (zlen hd + i - zlen hd) with i by lia.
    destruct (znth_in_range codes i ltac:(lia)) as (v & Hv). rewrite Hv. rewrite znth_nonneg in Hv by lia. rewrite znth_nonneg by lia. rewrite nth_error_map, Hv. reflexivity. }
  split.
  { rewrite wpnm_write_ok; [reflexivity|]. apply BO. lia. }
  cbn [q_os set_qos q_maxval q_mono]. rewrite at_end_write, file_at_end. f_equal.
  change (eff_stride (pnm_ch mono) (-1)) with ch. change (pnm_ch mono) with ch.
  rewrite strided_contiguous by lia. rewrite E, map_map. rewrite <- (map_id codes) at 2. apply map_ext_in. intros c Hc.
  rewrite Forall_forall in HF. specialize (HF c Hc). rewrite C23_codes_survive by auto. apply Z.mod_small. lia.
Qed.
Print Assumptions C23_image_roundtrip.

Example C23_example : zlen [0; 255; 17; 200; 3; 90] = 2 * 3 /\ Forall (fun c => 0 <= c <= 255) [0; 255; 17; 200; 3; 90].
Proof. split; [reflexivity|]. repeat constructor; lia. Qed.

(** read() stores value c of pixel n at stride*n + c and touches nothing else; bytes are taken in order *)
Theorem C23_read_cells :
  forall (T : Type) (lin : Z -> Z -> T) file r mono maxval, rpnm_open (iopen file) = Ok r -> p_maxval r = Some maxval -> p_mono r = Some mono ->
  let ch := if mono : bool then 1 else 3 in
  forall buf num stride, buf_ok buf num ch stride ->
  exists buf' r', rpnm_read lin r buf num stride = Ok (buf', r') /\ zlen buf' = zlen buf /\
    (forall i, (forall n c, 0 <= n < num -> 0 <= c < ch -> i <> eff_stride ch stride * n + c) -> znth buf' i = znth buf i) /\
    (ch <= eff_stride ch stride -> forall n c b, 0 <= n < num -> 0 <= c < ch -> znth file (ipos (p_is r) + n * ch + c) = Some b ->
      znth buf' (eff_stride ch stride * n + c) = Some (lin maxval b)).
Proof.
  intros T lin file r mono mv EO EM EB ch buf num stride HB.
  destruct (open_cases file) as [(s & mo & E) | [(mo & w & h & m & text & rest & Ef & Hh & _ & _ & _ & E) | (_ & E)]];
    rewrite E in EO; try discriminate.
  - injection EO as <-. discriminate.
  - injection EO as <-. cbn [opened p_maxval p_mono] in EM, EB. injection EM as ->. injection EB as ->.
    destruct (rpnm_read_ok lin file mono (Some w) (Some h) mv (zlen text) (strm text rest) buf num stride) as (buf' & s' & ER & SQ & L' & U' & V').
    { apply zlen_nonneg. } { left. rewrite Ef, zlen_app. pose proof (zlen_nonneg rest). split; [lia|]. apply strm_atp. } { exact HB. }
    exists buf'. eexists. splits; [exact ER|auto|auto|]. intros Hst n c b Hn Hc Hb. cbn [opened p_is strm ipos] in Hb.
    rewrite V' by auto. unfold byte_or_eof. change (pnm_ch mono) with ch. now rewrite Hb.
Qed.
Print Assumptions C23_read_cells.

(** ** C24 *)
(** On every byte string the constructor ends: normally, or by overflowing a number. *)
Theorem C24_terminates :
  forall file, (exists r, rpnm_open (iopen file) = Ok r) \/ rpnm_open (iopen file) = Undefined.
Proof.
  intros file. destruct (open_cases file) as [(s & mo & E) | [(mo & w & h & m & text & rest & _ & _ & _ & _ & _ & E) | (_ & E)]]; eauto.
Qed.
Print Assumptions C24_terminates.

(** The behaviour is undefined exactly if a number of the header, those before it being in range, is beyond INT_MAX. *)
Theorem C24_undefined_iff :
  forall file, rpnm_open (iopen file) = Undefined <-> pnm_overflow 2147483647 file.
Proof.
  intros file. split; [|apply open_over]. intros E.
  destruct (open_cases file) as [(s & mo & E') | [(mo & w & h & m & text & rest & _ & _ & _ & _ & _ & E') | (H & E')]];
    rewrite E' in E; try discriminate. exact H.
Qed.
Print Assumptions C24_undefined_iff.

(** Exactly the files beginning with a well-formed header whose numbers fit into an int are accepted, the
    reported values are those of the header (comments do not count) and the stream is positioned behind it. *)
Theorem C24_accepts_exactly_headers :
  forall file mono width height maxval p,
  (exists r, rpnm_open (iopen file) = Ok r /\ p_width r = Some width /\ p_height r = Some height /\
     p_maxval r = Some maxval /\ p_mono r = Some mono /\ rpnm_good r = true /\ ipos (p_is r) = p)
  <-> (exists text rest, file = text ++ rest /\ pnm_header mono width height maxval text /\ zlen text = p /\
        width <= INT_MAX /\ height <= INT_MAX /\ maxval <= INT_MAX).
Proof.
  intros file mono w h m p. split.
  - intros (r & E & E1 & E2 & E3 & E4 & Hg & Hp).
    destruct (open_cases file) as [(s & mo & E') | [(mo & w' & h' & m' & text & rest & Ef & Hh & B1 & B2 & B3 & E') | (_ & E')]];
      rewrite E' in E; try discriminate.
    + injection E as <-. discriminate.
    + injection E as <-. cbn in E1, E2, E3, E4. injection E1 as ->. injection E2 as ->. injection E3 as ->. injection E4 as ->.
      exists text, rest. splits; auto.
  - intros (text & rest & -> & Hh & Hp & B1 & B2 & B3). eexists. split; [apply open_header; eauto|]. splits; auto.
Qed.
Print Assumptions C24_accepts_exactly_headers.

(** A rejected header leaves width, height and maxval unset. *)
Theorem C24_rejects_leave_fields_unset :
  forall file r, rpnm_open (iopen file) = Ok r -> 
  (forall mono w h m text rest, file = text ++ rest -> w <= INT_MAX -> h <= INT_MAX -> m <= INT_MAX -> ~ pnm_header mono w h m text) ->
  p_width r = None /\ p_height r = None /\ p_maxval r = None.
Proof.
  intros file r E H.
  destruct (open_cases file) as [(s & mo & E') | [(mo & w' & h' & m' & text & rest & Ef & Hh & B1 & B2 & B3 & E') | (_ & E')]];
    rewrite E' in E; try discriminate.
  - injection E as <-. auto.
  - exfalso. exact (H mo w' h' m' text rest Ef B1 B2 B3 Hh).
Qed.
Print Assumptions C24_rejects_leave_fields_unset.

(** Inserting a comment line after a line feed that follows a token does not change the parsed values. *)
Theorem C24_comment_invisible :
  forall s c, ~ In 10 c -> separator (10 :: s) -> separator (10 :: comment_line c ++ s).
Proof.
  intros s c Hc (b & cs & sp & Hb & Hcs & Ho & Hsp & E). injection E as <- ->.
  exists 10, (c :: cs), sp. splits; auto. cbn [map concat]. rewrite <- app_assoc. reflexivity.
Qed.
Print Assumptions C24_comment_invisible.

(** "P6\n# hi\n3 2\n#\n#x\n255\n" *)
Example C24_example : exists r,
  rpnm_open (iopen [80; 54; 10; 35; 32; 104; 105; 10; 51; 32; 50; 10; 35; 10; 35; 120; 10; 50; 53; 53; 10; 7]) = Ok r /\
  p_width r = Some 3 /\ p_height r = Some 2 /\ p_maxval r = Some 255 /\ ipos (p_is r) = 21.
Proof. eexists. split; [vm_compute; reflexivity|]. splits; reflexivity. Qed.

Example C24_overflow_example : pnm_overflow 2147483647 ([80; 53; 32; 57; 32] ++ [50; 49; 52; 55; 52; 56; 51; 54; 52; 56]).
Proof.
  exists true, [([32], [57])], [32], [50; 49; 52; 55; 52; 56; 51; 54; 52; 56], 2147483648, []. splits; try reflexivity.
  - cbn. auto.
  - repeat constructor; cbn.
    + exists 32, [], []. unfold ws. splits; auto.
    + exists 9. split; [|lia]. unfold number, dig. splits; [discriminate|repeat constructor; lia|reflexivity].
  - exists 32, [], []. unfold ws. splits; auto.
  - unfold number, dig. splits; [discriminate|repeat constructor; lia|reflexivity].
Qed.

(** a rejected header is not visible through good(): "P4 1 1 1\n" *)
Theorem C24_rejection_invisible_refuted :
  exists file r, rpnm_open (iopen file) = Ok r /\ rpnm_good r = true /\ p_width r = None /\ p_mono r = None.
Proof. exists [80; 52; 32; 49; 32; 49; 32; 49; 10]. eexists. split; [vm_compute; reflexivity|]. splits; reflexivity. Qed.
Print Assumptions C24_rejection_invisible_refuted.

(** a comment line following a blank line, or a comment behind a token, makes a valid file unreadable *)
Theorem C24_comment_after_blank_line_refuted :
  exists a b r, rpnm_open (iopen (a ++ comment_line [120] ++ b)) = Ok r /\ p_width r = None /\
    exists r', rpnm_open (iopen (a ++ b)) = Ok r' /\ p_width r' = Some 3.
Proof.
  exists [80; 53; 10; 10], [51; 10; 52; 10; 53; 10]. eexists. split; [vm_compute; reflexivity|]. split; [reflexivity|].
  eexists. split; [vm_compute; reflexivity|]. reflexivity.
Qed.
Print Assumptions C24_comment_after_blank_line_refuted.

(** a header with a number beyond INT_MAX overflows: "P5 9999999999 1 1\n" *)
Theorem C24_overflow_refuted :
  exists file, rpnm_open (iopen file) = Undefined.
Proof. exists [80; 53; 32; 57; 57; 57; 57; 57; 57; 57; 57; 57; 57; 32; 49; 32; 49; 10]. vm_compute. reflexivity. Qed.
Print Assumptions C24_overflow_refuted.

(** ** C72 *)
(** good() stays true exactly as long as all requested pixels are present *)
Theorem C72_end_of_image_observable :
  forall (T : Type) (lin : Z -> Z -> T) file r mono maxval, rpnm_open (iopen file) = Ok r -> p_maxval r = Some maxval -> p_mono r = Some mono ->
  let ch := if mono : bool then 1 else 3 in
  forall buf num stride, buf_ok buf num ch stride ->
  exists buf' r', rpnm_read lin r buf num stride = Ok (buf', r') /\
    (rpnm_good r' = true <-> ipos (p_is r) + num * ch <= zlen file) /\
    (rpnm_good r' = true -> ipos (p_is r') = ipos (p_is r) + num * ch).
Proof.
  intros T lin file r mono mv EO EM EB ch buf num stride HB.
  destruct (open_cases file) as [(s & mo & E) | [(mo & w & h & m & text & rest & Ef & Hh & _ & _ & _ & E) | (_ & E)]];
    rewrite E in EO; try discriminate.
  - injection EO as <-. discriminate.
  - injection EO as <-. cbn [opened p_maxval p_mono] in EM, EB. injection EM as ->. injection EB as ->.
    destruct (rpnm_read_ok lin file mono (Some w) (Some h) mv (zlen text) (strm text rest) buf num stride) as (buf' & s' & ER & SQ & _).
    { apply zlen_nonneg. } { left. rewrite Ef, zlen_app. pose proof (zlen_nonneg rest). split; [lia|]. apply strm_atp. } { exact HB. }
    exists buf'. eexists. split; [exact ER|]. unfold rpnm_good. cbn [p_is opened strm ipos]. change (pnm_ch mono) with ch in SQ.
    destruct SQ as [[H1 ->] | [H1 H2]].
    + cbn. splits; auto. tauto.
    + unfold igood. rewrite H2, andb_false_r. split; [|discriminate]. split; [discriminate|lia].
Qed.
Print Assumptions C72_end_of_image_observable.
