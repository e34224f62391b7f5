From Coq Require Import String.
From Verif Require Import Proofs.BaseLemmas Proofs.ContainerProofs Model.Wav Spec.Wav.
Import List.ListNotations.
Open Scope list_scope.
Open Scope Z_scope.

(** ** Bit level lemmas *)
Lemma lor_shift a c k : 0 <= k -> 0 <= a < 2 ^ k -> Z.lor a (c * 2 ^ k) = a + c * 2 ^ k.
Proof.
  intros Hk Ha. rewrite <- Z.shiftl_mul_pow2 by lia. symmetry.
  assert (E : Z.land a (Z.shiftl c k) = 0).
  { apply Z.bits_inj'. intros n Hn. rewrite Z.land_spec, Z.bits_0. destruct (Z_lt_dec n k).
    - rewrite Z.shiftl_spec_low by lia. apply andb_false_r.
    - rewrite <- (Z.mod_small a (2 ^ k)) by lia. rewrite Z.mod_pow2_bits_high by lia. reflexivity. }
  rewrite Z.add_nocarry_lxor by auto. now rewrite Z.lxor_lor.
Qed.

Lemma byte_of v i : 0 <= i -> Z.land 255 (Z.shiftr v (8 * i)) = (v / 256 ^ i) mod 256.
Proof.
  intros Hi. rewrite Z.land_comm. change 255 with (Z.ones 8). rewrite Z.land_ones by lia.
  rewrite Z.shiftr_div_pow2 by lia. change 256 with (2 ^ 8) at 1. rewrite <- Z.pow_mul_r by lia. reflexivity.
Qed.

Lemma sign_ext_lor v k : 0 <= k -> 2 ^ k <= v < 2 * 2 ^ k -> Z.lor v (Z.lnot (2 ^ k - 1)) = v - 2 * 2 ^ k.
Proof.
  intros Hk Hv. replace (Z.lnot (2 ^ k - 1)) with (- 1 * 2 ^ k) by (unfold Z.lnot; lia).
  replace v with ((v - 2 ^ k) + 1 * 2 ^ k) at 1 by lia.
  rewrite <- lor_shift by lia. rewrite <- Z.lor_assoc.
  rewrite <- !Z.shiftl_mul_pow2 by lia. rewrite <- Z.shiftl_lor. change (Z.lor 1 (-1)) with (-1).
  rewrite !Z.shiftl_mul_pow2 by lia. rewrite lor_shift by lia. lia.
Qed.

Lemma int32_small z : INT_MIN <= z <= INT_MAX -> int32 z = z.
Proof. unfold int32, INT_MIN, INT_MAX. intros H. rewrite Z.mod_small; lia. Qed.

(** ** Reading *)
Definition strm (pre bs : list Z) : istream :=
  {| ibytes := pre ++ bs; ipos := zlen pre; ieof := false; ifail := false |}.

Lemma znth_mid (pre : list Z) b bs : znth (pre ++ b :: bs) (zlen pre) = Some b.
Proof.
  rewrite znth_app by apply zlen_nonneg. destruct (Z.ltb_spec (zlen pre) (zlen pre)); [lia|].
  rewrite Z.sub_diag. reflexivity.
Qed.

Lemma iget_strm pre b bs : iget (strm pre (b :: bs)) = (b, strm (pre ++ [b]) bs).
Proof.
  unfold iget, strm, igood. cbn [ieof ifail ibytes ipos negb andb]. rewrite znth_mid.
  rewrite zlen_app, zlen_single, <- app_assoc. reflexivity.
Qed.

Lemma iread4_strm pre a b c d bs : iread 4 (strm pre (a :: b :: c :: d :: bs))
  = ([Some a; Some b; Some c; Some d], strm (pre ++ [a; b; c; d]) bs).
Proof.
  cbn [iread]. rewrite iget_strm. rewrite iget_strm. rewrite iget_strm. rewrite iget_strm.
  rewrite <- !app_assoc. reflexivity.
Qed.

Ltac bytes := repeat match goal with H : is_byte _ |- _ => unfold is_byte in H end.

Lemma readLE1_strm pre b bs : is_byte b -> readLE 1 (strm pre (b :: bs)) = (b, strm (pre ++ [b]) bs).
Proof.
  intros. bytes. unfold readLE. change (Z.to_nat 1) with 1%nat. cbn [readLE_loop]. rewrite iget_strm.
  change (Z.shiftl b (8 * 0)) with b. rewrite int32_small by (unfold INT_MIN, INT_MAX; lia).
  rewrite Z.lor_0_l. reflexivity.
Qed.

Lemma shl8 b k : 0 <= k -> Z.shiftl b (8 * k) = b * 2 ^ (8 * k).
Proof. intros. apply Z.shiftl_mul_pow2. lia. Qed.

Lemma readLE2_strm pre b0 b1 bs : is_byte b0 -> is_byte b1 ->
  readLE 2 (strm pre (b0 :: b1 :: bs)) = (sval [b0; b1], strm (pre ++ [b0; b1]) bs).
Proof.
  intros. bytes. unfold readLE. change (Z.to_nat 2) with 2%nat. cbn [readLE_loop]. rewrite iget_strm. rewrite iget_strm.
  rewrite <- app_assoc. cbn [app].
  change (Z.shiftl b0 (8 * 0)) with b0. rewrite shl8 by lia.
  rewrite !int32_small by (unfold INT_MIN, INT_MAX; lia).
  rewrite Z.lor_0_l. change (2 ^ (8 * (0 + 1))) with (2 ^ 8). rewrite lor_shift by lia.
  f_equal. unfold sval. cbn [uval]. change (256 ^ zlen [b0; b1]) with 65536. change (2 =? 3) with false. change (2 =? 2) with true. cbn [andb].
  change (2 ^ 8) with 256. destruct (Z.ltb_spec 32767 (b0 + b1 * 256)), (Z.ltb_spec (2 * (b0 + 256 * (b1 + 256 * 0))) 65536); try lia.
  change 32767 with (2 ^ 15 - 1). rewrite sign_ext_lor by lia. lia.
Qed.

Lemma int32_top b : is_byte b -> int32 (b * 2 ^ 24) = (if b <? 128 then b else b - 256) * 2 ^ 24.
Proof.
  intros. bytes. unfold int32. change (2 ^ 24) with 16777216. destruct (Z.ltb_spec b 128).
  - rewrite Z.mod_small; lia.
  - replace (b * 16777216 + 2147483648) with ((b - 256) * 16777216 + 2147483648 + 1 * 4294967296) by lia.
    rewrite Z_mod_plus_full, Z.mod_small; lia.
Qed.

Lemma readLE4_strm pre b0 b1 b2 b3 bs : is_byte b0 -> is_byte b1 -> is_byte b2 -> is_byte b3 ->
  readLE 4 (strm pre (b0 :: b1 :: b2 :: b3 :: bs)) = (sval [b0; b1; b2; b3], strm (pre ++ [b0; b1; b2; b3]) bs).
Proof.
  intros ? ? ? H3. unfold readLE. change (Z.to_nat 4) with 4%nat. cbn [readLE_loop].
  rewrite iget_strm. rewrite iget_strm. rewrite iget_strm. rewrite iget_strm.
  rewrite <- !app_assoc. cbn [app].
  change (Z.shiftl b0 (8 * 0)) with b0. rewrite !shl8 by lia.
  change (2 ^ (8 * (0 + 1))) with (2 ^ 8). change (2 ^ (8 * (0 + 1 + 1))) with (2 ^ 16). change (2 ^ (8 * (0 + 1 + 1 + 1))) with (2 ^ 24).
  rewrite int32_top by auto.
  bytes. rewrite !(int32_small) by (unfold INT_MIN, INT_MAX; lia).
  rewrite Z.lor_0_l. rewrite (lor_shift b0) by lia. rewrite (lor_shift (b0 + b1 * 2 ^ 8)) by lia.
  rewrite lor_shift by lia. change (4 =? 2) with false. change (4 =? 3) with false. cbn [andb].
  f_equal. unfold sval. cbn [uval]. change (256 ^ zlen [b0; b1; b2; b3]) with 4294967296.
  change (2 ^ 8) with 256. change (2 ^ 16) with 65536. change (2 ^ 24) with 16777216.
  destruct (Z.ltb_spec b3 128); destruct (Z.ltb_spec (2 * (b0 + 256 * (b1 + 256 * (b2 + 256 * (b3 + 256 * 0))))) 4294967296); lia.
Qed.

(** ** Little endian fields *)
Lemma le1 v : le 1 v = [v mod 256].
Proof. unfold le. cbn [seq map]. now rewrite Z.div_1_r. Qed.
Lemma le2 v : le 2 v = [v mod 256; (v / 256) mod 256].
Proof. unfold le. cbn [seq map]. rewrite Z.div_1_r. reflexivity. Qed.
Lemma le4 v : le 4 v = [v mod 256; (v / 256) mod 256; (v / 65536) mod 256; (v / 16777216) mod 256].
Proof. unfold le. cbn [seq map]. rewrite Z.div_1_r. reflexivity. Qed.
Lemma le_length n v : length (le n v) = n.
Proof. unfold le. now rewrite map_length, seq_length. Qed.
Lemma zlen_le n v : zlen (le n v) = Z.of_nat n.
Proof. unfold zlen. now rewrite le_length. Qed.

Lemma is_byte_mod v : is_byte (v mod 256).
Proof. apply Z.mod_pos_bound. lia. Qed.
Lemma le_bytes n v : Forall is_byte (le n v).
Proof. unfold le. apply Forall_map. apply Forall_forall. intros. apply is_byte_mod. Qed.

Lemma sval_le2 v : -32768 <= v <= 32767 -> sval (le 2 v) = v.
Proof.
  intros H. rewrite le2. unfold sval. cbn [uval]. change (256 ^ zlen [v mod 256; (v / 256) mod 256]) with 65536.
  pose proof (Z.div_mod v 256 ltac:(lia)). pose proof (Z.mod_pos_bound v 256 ltac:(lia)).
  pose proof (Z.div_mod (v / 256) 256 ltac:(lia)). pose proof (Z.mod_pos_bound (v / 256) 256 ltac:(lia)).
  destruct (Z.ltb_spec (2 * (v mod 256 + 256 * ((v / 256) mod 256 + 256 * 0))) 65536); nia.
Qed.
Lemma sval_le4 v : INT_MIN <= v <= INT_MAX -> sval (le 4 v) = v.
Proof.
  unfold INT_MIN, INT_MAX. intros H. rewrite le4. unfold sval. cbn [uval].
  match goal with |- context [256 ^ zlen ?l] => change (256 ^ zlen l) with 4294967296 end.
  replace (v / 65536) with (v / 256 / 256) by (rewrite Z.div_div by lia; reflexivity).
  replace (v / 16777216) with (v / 256 / 256 / 256) by (rewrite !Z.div_div by lia; reflexivity).
  pose proof (Z.div_mod v 256 ltac:(lia)). pose proof (Z.mod_pos_bound v 256 ltac:(lia)).
  set (a := v / 256) in *.
  pose proof (Z.div_mod a 256 ltac:(lia)). pose proof (Z.mod_pos_bound a 256 ltac:(lia)).
  set (b := a / 256) in *.
  pose proof (Z.div_mod b 256 ltac:(lia)). pose proof (Z.mod_pos_bound b 256 ltac:(lia)).
  set (c := b / 256) in *.
  pose proof (Z.div_mod c 256 ltac:(lia)). pose proof (Z.mod_pos_bound c 256 ltac:(lia)).
  match goal with |- context [?p <? ?q] => destruct (Z.ltb_spec p q) end; lia.
Qed.
Lemma sample_val_le1 v : 0 <= v <= 255 -> sample_val (le 1 v) = v.
Proof. intros H. rewrite le1. unfold sample_val. cbn. rewrite Z.mod_small; lia. Qed.

Lemma readLE4_le pre v bs : INT_MIN <= v <= INT_MAX -> readLE 4 (strm pre (le 4 v ++ bs)) = (v, strm (pre ++ le 4 v) bs).
Proof.
  intros H. rewrite <- (sval_le4 v H) at 2. rewrite le4. cbn [app]. apply readLE4_strm; apply is_byte_mod.
Qed.
Lemma readLE2_le pre v bs : -32768 <= v <= 32767 -> readLE 2 (strm pre (le 2 v ++ bs)) = (v, strm (pre ++ le 2 v) bs).
Proof.
  intros H. rewrite <- (sval_le2 v H) at 2. rewrite le2. cbn [app]. apply readLE2_strm; apply is_byte_mod.
Qed.
Lemma readLE4_field pre f bs : length f = 4%nat -> Forall is_byte f ->
  readLE 4 (strm pre (f ++ bs)) = (sval f, strm (pre ++ f) bs).
Proof.
  destruct f as [|a [|b [|c [|d [|]]]]]; try discriminate. intros _ H.
  inversion_clear H as [|? ? Ba H1]. inversion_clear H1 as [|? ? Bb H2]. inversion_clear H2 as [|? ? Bc H3]. inversion_clear H3 as [|? ? Bd _].
  cbn [app]. now apply readLE4_strm.
Qed.

(** what the constructor makes of a file with a canonical header *)
Definition hdr_frames (bits channels : Z) (chunk frames data : list Z) : Z :=
  if (sval data <=? 0) || (sval chunk <=? 0) then -1
  else if bits =? 32 then sval frames else sval data / (bits / 8 * channels).

Definition mk_rwav (s : istream) (rate bits channels frames : Z) : rwav :=
  {| r_is := s; r_bits := Some bits; r_bytes := Some (bits / 8); r_rate := Some rate; r_channels := Some channels;
     r_frames := Some frames;
     r_offset := Some (if bits =? 8 then 128 else 0);
     r_factor := Some (if bits =? 8 then 127 else if bits =? 16 then 32767 else 1) |}.

Definition fields_ok (chunk frames data : list Z) : Prop :=
  length chunk = 4%nat /\ length frames = 4%nat /\ length data = 4%nat /\
  Forall is_byte chunk /\ Forall is_byte frames /\ Forall is_byte data.

Lemma chars_RIFF : chars "RIFF" = [82; 73; 70; 70]. Proof. reflexivity. Qed.
Lemma chars_WAVE : chars "WAVE" = [87; 65; 86; 69]. Proof. reflexivity. Qed.
Lemma chars_fmt : chars "fmt " = [102; 109; 116; 32]. Proof. reflexivity. Qed.
Lemma chars_fact : chars "fact" = [102; 97; 99; 116]. Proof. reflexivity. Qed.
Lemma chars_data : chars "data" = [100; 97; 116; 97]. Proof. reflexivity. Qed.

Lemma cmp4_refl a b c d : cmp4 [a; b; c; d] [Some a; Some b; Some c; Some d] = Ok false.
Proof. cbn [cmp4]. now rewrite !Z.eqb_refl. Qed.

Lemma iread4_lit pre a b c d bs : iread 4 (strm pre ([a; b; c; d] ++ bs))
  = ([Some a; Some b; Some c; Some d], strm (pre ++ [a; b; c; d]) bs).
Proof. apply iread4_strm. Qed.

Lemma open_riff rate bits channels chunk frames data samples :
  wav_params rate bits channels -> fields_ok chunk frames data ->
  (0 < sval data -> 0 < sval chunk -> sval data + overhead bits - 8 = sval chunk /\ sval data + overhead bits <= INT_MAX) ->
  rwav_open (iopen (riff rate bits channels chunk frames data ++ samples))
  = Ok (mk_rwav (strm (riff rate bits channels chunk frames data) samples) rate bits channels
        (hdr_frames bits channels chunk frames data)).
Proof.
  intros (Hb & Hc & Hcb & Hr & Hrr) (Lc & Lf & Ld & Fc & Ff & Fd) Hsz.
  change (iopen (riff rate bits channels chunk frames data ++ samples))
    with (strm [] (riff rate bits channels chunk frames data ++ samples)).
  remember (riff rate bits channels chunk frames data) as W eqn:EW. unfold riff in EW.
  rewrite chars_RIFF, chars_WAVE, chars_fmt, chars_fact, chars_data in EW.
  assert (Hbytes : (bits = 8 /\ bits / 8 = 1) \/ (bits = 16 /\ bits / 8 = 2) \/ (bits = 32 /\ bits / 8 = 4)).
  { destruct Hb as [-> | [-> | ->]]; auto. }
  assert (Hch : -32768 <= channels <= 32767) by lia.
  assert (Hq : Z.quot bits 8 = bits / 8) by (destruct Hb as [-> | [-> | ->]]; reflexivity).
  unfold rwav_open. cbn zeta.
  rewrite EW at 1. rewrite <- !app_assoc. rewrite iread4_lit. rewrite chars_RIFF, cmp4_refl. cbn [bind].
  rewrite readLE4_field by auto. rewrite iread4_lit, chars_WAVE, cmp4_refl. cbn [bind].
  rewrite iread4_lit, chars_fmt, cmp4_refl. cbn [bind].
  rewrite readLE4_le by (destruct (bits =? 32); unfold INT_MIN, INT_MAX; lia).
  rewrite readLE2_le by (destruct (bits =? 32); lia).
  rewrite readLE2_le by lia. rewrite readLE4_le by lia. rewrite readLE4_le by lia. rewrite readLE2_le by lia.
  rewrite readLE2_le by lia. rewrite Hq. clear Hq.
  assert (I1 : ichk (bits / 8 * channels) = Ok (channels * (bits / 8))).
  { rewrite Z.mul_comm. apply ichk_ok. unfold INT_MIN, INT_MAX. lia. }
  assert (I2 : ichk (rate * (bits / 8)) = Ok (rate * (bits / 8))).
  { apply ichk_ok. unfold INT_MIN, INT_MAX in *. nia. }
  assert (I3 : ichk (rate * (bits / 8) * channels) = Ok (rate * channels * (bits / 8))).
  { replace (rate * (bits / 8) * channels) with (rate * channels * (bits / 8)) by ring. apply ichk_ok. lia. }
  assert (Eoh : (if bits =? 32 then 58 else 44) = overhead bits) by reflexivity.
  assert (Idata : forall s' : istream, forall fr2 : option Z,
     (bits =? 32 = true -> fr2 = Some (sval frames)) ->
     ('(early, frames0) <-
      (if (sval data <=? 0) || (sval chunk <=? 0) then Ok (false, Some (-1))
       else so <- ichk (sval data + (if bits =? 32 then 58 else 44)) ;; so <- ichk (so - 8) ;;
         if negb (so =? sval chunk) then Ok (true, fr2)
         else if (if bits =? 32 then 18 else 16) =? 16 then 
              if channels * (bits / 8) =? 0 then Undefined else Ok (false, Some (Z.quot (sval data) (channels * (bits / 8)))) else Ok (false, fr2)) ;;
      (if early : bool
       then Ok {| r_is := s'; r_bits := Some bits; r_bytes := Some (bits / 8); r_rate := Some rate;
                  r_channels := Some channels; r_frames := frames0; r_offset := None; r_factor := None |}
       else let '(offset, factor) := if bits =? 8 then (128, 127) else if bits =? 16 then (0, 32767) else (0, 1) in
         Ok {| r_is := s'; r_bits := Some bits; r_bytes := Some (bits / 8); r_rate := Some rate;
               r_channels := Some channels; r_frames := frames0; r_offset := Some offset; r_factor := Some factor |}))
     = Ok (mk_rwav s' rate bits channels (hdr_frames bits channels chunk frames data))).
  { intros s' fr2 Hfr2. unfold hdr_frames, mk_rwav.
    assert (Eof : (if bits =? 8 then (128, 127) else if bits =? 16 then (0, 32767) else (0, 1))
      = ((if bits =? 8 then 128 else 0), (if bits =? 8 then 127 else if bits =? 16 then 32767 else 1))).
    { destruct (bits =? 8), (bits =? 16); reflexivity. }
    rewrite Eof. clear Eof.
    destruct (Z.leb_spec (sval data) 0) as [H1|H1]; [reflexivity|]. destruct (Z.leb_spec (sval chunk) 0) as [H2|H2]; [reflexivity|].
    cbn [orb]. destruct (Hsz H1 H2) as [S1 S2]. rewrite Eoh.
    assert (Ho : 0 <= overhead bits) by (unfold overhead; destruct (bits =? 32); lia).
    rewrite ichk_ok by (unfold INT_MIN in *; lia). cbn [bind].
    rewrite ichk_ok by (unfold INT_MIN in *; lia). cbn [bind].
    rewrite S1, Z.eqb_refl. cbn [negb].
    destruct (bits =? 32) eqn:E32.
    - rewrite Hfr2 by auto. reflexivity.
    - change (16 =? 16) with true. cbn iota.
      destruct (Z.eqb_spec (channels * (bits / 8)) 0); [nia|]. cbn [bind].
      rewrite Z.quot_div_nonneg by nia. rewrite (Z.mul_comm channels). reflexivity. }
  destruct Hbytes as [[Eb _] | [[Eb _] | [Eb _]]]; rewrite Eb in *; cbn [Z.eqb Pos.eqb negb andb orb];
    rewrite I1; cbn [bind]; rewrite Z.eqb_refl; cbn [negb]; rewrite I2; cbn [bind]; rewrite I3; cbn [bind];
    rewrite Z.eqb_refl; cbn [negb bind].
  - cbn [app]. rewrite iread4_strm, chars_data, cmp4_refl. cbn [bind]. rewrite readLE4_field by auto.
    subst W. cbn [Z.eqb Pos.eqb] in Idata. cbn [Z.eqb Pos.eqb].
    etransitivity; [eapply Idata; discriminate|]. do 2 f_equal. f_equal. repeat (cbn [app]; rewrite <- ?app_assoc). reflexivity.
  - cbn [app]. rewrite iread4_strm, chars_data, cmp4_refl. cbn [bind]. rewrite readLE4_field by auto.
    subst W. cbn [Z.eqb Pos.eqb] in Idata. cbn [Z.eqb Pos.eqb].
    etransitivity; [eapply Idata; discriminate|]. do 2 f_equal. f_equal. repeat (cbn [app]; rewrite <- ?app_assoc). reflexivity.
  - rewrite <- !app_assoc. rewrite readLE2_le by lia. cbn [Z.eqb negb]. rewrite iread4_lit, chars_fact, cmp4_refl. cbn [bind].
    rewrite readLE4_le by (unfold INT_MIN, INT_MAX; lia). cbn [Z.eqb Pos.eqb negb]. rewrite readLE4_field by auto. cbn [bind].
    rewrite iread4_lit, chars_data, cmp4_refl. cbn [bind]. rewrite readLE4_field by auto.
    subst W. cbn [Z.eqb Pos.eqb] in Idata. cbn [Z.eqb Pos.eqb].
    etransitivity; [eapply Idata; reflexivity|]. do 2 f_equal. f_equal. repeat (cbn [app]; rewrite <- ?app_assoc). reflexivity.
Qed.

(** ** Writing *)
Fixpoint seqput (k : Z) (bs : list Z) : list (Z * Z) :=
  match bs with [] => [] | b :: bs' => (k, b) :: seqput (k + 1) bs' end.

Lemma seqput_app k a b : seqput k (a ++ b) = seqput k a ++ seqput (k + zlen a) b.
Proof.
  revert k. induction a as [|x a IH]; intros k; cbn [seqput app].
  - rewrite zlen_nil, Z.add_0_r. auto.
  - rewrite IH, zlen_cons. do 2 f_equal. f_equal. lia.
Qed.

Lemma seqput_length k bs : length (seqput k bs) = length bs.
Proof. revert k. induction bs; intros k; simpl; auto. Qed.

Lemma seqput_firstn n bs : forall k, firstn n (seqput k bs) = seqput k (firstn n bs).
Proof.
  revert bs. induction n as [|n IH]; intros bs k; [destruct bs; reflexivity|].
  destruct bs as [|b bs]; [reflexivity|]. cbn [seqput firstn]. f_equal. apply IH.
Qed.

Lemma owrite_eq cs s : owrite cs s = {| opos := opos s + zlen cs; oputs := oputs s ++ seqput (opos s) cs |}.
Proof.
  unfold owrite. revert s. induction cs as [|c cs IH]; intros s; cbn [fold_left seqput].
  - rewrite zlen_nil, Z.add_0_r, app_nil_r. destruct s; reflexivity.
  - rewrite IH. unfold oput. cbn [opos oputs]. rewrite <- app_assoc. cbn [app]. f_equal. rewrite zlen_cons. lia.
Qed.

Lemma owrite_app a b s : owrite (a ++ b) s = owrite b (owrite a s).
Proof. unfold owrite. apply fold_left_app. Qed.

Lemma writeLE_eq v b s : writeLE v b s = owrite (le (Z.to_nat b) v) s.
Proof.
  unfold writeLE, owrite, le. generalize (Z.to_nat b) as n. intros n. generalize (seq 0 n) as l. intros l. revert s.
  induction l as [|i l IH]; intros s; cbn [fold_left map]; auto. rewrite byte_of by lia. apply IH.
Qed.

Lemma store_append f bs : fold_left store (seqput (zlen f) bs) f = f ++ bs.
Proof.
  revert f. induction bs as [|b bs IH]; intros f; cbn [seqput fold_left].
  - now rewrite app_nil_r.
  - unfold store at 2. cbn [fst snd]. destruct (Z.ltb_spec (zlen f) (zlen f)); [lia|].
    replace (zlen f + 1) with (zlen (f ++ [b])) by (rewrite zlen_app, zlen_single; auto). rewrite IH, <- app_assoc. reflexivity.
Qed.

Lemma file_of_seqput bs : file_of (seqput 0 bs) = bs.
Proof. unfold file_of. change 0 with (zlen (@nil Z)). apply store_append. Qed.

Lemma store_patch new : forall a old d, length old = length new ->
  fold_left store (seqput (zlen a) new) (a ++ old ++ d) = a ++ new ++ d.
Proof.
  induction new as [|b new IH]; intros a old d L; destruct old as [|o old]; try discriminate; auto.
  cbn [seqput fold_left]. unfold store at 2. cbn [fst snd].
  pose proof (zlen_nonneg (old ++ d)).
  destruct (Z.ltb_spec (zlen a) (zlen (a ++ (o :: old) ++ d))) as [_|Hb].
  2:{ rewrite zlen_app in Hb. cbn [app] in Hb. rewrite zlen_cons in Hb. lia. }
  replace (zupd (a ++ (o :: old) ++ d) (zlen a) b) with ((a ++ [b]) ++ old ++ d).
  - replace (zlen a + 1) with (zlen (a ++ [b])) by (rewrite zlen_app, zlen_single; auto).
    rewrite IH by (simpl in L; lia). rewrite <- app_assoc. reflexivity.
  - unfold zupd, zlen. rewrite Nat2Z.id. rewrite upd_app2 by lia. rewrite Nat.sub_diag. rewrite <- app_assoc. reflexivity.
Qed.

Lemma store_patch_prefix j new a old d : length old = length new ->
  fold_left store (firstn j (seqput (zlen a) new)) (a ++ old ++ d) = a ++ (firstn j new ++ skipn j old) ++ d.
Proof.
  intros L. rewrite seqput_firstn. rewrite <- (firstn_skipn j old) at 1. rewrite <- !app_assoc.
  apply store_patch. rewrite !firstn_length. lia.
Qed.

(** the header written by the constructor *)
Definition fresh_wwav (rate bits channels : Z) (s : ostream) : wwav :=
  {| w_os := s; w_bytes := bits / 8; w_channels := channels; w_rate := rate;
     w_offset := if bits =? 8 then 128 else 0;
     w_factor := if bits =? 8 then 127 else if bits =? 16 then 32767 else 1;
     w_min := if bits =? 8 then 0 else if bits =? 16 then -32768 else -1;
     w_max := if bits =? 8 then 255 else if bits =? 16 then 32767 else 1 |}.

Definition at_end (bs : list Z) : ostream := {| opos := zlen bs; oputs := seqput 0 bs |}.

Lemma at_end_write bs cs : owrite cs (at_end bs) = at_end (bs ++ cs).
Proof. rewrite owrite_eq. unfold at_end. cbn [opos oputs]. now rewrite zlen_app, seqput_app, Z.add_0_l. Qed.

Definition hdr0 (rate bits channels : Z) := riff rate bits channels (le 4 (overhead bits - 8)) (le 4 0) (le 4 (-1)).

Lemma wwav_open_ok rate bits channels : wav_params rate bits channels ->
  wwav_open rate bits channels = Ok (fresh_wwav rate bits channels (at_end (hdr0 rate bits channels))).
Proof.
  intros (Hb & Hc & Hcb & Hr & Hrr).
  assert (Hbytes : (bits = 8 /\ bits / 8 = 1) \/ (bits = 16 /\ bits / 8 = 2) \/ (bits = 32 /\ bits / 8 = 4)).
  { destruct Hb as [-> | [-> | ->]]; auto. }
  unfold wwav_open.
  change oopen_trunc with (at_end []).
  assert (I1 : ichk (rate * channels) = Ok (rate * channels)).
  { apply ichk_ok. unfold INT_MIN, INT_MAX in *. nia. }
  assert (I2 : ichk (rate * channels * (bits / 8)) = Ok (rate * channels * (bits / 8))) by (apply ichk_ok; lia).
  assert (I3 : ichk (channels * (bits / 8)) = Ok (channels * (bits / 8))).
  { apply ichk_ok. unfold INT_MIN, INT_MAX in *. lia. }
  unfold hdr0, riff, fresh_wwav.
  destruct Hbytes as [[Eb Eq] | [[Eb Eq] | [Eb Eq]]]; rewrite Eq in *; rewrite Eb in *; cbn [Z.eqb Pos.eqb]; change (Z.quot 8 8) with 1; change (Z.quot 16 8) with 2;
   cbn zeta; rewrite I1; cbn [bind]; rewrite I2; cbn [bind]; rewrite I3; cbn [bind]; rewrite !writeLE_eq;
   rewrite !at_end_write; do 2 f_equal; rewrite <- !app_assoc; reflexivity.
Qed.

Lemma for_loop_write {S} (body : Z -> S -> outcome S) (emit : list Z -> S -> S) (g : Z -> list Z) n : forall i s,
  (forall s, emit [] s = s) -> (forall a b s, emit (a ++ b) s = emit b (emit a s)) ->
  (forall j s, i <= j < i + Z.of_nat n -> body j s = Ok (emit (g j) s)) ->
  for_loop n i body s = Ok (emit (flat_map g (zrange i n)) s).
Proof.
  induction n as [|n IH]; intros i s E0 EA Hb; cbn [for_loop zrange flat_map].
  - now rewrite E0.
  - rewrite Hb by lia. cbn [bind]. rewrite IH; auto.
    + now rewrite EA.
    + intros j s' Hj. apply Hb. lia.
Qed.

Lemma in_zrange j : forall n i, In j (zrange i n) <-> i <= j < i + Z.of_nat n.
Proof.
  induction n as [|n IH]; intros i; cbn [zrange In]; [lia|]. rewrite IH. lia.
Qed.

Section W.
Context {T : Type} (ops : sample_ops T).

Lemma flat_map_map' {A B C} (f : A -> B) (g : B -> list C) l : flat_map g (map f l) = flat_map (fun x => g (f x)) l.
Proof. induction l; simpl; congruence. Qed.
Lemma flat_map_flat_map' {A B C} (f : A -> list B) (g : B -> list C) l : flat_map g (flat_map f l) = flat_map (fun x => flat_map g (f x)) l.
Proof. induction l; simpl; auto. rewrite flat_map_app. congruence. Qed.
Lemma flat_map_ext_in {A B} (f g : A -> list B) l : (forall x, In x l -> f x = g x) -> flat_map f l = flat_map g l.
Proof. induction l; simpl; intros H; auto. rewrite H by auto. f_equal. apply IHl. intros; apply H; auto. Qed.

Lemma wwav_write_ok w buf num stride : 1 <= w_channels w -> buf_ok buf num (w_channels w) stride ->
  wwav_write ops w buf num stride
  = Ok (set_os (owrite (codes_bytes (w_bytes w) (wop_codes (wwav_code ops w) (w_channels w) (w_offset w) (WWrite buf num stride))) (w_os w)) w).
Proof.
  intros Hc (H1 & H2 & H3 & H4). unfold wwav_write. cbn zeta. fold (eff_stride (w_channels w) stride).
  set (st := eff_stride (w_channels w) stride) in *. set (ch := w_channels w) in *.
  assert (Hby : (if w_bytes w =? 4 then 4 else w_bytes w) = w_bytes w) by (destruct (Z.eqb_spec (w_bytes w) 4); lia).
  rewrite Hby.
  rewrite (for_loop_write _ owrite (fun n => flat_map (fun c => match znth buf (st * n + c) with
     Some x => le (Z.to_nat (w_bytes w)) (wwav_code ops w x) | None => [] end) (zrange 0 (Z.to_nat ch)))).
  - cbn [bind wop_codes]. unfold codes_bytes. rewrite flat_map_map'. unfold strided. rewrite flat_map_flat_map'.
    f_equal. f_equal. f_equal. apply flat_map_ext_in. intros n Hn. rewrite flat_map_flat_map'.
    apply flat_map_ext_in. intros c Hcc. fold ch. fold st. destruct (znth buf (st * n + c)); cbn [flat_map]; auto. now rewrite app_nil_r.
  - reflexivity.
  - intros. apply owrite_app.
  - intros n s Hn.
    rewrite (for_loop_write _ owrite (fun c => match znth buf (st * n + c) with
      Some x => le (Z.to_nat (w_bytes w)) (wwav_code ops w x) | None => [] end)); auto.
    + intros. apply owrite_app.
    + intros c s' Hcr. assert (0 <= st * n) by nia. assert (st * n + c < zlen buf) by nia.
      rewrite ichk_ok by (unfold INT_MIN; lia). cbn [bind]. rewrite ichk_ok by (unfold INT_MIN; lia). cbn [bind].
      destruct (get_in_range buf (st * n + c)) as (x & Hx & ->); [lia|]. cbn [bind]. rewrite Hx. now rewrite writeLE_eq.
Qed.

Lemma silence_loop v b n s : fold_left (fun s (_ : nat) => writeLE v b s) (seq 0 n) s = owrite (codes_bytes b (repeat v n)) s.
Proof.
  generalize 0%nat as i. revert s. induction n as [|n IH]; intros s i; cbn [seq fold_left repeat].
  - reflexivity.
  - rewrite IH. unfold codes_bytes. cbn [flat_map]. rewrite owrite_app, writeLE_eq. reflexivity.
Qed.

Lemma wstep_ok w (o : @wop T) : 1 <= w_channels w -> wop_ok (w_channels w) o ->
  wstep ops w o = Ok (set_os (owrite (codes_bytes (w_bytes w) (wop_codes (wwav_code ops w) (w_channels w) (w_offset w) o)) (w_os w)) w).
Proof.
  intros Hc Ho. destruct o as [buf num stride|num]; cbn [wstep].
  - now apply wwav_write_ok.
  - unfold wwav_silence. destruct Ho. rewrite ichk_ok by (unfold INT_MIN; nia). cbn [bind]. now rewrite silence_loop.
Qed.

Lemma code_set_os s w : wwav_code ops (set_os s w) = wwav_code ops w.
Proof. reflexivity. Qed.

Lemma wsteps_ok os : forall w, 1 <= w_channels w -> Forall (wop_ok (w_channels w)) os ->
  wsteps ops w os = Ok (set_os (owrite (codes_bytes (w_bytes w)
     (flat_map (wop_codes (wwav_code ops w) (w_channels w) (w_offset w)) os)) (w_os w)) w).
Proof.
  induction os as [|o os IH]; intros w Hc Ho; cbn [wsteps flat_map].
  - cbn. unfold codes_bytes. cbn. destruct w as [[] ]; reflexivity.
  - inversion_clear Ho as [|? ? H1 H2]. rewrite wstep_ok by auto. cbn [bind]. rewrite IH; auto.
    cbn [set_os w_bytes w_channels w_offset w_os]. rewrite code_set_os. unfold codes_bytes. rewrite flat_map_app, owrite_app. reflexivity.
Qed.

Lemma zlen_codes_bytes b cs : 0 <= b -> zlen (codes_bytes b cs) = b * zlen cs.
Proof.
  intros Hb. unfold codes_bytes. induction cs as [|c cs IH]; cbn [flat_map].
  - rewrite !zlen_nil. lia.
  - rewrite zlen_app, zlen_cons, IH, zlen_le. rewrite Z2Nat.id by auto. lia.
Qed.

Lemma flat_map_zlen {A} (f : Z -> list A) k n i : (forall j, i <= j < i + Z.of_nat n -> zlen (f j) = k) -> zlen (flat_map f (zrange i n)) = k * Z.of_nat n.
Proof.
  revert i. induction n as [|n IH]; intros i H; cbn [zrange flat_map].
  - rewrite zlen_nil. lia.
  - rewrite zlen_app, H, IH by (try intros; try apply H; lia). lia.
Qed.

Lemma zlen_map {A B} (f : A -> B) l : zlen (map f l) = zlen l.
Proof. unfold zlen. now rewrite map_length. Qed.

Lemma strided_len (buf : list T) num ch st : 0 <= num -> 0 <= ch -> 0 <= st -> (0 < num -> st * (num - 1) + ch <= zlen buf) ->
  zlen (strided buf num ch st) = num * ch.
Proof.
  intros H1 H2 H3 H4. unfold strided. rewrite (flat_map_zlen _ ch).
  - rewrite Z2Nat.id; lia.
  - intros n Hn. rewrite (flat_map_zlen _ 1); [rewrite Z2Nat.id; lia|]. intros c Hc.
    destruct (znth_in_range buf (st * n + c)) as (x & ->); [nia|]. apply zlen_single.
Qed.

Lemma zlen_wop_codes code ch zero (o : @wop T) : 0 <= ch -> wop_ok ch o -> zlen (wop_codes code ch zero o) = wop_frames o * ch.
Proof.
  intros Hc Ho. destruct o as [buf num stride|num]; cbn [wop_codes wop_frames].
  - destruct Ho as (H1 & H2 & H3 & H4). rewrite zlen_map. apply strided_len; auto.
  - rewrite zlen_repeat. destruct Ho. rewrite Z2Nat.id; nia.
Qed.

Lemma zlen_all_codes code ch zero (os : list (@wop T)) : 0 <= ch -> Forall (wop_ok ch) os ->
  zlen (flat_map (wop_codes code ch zero) os) = total_frames os * ch.
Proof.
  intros Hc. induction 1 as [|o os Ho Hos IH]; cbn [flat_map].
  - rewrite zlen_nil. reflexivity.
  - rewrite zlen_app, zlen_wop_codes, IH by auto. unfold total_frames. cbn [map fold_right]. lia.
Qed.
End W.

(** ** The three header regions *)
Definition rA := chars "RIFF".
Definition rB (rate bits channels : Z) :=
  chars "WAVE" ++ chars "fmt " ++
  le 4 (if bits =? 32 then 18 else 16) ++ le 2 (if bits =? 32 then 3 else 1) ++
  le 2 channels ++ le 4 rate ++ le 4 (rate * channels * (bits / 8)) ++ le 2 (channels * (bits / 8)) ++ le 2 bits.
Lemma riff_split16 rate bits channels c f d : bits =? 32 = false ->
  riff rate bits channels c f d = rA ++ c ++ (rB rate bits channels ++ chars "data") ++ d.
Proof. intros E. unfold riff, rA, rB. rewrite E. rewrite <- !app_assoc. reflexivity. Qed.
Lemma riff_split32 rate bits channels c f d : bits =? 32 = true ->
  riff rate bits channels c f d = rA ++ c ++ (rB rate bits channels ++ le 2 0 ++ chars "fact" ++ le 4 4) ++ f ++ chars "data" ++ d.
Proof. intros E. unfold riff, rA, rB. rewrite E. rewrite <- !app_assoc. reflexivity. Qed.
Lemma zlen_rA : zlen rA = 4. Proof. reflexivity. Qed.
Lemma zlen_rB rate bits channels : zlen (rB rate bits channels) = 28.
Proof. unfold rB. rewrite !zlen_app, !zlen_le. reflexivity. Qed.

Lemma zlen_riff rate bits channels c f d : length c = 4%nat -> length f = 4%nat -> length d = 4%nat ->
  zlen (riff rate bits channels c f d) = overhead bits.
Proof.
  intros Hc Hf Hd. unfold overhead. destruct (bits =? 32) eqn:E.
  - rewrite riff_split32 by auto. rewrite !zlen_app, zlen_rB, !zlen_le. unfold zlen. rewrite Hc, Hf, Hd. reflexivity.
  - rewrite riff_split16 by auto. rewrite !zlen_app, zlen_rB. unfold zlen. rewrite Hc, Hd. reflexivity.
Qed.

(** ** The destructor *)
Definition patches (bits nframes size : Z) : list (Z * Z) :=
  seqput 4 (le 4 (overhead bits - 8 + size)) ++ (if bits =? 32 then seqput 46 (le 4 nframes) else []) ++
  seqput (overhead bits - 4) (le 4 size).

Lemma wwav_close_ok rate bits channels samples nframes : wav_params rate bits channels ->
  zlen samples = nframes * channels * (bits / 8) -> 0 <= nframes ->
  overhead bits + zlen samples <= INT_MAX ->
  exists p, wwav_close (fresh_wwav rate bits channels (at_end (hdr0 rate bits channels ++ samples)))
  = Ok {| opos := p; oputs := seqput 0 (hdr0 rate bits channels ++ samples) ++ patches bits nframes (zlen samples) |}.
Proof.
  intros (Hb & Hc & Hcb & Hr & Hrr) Hlen Hnf Hsz.
  assert (Hbytes : (bits = 8 /\ bits / 8 = 1) \/ (bits = 16 /\ bits / 8 = 2) \/ (bits = 32 /\ bits / 8 = 4)).
  { destruct Hb as [-> | [-> | ->]]; auto. }
  assert (Ht : zlen (hdr0 rate bits channels ++ samples) = overhead bits + zlen samples).
  { rewrite zlen_app. unfold hdr0. rewrite zlen_riff by apply le_length. auto. }
  pose proof (zlen_nonneg samples).
  unfold wwav_close. cbn [fresh_wwav w_bytes w_os w_channels]. unfold otell, at_end. cbn [opos]. rewrite Ht.
  assert (Hov : 44 <= overhead bits <= 58) by (unfold overhead; destruct (bits =? 32); lia).
  rewrite ichk_ok by (unfold INT_MIN; lia). cbn [bind].
  replace (if bits / 8 =? 4 then 58 else 44) with (overhead bits).
  2:{ destruct Hbytes as [[-> _] | [[-> _] | [-> _]]]; reflexivity. }
  replace (overhead bits + zlen samples - overhead bits) with (zlen samples) by lia.
  rewrite ichk_ok by (unfold INT_MIN; lia). cbn [bind]. rewrite ichk_ok by (unfold INT_MIN; lia). cbn [bind].
  unfold patches.
  assert (E4 : (bits / 8 =? 4) = (bits =? 32)). { destruct Hbytes as [[-> _] | [[-> _] | [-> _]]]; reflexivity. }
  rewrite E4.
  replace (overhead bits + zlen samples - 8) with (overhead bits - 8 + zlen samples) by lia.
  destruct (bits =? 32) eqn:E32.
  - rewrite ichk_ok by (unfold INT_MIN, INT_MAX; nia). cbn [bind].
    destruct (Z.eqb_spec (bits / 8 * channels) 0); [nia|]. cbn [bind].
    replace (Z.quot (zlen samples) (bits / 8 * channels)) with nframes.
    2:{ rewrite Hlen. replace (nframes * channels * (bits / 8)) with (nframes * (bits / 8 * channels)) by ring.
        symmetry. apply Z.quot_mul. auto. }
    rewrite !writeLE_eq, !owrite_eq. unfold oseek. cbn [opos oputs]. eexists. f_equal. f_equal. now rewrite <- !app_assoc.
  - cbn [bind]. rewrite !writeLE_eq, !owrite_eq. unfold oseek. cbn [opos oputs]. eexists. f_equal. f_equal.
    change (Z.to_nat 4) with 4%nat. now rewrite <- !app_assoc.
Qed.

(** the file after the first [j] patch bytes *)
Definition mix (j : nat) (new old : list Z) := firstn j new ++ skipn j old.
Lemma mix_length j new old : length old = length new -> length (mix j new old) = length new.
Proof. intros H. unfold mix. rewrite app_length, firstn_length, skipn_length. lia. Qed.
Lemma mix_full j new old : length old = length new -> (length new <= j)%nat -> mix j new old = new.
Proof. intros H Hj. unfold mix. rewrite firstn_all2, skipn_all2 by lia. apply app_nil_r. Qed.
Lemma mix_bytes j new old : Forall is_byte new -> Forall is_byte old -> Forall is_byte (mix j new old).
Proof.
  intros H1 H2. unfold mix. apply Forall_app. rewrite Forall_forall in H1, H2. split; apply Forall_forall; intros x Hx.
  - apply H1. rewrite <- (firstn_skipn j new). apply in_or_app. auto.
  - apply H2. rewrite <- (firstn_skipn j old). apply in_or_app. auto.
Qed.

Definition crash_file (rate bits channels nframes : Z) (samples : list Z) (j : nat) : list Z :=
  riff rate bits channels
    (mix j (le 4 (overhead bits - 8 + zlen samples)) (le 4 (overhead bits - 8)))
    (mix (j - 4) (le 4 nframes) (le 4 0))
    (mix (j - (if bits =? 32 then 8 else 4)) (le 4 (zlen samples)) (le 4 (-1))) ++ samples.

Lemma crash_file_ok rate bits channels nframes samples j :
  file_of (seqput 0 (hdr0 rate bits channels ++ samples) ++ firstn j (patches bits nframes (zlen samples)))
  = crash_file rate bits channels nframes samples j.
Proof.
  unfold file_of. rewrite fold_left_app. fold (file_of (seqput 0 (hdr0 rate bits channels ++ samples))). rewrite file_of_seqput.
  unfold patches, crash_file, hdr0. rewrite firstn_app, seqput_length, le_length, fold_left_app.
  destruct (bits =? 32) eqn:E.
  - rewrite firstn_app, seqput_length, le_length, fold_left_app.
    replace (overhead bits - 4) with 54 by (unfold overhead; rewrite E; reflexivity).
    rewrite !riff_split32 by auto. rewrite <- !app_assoc.
    change 4 with (zlen rA) at 1. rewrite store_patch_prefix by reflexivity.
    fold (mix j (le 4 (overhead bits - 8 + zlen samples)) (le 4 (overhead bits - 8))).
    set (c := mix j _ _).
    assert (Lc : zlen c = 4) by (unfold zlen, c; rewrite mix_length, le_length; rewrite ?le_length; reflexivity).
    set (X := rA ++ c ++ rB rate bits channels ++ le 2 0 ++ chars "fact" ++ le 4 4).
    assert (LX : zlen X = 46) by (unfold X; rewrite !zlen_app, zlen_rB, Lc, !zlen_le; reflexivity).
    match goal with |- fold_left _ _ (fold_left _ _ ?Z) = _ => replace Z with (X ++ le 4 0 ++ (chars "data" ++ le 4 (-1) ++ samples))
      by (unfold X; rewrite <- !app_assoc; reflexivity) end.
    replace (seqput 46 (le 4 nframes)) with (seqput (zlen X) (le 4 nframes)) by (f_equal; auto).
    rewrite store_patch_prefix by reflexivity.
    fold (mix (j - 4) (le 4 nframes) (le 4 0)). set (f := mix (j - 4) _ _).
    assert (Lf : zlen f = 4) by (unfold zlen, f; rewrite mix_length, le_length; rewrite ?le_length; reflexivity).
    set (Y := X ++ f ++ chars "data").
    assert (LY : zlen Y = 54) by (unfold Y; rewrite !zlen_app, LX, Lf; reflexivity).
    match goal with |- fold_left _ _ ?Z = _ => replace Z with (Y ++ le 4 (-1) ++ samples)
      by (unfold Y; rewrite <- !app_assoc; reflexivity) end.
    replace (seqput 54 (le 4 (zlen samples))) with (seqput (zlen Y) (le 4 (zlen samples))) by (f_equal; auto).
    rewrite store_patch_prefix by reflexivity.
    replace (j - 4 - 4)%nat with (j - 8)%nat by lia.
    unfold Y, X, mix. rewrite <- !app_assoc. reflexivity.
  - rewrite app_nil_l.
    replace (overhead bits - 4) with 40 by (unfold overhead; rewrite E; reflexivity).
    rewrite !riff_split16 by auto. rewrite <- !app_assoc.
    change 4 with (zlen rA) at 1. rewrite store_patch_prefix by reflexivity.
    fold (mix j (le 4 (overhead bits - 8 + zlen samples)) (le 4 (overhead bits - 8))).
    set (c := mix j _ _).
    assert (Lc : zlen c = 4) by (unfold zlen, c; rewrite mix_length, le_length; rewrite ?le_length; reflexivity).
    set (X := rA ++ c ++ rB rate bits channels ++ chars "data").
    assert (LX : zlen X = 40) by (unfold X; rewrite !zlen_app, zlen_rB, Lc; reflexivity).
    match goal with |- fold_left _ _ ?Z = _ => replace Z with (X ++ le 4 (-1) ++ samples)
      by (unfold X; rewrite <- !app_assoc; reflexivity) end.
    replace (seqput 40 (le 4 (zlen samples))) with (seqput (zlen X) (le 4 (zlen samples))) by (f_equal; auto).
    rewrite store_patch_prefix by reflexivity.
    unfold X, mix. rewrite <- !app_assoc. reflexivity.
Qed.

Lemma mix_neg j d : (j < 4)%nat -> sval (mix j (le 4 d) (le 4 (-1))) <= 0.
Proof.
  intros Hj. rewrite !le4. change (-1 mod 256) with 255. change ((-1 / 256) mod 256) with 255.
  change ((-1 / 65536) mod 256) with 255. change ((-1 / 16777216) mod 256) with 255.
  pose proof (is_byte_mod d). pose proof (is_byte_mod (d / 256)). pose proof (is_byte_mod (d / 65536)). unfold is_byte in *.
  destruct j as [|[|[|[|]]]]; try lia; unfold mix; cbn [firstn skipn app]; unfold sval; cbn [uval];
    match goal with |- context [256 ^ zlen ?l] => change (256 ^ zlen l) with 4294967296 end;
    match goal with |- context [?p <? ?q] => destruct (Z.ltb_spec p q) end; lia.
Qed.

(** reading back a crash file *)
Lemma crash_file_read rate bits channels nframes samples j : wav_params rate bits channels ->
  zlen samples = nframes * channels * (bits / 8) -> 0 <= nframes -> overhead bits + zlen samples <= INT_MAX ->
  exists hdr, zlen hdr = overhead bits /\ crash_file rate bits channels nframes samples j = hdr ++ samples /\
  rwav_open (iopen (crash_file rate bits channels nframes samples j))
  = Ok (mk_rwav (strm hdr samples) rate bits channels
      (if (Nat.ltb j (if bits =? 32 then 12 else 8)) || (nframes =? 0) then -1 else nframes)).
Proof.
  intros HP Hlen Hnf Hsz. pose proof HP as (Hb & Hc & Hcb & Hr & Hrr).
  assert (Hb8 : 1 <= bits / 8) by (destruct Hb as [-> | [-> | ->]]; vm_compute; discriminate).
  assert (Hov : 44 <= overhead bits <= 58) by (unfold overhead; destruct (bits =? 32); lia).
  unfold crash_file. set (c := mix j _ _). set (f := mix (j - 4) _ _). set (d := mix _ (le 4 (zlen samples)) _).
  assert (FO : fields_ok c f d).
  { unfold c, f, d. repeat split; try (rewrite mix_length, le_length; rewrite ?le_length; reflexivity); apply mix_bytes; apply le_bytes. }
  pose proof (zlen_nonneg samples) as Hz.
  assert (Hd : if (Nat.ltb j (if bits =? 32 then 12 else 8)) || (nframes =? 0) then sval d <= 0 else
     d = le 4 (zlen samples) /\ f = le 4 nframes /\ c = le 4 (overhead bits - 8 + zlen samples)).
  { destruct (Nat.ltb_spec j (if bits =? 32 then 12 else 8)) as [Hj|Hj]; cbn [orb].
    - apply mix_neg. destruct (bits =? 32); lia.
    - assert (Ed : d = le 4 (zlen samples)). { apply mix_full; rewrite ?le_length; auto. destruct (bits =? 32); lia. }
      destruct (Z.eqb_spec nframes 0).
      + rewrite Ed. rewrite sval_le4 by (unfold INT_MIN; lia). nia.
      + splits; auto; apply mix_full; rewrite ?le_length; auto; destruct (bits =? 32); lia. }
  exists (riff rate bits channels c f d). split; [apply zlen_riff; apply FO|]. split; auto.
  rewrite open_riff; auto.
  - do 2 f_equal. unfold hdr_frames.
    destruct ((Nat.ltb j (if bits =? 32 then 12 else 8)) || (nframes =? 0)) eqn:Ej.
    + destruct (Z.leb_spec (sval d) 0); [reflexivity|lia].
    + destruct Hd as (-> & -> & ->). apply orb_false_iff in Ej. destruct Ej as [_ Hn0]. apply Z.eqb_neq in Hn0.
      assert (0 < zlen samples) by (rewrite Hlen; nia).
      rewrite !sval_le4 by (unfold INT_MIN, INT_MAX in *; nia).
      destruct (Z.leb_spec (zlen samples) 0); [lia|]. destruct (Z.leb_spec (overhead bits - 8 + zlen samples) 0); [lia|]. cbn [orb].
      destruct (bits =? 32); auto. rewrite Hlen. replace (nframes * channels * (bits / 8)) with (nframes * (bits / 8 * channels)) by ring.
      apply Z.div_mul. nia.
  - intros H1 H2. destruct ((Nat.ltb j (if bits =? 32 then 12 else 8)) || (nframes =? 0)) eqn:Ej; [lia|].
    destruct Hd as (-> & _ & ->). rewrite !sval_le4 by (unfold INT_MIN, INT_MAX in *; lia). lia.
Qed.
