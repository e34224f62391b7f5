(* Specification vocabulary for WAV files: little endian fields and the RIFF layout *)
From Coq Require Import List ZArith String.
From Verif Require Import Model.Wav.
Import ListNotations.
Open Scope Z_scope.

(** the [n] bytes of [v], least significant first, two's complement *)
Definition le (n : nat) (v : Z) : list Z := map (fun i => (v / 256 ^ Z.of_nat i) mod 256) (seq 0 n).

(** value of little endian bytes *)
Fixpoint uval (bs : list Z) : Z := match bs with [] => 0 | b :: bs' => b + 256 * uval bs' end.
Definition sval (bs : list Z) : Z :=
  let m := 256 ^ zlen bs in if 2 * uval bs <? m then uval bs else uval bs - m.
(** 8 bit samples are unsigned, wider ones signed *)
Definition sample_val (bs : list Z) : Z := if zlen bs =? 1 then uval bs else sval bs.

Definition is_byte (b : Z) : Prop := 0 <= b < 256.

(** The file layout: chunk size, frame count and data size fields as raw bytes *)
Definition riff (rate bits channels : Z) (chunk frames data : list Z) : list Z :=
  let bytes := bits / 8 in
  chars "RIFF" ++ chunk ++ chars "WAVE" ++ chars "fmt " ++
  le 4 (if bits =? 32 then 18 else 16) ++ le 2 (if bits =? 32 then 3 else 1) ++
  le 2 channels ++ le 4 rate ++ le 4 (rate * channels * bytes) ++ le 2 (channels * bytes) ++ le 2 bits ++
  (if bits =? 32 then le 2 0 ++ chars "fact" ++ le 4 4 ++ frames else []) ++
  chars "data" ++ data.

Definition overhead (bits : Z) : Z := if bits =? 32 then 58 else 44.

(** a complete file *)
Definition wav_file (rate bits channels nframes : Z) (samples : list Z) : list Z :=
  riff rate bits channels (le 4 (overhead bits - 8 + zlen samples)) (le 4 nframes) (le 4 (zlen samples)) ++ samples.

(** parameters for which the reader can represent everything *)
Definition wav_params (rate bits channels : Z) : Prop :=
  (bits = 8 \/ bits = 16 \/ bits = 32) /\ 1 <= channels /\ channels * (bits / 8) <= 32767 /\
  INT_MIN <= rate <= INT_MAX /\ INT_MIN <= rate * channels * (bits / 8) <= INT_MAX.

(** i, i+1, ..., i+n-1 *)
Fixpoint zrange (i : Z) (n : nat) : list Z := match n with O => [] | S n' => i :: zrange (i + 1) n' end.

(** the samples of [num] frames of [ch] channels, frame by frame, from a buffer with the given stride *)
Definition strided {T} (buf : list T) (num ch stride : Z) : list T :=
  flat_map (fun n => flat_map (fun c => match znth buf (stride * n + c) with Some x => [x] | None => [] end)
    (zrange 0 (Z.to_nat ch))) (zrange 0 (Z.to_nat num)).

(** preconditions of write/silence calls: enough samples in the buffer, no frame overlap, int ranges *)
Definition eff_stride (ch stride : Z) : Z := if stride <? 0 then ch else stride.
Definition buf_ok {T} (buf : list T) (num ch stride : Z) : Prop :=
  0 <= num /\ 0 <= eff_stride ch stride /\ (0 < num -> eff_stride ch stride * (num - 1) + ch <= zlen buf) /\ zlen buf <= INT_MAX.
Definition wop_ok {T} (ch : Z) (o : @wop T) : Prop :=
  match o with WWrite buf num stride => buf_ok buf num ch stride | WSilence num => 0 <= num /\ num * ch <= INT_MAX end.
Definition wop_frames {T} (o : @wop T) : Z := match o with WWrite _ num _ => num | WSilence num => num end.
Definition total_frames {T} (os : list (@wop T)) : Z := fold_right Z.add 0 (map wop_frames os).

(** the sample codes emitted by a call, given the encoding of one sample and the code of silence *)
Definition wop_codes {T} (code : T -> Z) (ch zero : Z) (o : @wop T) : list Z :=
  match o with
  | WWrite buf num stride => map code (strided buf num ch (eff_stride ch stride))
  | WSilence num => repeat zero (Z.to_nat (num * ch))
  end.
Definition codes_bytes (bytes : Z) (cs : list Z) : list Z := flat_map (le (Z.to_nat bytes)) cs.

(** ** Reading *)
(** value of a stored sample code: 8 and 16 bit codes are scaled, 32 bit codes are float bit patterns *)
Definition decode {T} (ops : sample_ops T) (bits v : Z) : T :=
  if bits =? 32 then of_bits ops v
  else if bits =? 16 then tdiv ops (ofZ ops v) (ofZ ops 32767)
  else tdiv ops (ofZ ops (v - 128)) (ofZ ops 127).

(** the [k]-th sample code at position [p] of a file *)
Definition code_at (file : list Z) (bytes p k : Z) : Z :=
  sample_val (firstn (Z.to_nat bytes) (skipn (Z.to_nat (p + k * bytes)) file)).

Inductive rop (T : Type) := RRead (buf : list T) (num stride : Z) | RSkip (num : Z).
Arguments RRead {T}. Arguments RSkip {T}.

(** frame aligned calls are possible: buffer large enough, int ranges *)
Definition rop_ok {T} (ch bytes : Z) (o : rop T) : Prop :=
  match o with
  | RRead buf num stride => buf_ok buf num ch stride
  | RSkip num => INT_MIN <= num * ch <= INT_MAX /\ INT_MIN <= num * ch * bytes <= INT_MAX
  end.

(** does every read of the sequence stay within the file?  [fb] is the frame size in bytes *)
Fixpoint reads_fit {T} (len fb p : Z) (os : list (rop T)) : bool :=
  match os with
  | [] => true
  | RRead _ num _ :: os' => ((num =? 0) || (p + num * fb <=? len)) && reads_fit len fb (p + num * fb) os'
  | RSkip num :: os' => (0 <=? p + num * fb) && reads_fit len fb (p + num * fb) os'
  end.

Definition rstep {T} (ops : sample_ops T) (r : rwav) (o : rop T) : outcome rwav :=
  match o with
  | RRead buf num stride => '(_, r) <- rwav_read ops r buf num stride ;; Ok r
  | RSkip num => rwav_skip r num
  end.
Fixpoint rsteps {T} (ops : sample_ops T) (r : rwav) (os : list (rop T)) : outcome rwav :=
  match os with [] => Ok r | o :: os' => r <- rstep ops r o ;; rsteps ops r os' end.

(** codes representable in a file of the given sample size *)
Definition code_range (bits v : Z) : Prop :=
  if bits =? 8 then 0 <= v <= 255 else if bits =? 16 then -32768 <= v <= 32767 else INT_MIN <= v <= INT_MAX.

(** the code stored for a sample: scaled, offset, clamped to the code range and rounded; 32 bit samples are
    stored as their bit pattern *)
Definition encode {T} (ops : sample_ops T) (bits : Z) (x : T) : Z :=
  if bits =? 32 then to_bits ops x else
  let '(off, fac, lo, hi) := if bits =? 8 then (128, 127, 0, 255) else (0, 32767, -32768, 32767) in
  let y := tadd ops (ofZ ops off) (tmul ops (ofZ ops fac) x) in
  let y := if tltb ops y (ofZ ops lo) then ofZ ops lo else y in
  let y := if tltb ops (ofZ ops hi) y then ofZ ops hi else y in
  trint ops y.
Definition silence_code (bits : Z) : Z := if bits =? 8 then 128 else 0.

(** signed little endian header field of [len] bytes at offset [off] *)
Definition field (file : list Z) (off len : Z) : Z := sval (firstn (Z.to_nat len) (skipn (Z.to_nat off) file)).

(** the samples passed to a write call, in frame order; silence stands for zeros *)
Definition wop_samples {T} (ch : Z) (zero : T) (o : @wop T) : list T :=
  match o with
  | WWrite buf num stride => strided buf num ch (eff_stride ch stride)
  | WSilence num => repeat zero (Z.to_nat (num * ch))
  end.
(** the data bytes a sequence of calls stands for *)
Definition data_bytes {T} (ops : sample_ops T) (bits channels : Z) (os : list (@wop T)) : list Z :=
  codes_bytes (bits / 8) (flat_map (wop_codes (encode ops bits) channels (silence_code bits)) os).

(** a reader whose constructor ran to its end *)
Definition accepted (r : rwav) : Prop := r_factor r <> None.
