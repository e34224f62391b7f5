(* Specification of the header of a WAV file by byte offsets, without reference to a stream: the byte strings the reader
   accepts and the byte strings on which its constructor has undefined behaviour *)
From Coq Require Import List ZArith String.
From Verif Require Import Model.Wav Spec.Wav.
Import ListNotations.
Open Scope Z_scope.

(** the four bytes at an offset, fewer at the end of the file *)
Definition four_at (file : list Z) (off : Z) : list Z := firstn 4 (skipn (Z.to_nat off) file).
Definition tag (file : list Z) (off : Z) (s : string) : Prop := four_at file off = chars s.
(** the file ends before the tag does, and what there is of it is right *)
Definition tag_cut (file : list Z) (off : Z) (s : string) : Prop :=
  exists rest, rest <> [] /\ chars s = four_at file off ++ rest.
Definition in_int (z : Z) : Prop := INT_MIN <= z <= INT_MAX.

(** bytes 0 to 35, all but the byte rate; [size] is the size of the format chunk *)
Record fmt_chunk (file : list Z) (size rate bits channels : Z) : Prop := mk_fmt_chunk {
  fc_len : 36 <= zlen file;
  fc_riff : tag file 0 "RIFF"; fc_wave : tag file 8 "WAVE"; fc_fmt : tag file 12 "fmt ";
  fc_size : field file 16 4 = size; fc_sizes : size = 16 \/ size = 18;
  fc_format : (bits = 8 \/ bits = 16) /\ field file 20 2 = 1 \/ bits = 32 /\ field file 20 2 = 3;
  fc_channels : field file 22 2 = channels; fc_rate : field file 24 4 = rate;
  fc_align : field file 32 2 = bits / 8 * channels; fc_bits : field file 34 2 = bits
}.
Definition rate_ok (file : list Z) (rate bits channels : Z) : Prop :=
  in_int (rate * (bits / 8)) /\ in_int (rate * (bits / 8) * channels) /\ field file 28 4 = rate * (bits / 8) * channels.
Definition rate_overflow (rate bits channels : Z) : Prop :=
  ~ in_int (rate * (bits / 8)) \/ ~ in_int (rate * (bits / 8) * channels).

(** the offset of the tag "data": a format chunk of 18 bytes has to be followed by the "fact" chunk *)
Definition data_tag_at (file : list Z) (size d : Z) : Prop :=
  size = 16 /\ d = 36 \/
  size = 18 /\ d = 50 /\ 46 <= zlen file /\ field file 36 2 = 0 /\ tag file 38 "fact" /\ field file 42 4 = 4.

(** a header the reader accepts; the samples begin at [start] *)
Definition wav_header (file : list Z) (rate bits channels frames start : Z) : Prop :=
  exists size d, fmt_chunk file size rate bits channels /\ rate_ok file rate bits channels /\ data_tag_at file size d /\
  tag file d "data" /\ start = d + 8 /\ start <= zlen file /\
  let data := field file (d + 4) 4 in let chunk := field file 4 4 in
  ((data <= 0 \/ chunk <= 0) /\ frames = -1 \/
   0 < data /\ 0 < chunk /\ data + overhead bits <= INT_MAX /\ data + overhead bits - 8 = chunk /\
   (size = 18 /\ frames = field file 46 4 \/ size = 16 /\ channels <> 0 /\ frames = Z.quot data (bits / 8 * channels))).

(** undefined behaviour of the constructor: a tag cut off by the end of the file, or an int overflow, or a division by zero *)
Definition wav_undefined (file : list Z) : Prop :=
  tag_cut file 0 "RIFF" \/
  tag file 0 "RIFF" /\ tag_cut file 8 "WAVE" \/
  tag file 0 "RIFF" /\ tag file 8 "WAVE" /\ tag_cut file 12 "fmt " \/
  exists size rate bits channels, fmt_chunk file size rate bits channels /\
    (rate_overflow rate bits channels \/
     rate_ok file rate bits channels /\
     (size = 18 /\ 38 <= zlen file /\ field file 36 2 = 0 /\ tag_cut file 38 "fact" \/
      exists d, data_tag_at file size d /\
       (tag_cut file d "data" \/
        tag file d "data" /\ d + 8 <= zlen file /\ 0 < field file (d + 4) 4 /\ 0 < field file 4 4 /\
        (INT_MAX < field file (d + 4) 4 + overhead bits \/
         field file (d + 4) 4 + overhead bits - 8 = field file 4 4 /\ size = 16 /\ channels = 0)))).
