(* Model of /repo/wav.hh (and the interface /repo/pcm.hh) *)
From Coq Require Import String Ascii.
From Verif Require Export Model.Stream.
Open Scope Z_scope.

(** Operations of the template parameter TYPE used by wav.hh.  [of_bits] is TYPE(int2float(i)),
    [to_bits] is float2int(TYPE). *)
Record sample_ops (T : Type) := {
  ofZ : Z -> T;                       (* TYPE(int) *)
  tadd : T -> T -> T; tmul : T -> T -> T; tdiv : T -> T -> T;
  tltb : T -> T -> bool;
  trint : T -> Z;                     (* int(std::nearbyint(.)) *)
  of_bits : Z -> T; to_bits : T -> Z
}.
Arguments ofZ {T}. Arguments tadd {T}. Arguments tmul {T}. Arguments tdiv {T}. Arguments tltb {T}.
Arguments trint {T}. Arguments of_bits {T}. Arguments to_bits {T}.

(** character codes of a C string literal *)
Definition chars (s : string) : list Z := map (fun c => Z.of_N (N_of_ascii c)) (list_ascii_of_string s).

(** wav.hh:20-30  readLE.  [is.get() << (8*i)] is evaluated in two's complement (C++20, and what gcc and
    clang implement); strict C++17 calls the shift of the negative EOF value undefined. *)
Fixpoint readLE_loop (n : nat) (i v : Z) (s : istream) : Z * istream :=
  match n with
  | O => (v, s)
  | S n' => let '(c, s) := iget s in
            readLE_loop n' (i + 1) (Z.lor v (int32 (Z.shiftl c (8 * i)))) s
  end.
Definition readLE (b : Z) (s : istream) : Z * istream :=
  let '(v, s) := readLE_loop (Z.to_nat b) 0 0 s in
  let v := if (b =? 2) && (32767 <? v) then Z.lor v (Z.lnot 32767) else v in
  let v := if (b =? 3) && (8388607 <? v) then Z.lor v (Z.lnot 8388607) else v in
  (v, s).

(** wav.hh:31-37  cmp4: true if different; stops at the first difference *)
Fixpoint cmp4 (a : list Z) (b : list (option Z)) : outcome bool :=
  match a, b with
  | x :: a', y :: b' =>
      match y with
      | None => Undefined
      | Some y => if x =? y then cmp4 a' b' else Ok true
      end
  | _, _ => Ok false
  end.

(** wav.hh:17-19  the data members; [None] = not initialised *)
Record rwav := {
  r_is : istream; r_bits : option Z; r_bytes : option Z; r_rate : option Z; r_channels : option Z;
  r_frames : option Z; r_offset : option Z; r_factor : option Z
}.

Definition set_is s r := {| r_is := s; r_bits := r_bits r; r_bytes := r_bytes r; r_rate := r_rate r;
  r_channels := r_channels r; r_frames := r_frames r; r_offset := r_offset r; r_factor := r_factor r |}.

(** wav.hh:48-128  constructor.  Every [else Ok ...] with the fields set so far is an early return. *)
Definition rwav_open (s : istream) : outcome rwav :=
  let ret s bits bytes rate channels frames offset factor :=
    Ok {| r_is := s; r_bits := bits; r_bytes := bytes; r_rate := rate; r_channels := channels;
          r_frames := frames; r_offset := offset; r_factor := factor |} in
  let '(ChunkID, s) := iread 4 s in                                          (* 50-51 *)
  ne <- cmp4 (chars "RIFF") ChunkID ;;
  if ne : bool then ret s None None None None None None None else            (* 52-53 *)
  let '(ChunkSize, s) := readLE 4 s in                                       (* 54 *)
  let '(Format, s) := iread 4 s in
  ne <- cmp4 (chars "WAVE") Format ;;
  if ne : bool then ret s None None None None None None None else            (* 57-58 *)
  let '(Subchunk1ID, s) := iread 4 s in
  ne <- cmp4 (chars "fmt ") Subchunk1ID ;;
  if ne : bool then ret s None None None None None None None else            (* 61-62 *)
  let '(Subchunk1Size, s) := readLE 4 s in
  if negb (Subchunk1Size =? 16) && negb (Subchunk1Size =? 18) then
    ret s None None None None None None None else                            (* 64-65 *)
  let '(AudioFormat, s) := readLE 2 s in
  if negb (AudioFormat =? 1) && negb (AudioFormat =? 3) then
    ret s None None None None None None None else                            (* 67-68 *)
  let '(channels, s) := readLE 2 s in
  let '(rate, s) := readLE 4 s in
  let '(ByteRate, s) := readLE 4 s in
  let '(BlockAlign, s) := readLE 2 s in
  let '(bits, s) := readLE 2 s in                                            (* 69-73 *)
  if negb (bits =? 8) && negb (bits =? 16) && negb (bits =? 32) then
    ret s (Some bits) None (Some rate) (Some channels) None None None else   (* 74-75 *)
  if ((bits =? 8) || (bits =? 16)) && negb (AudioFormat =? 1) then
    ret s (Some bits) None (Some rate) (Some channels) None None None else   (* 76-77 *)
  if (bits =? 32) && negb (AudioFormat =? 3) then
    ret s (Some bits) None (Some rate) (Some channels) None None None else   (* 78-79 *)
  let bytes := Z.quot bits 8 in                                              (* 80 *)
  let rej s frames := ret s (Some bits) (Some bytes) (Some rate) (Some channels) frames None None in
  ba <- ichk (bytes * channels) ;;
  if negb (ba =? BlockAlign) then rej s None else                            (* 81-82 *)
  rb <- ichk (rate * bytes) ;;
  br <- ichk (rb * channels) ;;
  if negb (br =? ByteRate) then rej s None else                              (* 83-84 *)
  '(early, s, frames) <-                                                     (* 85-97 *)
    (if Subchunk1Size =? 18 then
       let '(ExtSize, s) := readLE 2 s in
       if negb (ExtSize =? 0) then Ok (true, s, None) else
       let '(SubchunkID, s) := iread 4 s in
       ne <- cmp4 (chars "fact") SubchunkID ;;
       if ne : bool then Ok (true, s, None) else
       let '(SubchunkSize, s) := readLE 4 s in
       if negb (SubchunkSize =? 4) then Ok (true, s, None) else
       let '(fr, s) := readLE 4 s in
       Ok (false, s, Some fr)
     else Ok (false, s, None)) ;;
  if early : bool then rej s frames else
  let '(Subchunk2ID, s) := iread 4 s in
  ne <- cmp4 (chars "data") Subchunk2ID ;;
  if ne : bool then rej s frames else                                        (* 100-101 *)
  let '(Subchunk2Size, s) := readLE 4 s in                                   (* 102 *)
  let overhead := if bits =? 32 then 58 else 44 in
  '(early, frames) <-                                                        (* 104-111 *)
    (if (Subchunk2Size <=? 0) || (ChunkSize <=? 0) then Ok (false, Some (-1))
     else
       so <- ichk (Subchunk2Size + overhead) ;;
       so <- ichk (so - 8) ;;
       if negb (so =? ChunkSize) then Ok (true, frames)
       else if Subchunk1Size =? 16 then
         bc <- ichk (bytes * channels) ;;
         if bc =? 0 then Undefined else Ok (false, Some (Z.quot Subchunk2Size bc))
       else Ok (false, frames)) ;;
  if early : bool then rej s frames else
  let '(offset, factor) :=                                                   (* 112-127 *)
    if bits =? 8 then (128, 127) else if bits =? 16 then (0, 32767) else (0, 1) in
  ret s (Some bits) (Some bytes) (Some rate) (Some channels) frames (Some offset) (Some factor).

(** wav.hh:142-145  good() *)
Definition rwav_good (r : rwav) : bool := igood (r_is r).

(** wav.hh:146-149  skip(num) *)
Definition rwav_skip (r : rwav) (num : Z) : outcome rwav :=
  ch <- fld (r_channels r) ;;
  by_ <- fld (r_bytes r) ;;
  x <- ichk (num * ch) ;;
  x <- ichk (x * by_) ;;
  Ok (set_is (iseek_cur x (r_is r)) r).

(** wav.hh:174-178  writeLE(v, b) *)
Definition writeLE (v b : Z) (s : ostream) : ostream :=
  fold_left (fun s i => oput (Z.land 255 (Z.shiftr v (8 * Z.of_nat i))) s) (seq 0 (Z.to_nat b)) s.

(** wav.hh:171-173  the data members of WriteWAV *)
Record wwav := { w_os : ostream; w_bytes : Z; w_channels : Z; w_rate : Z;
  w_offset : Z; w_factor : Z; w_min : Z; w_max : Z }.
Definition set_os s w := {| w_os := s; w_bytes := w_bytes w; w_channels := w_channels w; w_rate := w_rate w;
  w_offset := w_offset w; w_factor := w_factor w; w_min := w_min w; w_max := w_max w |}.

(** wav.hh:189-238  constructor *)
Definition wwav_open (rate bits channels : Z) : outcome wwav :=
  let bytes := Z.quot bits 8 in
  let '(bits, bytes, offset, factor, mn, mx) :=
    if bits =? 8 then (bits, bytes, 128, 127, 0, 255)
    else if bits =? 16 then (bits, bytes, 0, 32767, -32768, 32767)
    else (32, 4, 0, 1, -1, 1) in
  let s := oopen_trunc in
  let s := owrite (chars "RIFF") s in
  let s := writeLE (if bits =? 32 then 50 else 36) 4 s in
  let s := owrite (chars "WAVE") s in
  let s := owrite (chars "fmt ") s in
  let s := if bits =? 32 then writeLE 3 2 (writeLE 18 4 s) else writeLE 1 2 (writeLE 16 4 s) in
  let s := writeLE channels 2 s in
  let s := writeLE rate 4 s in
  rc <- ichk (rate * channels) ;;
  br <- ichk (rc * bytes) ;;
  let s := writeLE br 4 s in
  ba <- ichk (channels * bytes) ;;
  let s := writeLE ba 2 s in
  let s := writeLE (8 * bytes) 2 s in
  let s := if bits =? 32 then writeLE 0 4 (writeLE 4 4 (owrite (chars "fact") (writeLE 0 2 s))) else s in
  let s := owrite (chars "data") s in
  let s := writeLE (-1) 4 s in
  Ok {| w_os := s; w_bytes := bytes; w_channels := channels; w_rate := rate;
        w_offset := offset; w_factor := factor; w_min := mn; w_max := mx |}.

(** wav.hh:239-253  destructor *)
Definition wwav_close (w : wwav) : outcome ostream :=
  let overhead := if w_bytes w =? 4 then 58 else 44 in
  position <- ichk (otell (w_os w)) ;;
  size <- ichk (position - overhead) ;;
  let s := oseek 4 (w_os w) in
  p8 <- ichk (position - 8) ;;
  let s := writeLE p8 4 s in
  s <- (if w_bytes w =? 4 then
          let s := oseek 46 s in
          bc <- ichk (w_bytes w * w_channels w) ;;
          if bc =? 0 then Undefined else Ok (writeLE (Z.quot size bc) 4 s)
        else Ok s) ;;
  let s := oseek (overhead - 4) s in
  Ok (writeLE size 4 s).

(** wav.hh:273-277  silence(num) *)
Definition wwav_silence (w : wwav) (num : Z) : outcome wwav :=
  n <- ichk (num * w_channels w) ;;
  Ok (set_os (fold_left (fun s _ => writeLE (w_offset w) (w_bytes w) s) (seq 0 (Z.to_nat n)) (w_os w)) w).

Section Samples.
Context {T : Type} (ops : sample_ops T).

(** std::max(a, b) = (a < b) ? b : a;  std::min(a, b) = (b < a) ? b : a *)
Definition std_max (a b : T) : T := if tltb ops a b then b else a.
Definition std_min (a b : T) : T := if tltb ops b a then b else a.

(** wav.hh:129-141  read(buf, num, stride) *)
Definition rwav_read (r : rwav) (buf : list T) (num stride : Z) : outcome (list T * rwav) :=
  ch <- fld (r_channels r) ;;
  let stride := if stride <? 0 then ch else stride in
  '(buf, s) <- for_loop (Z.to_nat num) 0 (fun n '(buf, s) =>
    for_loop (Z.to_nat ch) 0 (fun c '(buf, s) =>
      by_ <- fld (r_bytes r) ;;
      sn <- ichk (stride * n) ;;
      i <- ichk (sn + c) ;;
      if by_ =? 4 then
        let '(v, s) := readLE 4 s in
        buf <- set buf i (of_bits ops v) ;;
        Ok (buf, s)
      else
        off <- fld (r_offset r) ;;
        fac <- fld (r_factor r) ;;
        let '(v, s) := readLE by_ s in
        d <- ichk (v - off) ;;
        buf <- set buf i (tdiv ops (ofZ ops d) (ofZ ops fac)) ;;
        Ok (buf, s)) (buf, s)) (buf, r_is r) ;;
  Ok (buf, set_is s r).

(** wav.hh:260-265  what one sample is encoded to in write() *)
Definition wwav_code (w : wwav) (x : T) : Z :=
  if w_bytes w =? 4 then to_bits ops x
  else
    let v := tadd ops (ofZ ops (w_offset w)) (tmul ops (ofZ ops (w_factor w)) x) in
    trint ops (std_min (std_max v (ofZ ops (w_min w))) (ofZ ops (w_max w))).

(** wav.hh:254-268  write(buf, num, stride) *)
Definition wwav_write (w : wwav) (buf : list T) (num stride : Z) : outcome wwav :=
  let stride := if stride <? 0 then w_channels w else stride in
  s <- for_loop (Z.to_nat num) 0 (fun n s =>
    for_loop (Z.to_nat (w_channels w)) 0 (fun c s =>
      sn <- ichk (stride * n) ;;
      i <- ichk (sn + c) ;;
      x <- get buf i ;;
      Ok (writeLE (wwav_code w x) (if w_bytes w =? 4 then 4 else w_bytes w) s)) s) (w_os w) ;;
  Ok (set_os s w).

(** a client's call on a writer *)
Inductive wop := WWrite (buf : list T) (num stride : Z) | WSilence (num : Z).
Definition wstep (w : wwav) (o : wop) : outcome wwav :=
  match o with WWrite buf num stride => wwav_write w buf num stride | WSilence num => wwav_silence w num end.
Fixpoint wsteps (w : wwav) (os : list wop) : outcome wwav :=
  match os with [] => Ok w | o :: os' => w <- wstep w o ;; wsteps w os' end.
End Samples.
