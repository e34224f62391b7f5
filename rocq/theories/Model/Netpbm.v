(* Model of /repo/netpbm.hh (and the interface /repo/pel.hh) *)
From Coq Require Import Reals.
From Flocq Require Import Core.
From Verif Require Export Model.Stream.
Open Scope Z_scope.

(** netpbm.hh:27-42  space, newline, digit, value *)
Definition pnm_space (c : Z) : bool := (c =? 32) || (c =? 10) || (c =? 9).
Definition pnm_newline (c : Z) : bool := c =? 10.
Definition pnm_digit (c : Z) : bool := (48 <=? c) && (c <=? 57).
Definition pnm_value (c : Z) : Z := c - 48.

(** netpbm.hh:65  while (is.good() && !newline(is.get())); *)
Fixpoint pnm_skip_line (fuel : nat) (s : istream) : outcome istream :=
  if igood s then
    let '(c, s) := iget s in
    if pnm_newline c then Ok s
    else match fuel with O => NoFuel | S f => pnm_skip_line f s end
  else Ok s.

(** netpbm.hh:64-65  for (...; c == '#'; c = is.get()) skip the line; [c] is the character read last *)
Fixpoint pnm_comments (fuel : nat) (c : Z) (s : istream) : outcome (Z * istream) :=
  if c =? 35 then
    match fuel with
    | O => NoFuel
    | S f => s <- pnm_skip_line fuel s ;; let '(c, s) := iget s in pnm_comments f c s
    end
  else Ok (c, s).

(** netpbm.hh:66-67  while (space(c)) c = is.get(); *)
Fixpoint pnm_spaces (fuel : nat) (c : Z) (s : istream) : outcome (Z * istream) :=
  if pnm_space c then
    match fuel with O => NoFuel | S f => let '(c, s) := iget s in pnm_spaces f c s end
  else Ok (c, s).

(** netpbm.hh:68-69  for (num[i] = 0; digit(c); c = is.get()) num[i] = 10 * num[i] + value(c); *)
Fixpoint pnm_number (fuel : nat) (num c : Z) (s : istream) : outcome (Z * Z * istream) :=
  if pnm_digit c then
    match fuel with
    | O => NoFuel
    | S f =>
        t <- ichk (10 * num) ;;
        num <- ichk (t + pnm_value c) ;;
        let '(c, s) := iget s in pnm_number f num c s
    end
  else Ok (num, c, s).

(** netpbm.hh:62-70  one iteration of the loop over num[i] *)
Definition pnm_field (fuel : nat) (c : Z) (s : istream) : outcome (Z * Z * istream) :=
  '(c, s) <- (if pnm_newline c then let '(c, s) := iget s in pnm_comments fuel c s else Ok (c, s)) ;;
  '(c, s) <- pnm_spaces fuel c s ;;
  pnm_number fuel 0 c s.

(** netpbm.hh:17-19  data members; [None] = not initialised *)
Record rpnm := { p_is : istream; p_width : option Z; p_height : option Z; p_maxval : option Z;
  p_mono : option bool }.

(** netpbm.hh:44-76  constructor.  Every loop reads one character per iteration, so the length of the
    file bounds the iterations ([fuel]). *)
Definition rpnm_open (s : istream) : outcome rpnm :=
  let fuel := (length (ibytes s) + 2)%nat in
  let ret s mono := Ok {| p_is := s; p_width := None; p_height := None; p_maxval := None; p_mono := mono |} in
  let '(c, s) := iget s in
  if negb (c =? 80) then ret s None else                                     (* 46-47 *)
  let '(c, s) := iget s in
  if negb (pnm_digit c) then ret s None else                                 (* 49-50 *)
  let number := pnm_value c in
  if negb (number =? 5) && negb (number =? 6) then ret s None else           (* 52-57 *)
  let mono := number =? 5 in
  let '(c, s) := iget s in
  if negb (pnm_space c) then ret s (Some mono) else                          (* 58-60 *)
  '(n0, c, s) <- pnm_field fuel c s ;;
  '(n1, c, s) <- pnm_field fuel c s ;;
  '(n2, c, s) <- pnm_field fuel c s ;;
  if negb (pnm_space c) then ret s (Some mono) else                          (* 71-72 *)
  Ok {| p_is := s; p_width := Some n0; p_height := Some n1; p_maxval := Some n2; p_mono := Some mono |}.

(** netpbm.hh:97-100 good() *)
Definition rpnm_good (r : rpnm) : bool := igood (p_is r).

(** use of a bool that may be uninitialised *)
Definition fldb (o : option bool) : outcome bool := match o with Some v => Ok v | None => Undefined end.

(** os << n for an int n in the default locale (standard library): decimal digits *)
Fixpoint dec_digits (fuel : nat) (n : Z) : list Z :=
  match fuel with
  | O => []
  | S f => if n <? 10 then [48 + n] else dec_digits f (n / 10) ++ [48 + n mod 10]
  end.
Definition print_int (n : Z) : list Z :=
  if n <? 0 then 45 :: dec_digits 20 (- n) else dec_digits 20 n.

(** netpbm.hh:121-125  data members of WritePNM *)
Record wpnm := { q_os : ostream; q_width : Z; q_height : Z; q_maxval : Z; q_mono : bool }.

(** netpbm.hh:135-141  constructor *)
Definition wpnm_open (width height : Z) (mono : bool) (maxval : Z) : wpnm :=
  let number := if mono then 5 else 6 in
  let s := oopen_trunc in
  let s := owrite [80] s in
  let s := owrite (print_int number) s in
  let s := owrite [32] s in
  let s := owrite (print_int width) s in
  let s := owrite [32] s in
  let s := owrite (print_int height) s in
  let s := owrite [32] s in
  let s := owrite (print_int maxval) s in
  let s := owrite [10] s in
  {| q_os := s; q_width := width; q_height := height; q_maxval := maxval; q_mono := mono |}.

Section Pixels.
(** [lin maxval code] is linear(), [enc maxval x] is srgb() *)
Context {T : Type} (lin : Z -> Z -> T) (enc : Z -> T -> Z).

(** netpbm.hh:77-96  read(buf, num, stride).  linear() reads maxval_. *)
Definition rpnm_read (r : rpnm) (buf : list T) (num stride : Z) : outcome (list T * rpnm) :=
  mono <- fldb (p_mono r) ;;
  '(buf, s) <-
    (if mono : bool then
       let stride := if stride <? 0 then 1 else stride in
       for_loop (Z.to_nat num) 0 (fun i '(buf, s) =>
         mv <- fld (p_maxval r) ;;
         let '(G, s) := iget s in
         i0 <- ichk (stride * i) ;;
         buf <- set buf i0 (lin mv G) ;;
         Ok (buf, s)) (buf, p_is r)
     else
       let stride := if stride <? 0 then 3 else stride in
       for_loop (Z.to_nat num) 0 (fun i '(buf, s) =>
         mv <- fld (p_maxval r) ;;
         let '(R_, s) := iget s in
         let '(G, s) := iget s in
         let '(B, s) := iget s in
         i0 <- ichk (stride * i) ;;
         i1 <- ichk (i0 + 1) ;;
         i2 <- ichk (i0 + 2) ;;
         buf <- set buf i0 (lin mv R_) ;;
         buf <- set buf i1 (lin mv G) ;;
         buf <- set buf i2 (lin mv B) ;;
         Ok (buf, s)) (buf, p_is r)) ;;
  Ok (buf, {| p_is := s; p_width := p_width r; p_height := p_height r; p_maxval := p_maxval r;
              p_mono := p_mono r |}).

(** os.put(int): conversion to char keeps the low eight bits *)
Definition oput_int (c : Z) (s : ostream) : ostream := oput (c mod 256) s.

(** netpbm.hh:142-163  write(buf, num, stride) *)
Definition wpnm_write (w : wpnm) (buf : list T) (num stride : Z) : outcome wpnm :=
  s <-
    (if q_mono w then
       let stride := if stride <? 0 then 1 else stride in
       for_loop (Z.to_nat num) 0 (fun i s =>
         i0 <- ichk (stride * i) ;;
         x <- get buf i0 ;;
         Ok (oput_int (enc (q_maxval w) x) s)) (q_os w)
     else
       let stride := if stride <? 0 then 3 else stride in
       for_loop (Z.to_nat num) 0 (fun i s =>
         i0 <- ichk (stride * i) ;;
         i1 <- ichk (i0 + 1) ;;
         i2 <- ichk (i0 + 2) ;;
         x0 <- get buf i0 ;;
         x1 <- get buf i1 ;;
         x2 <- get buf i2 ;;
         Ok (oput_int (enc (q_maxval w) x2) (oput_int (enc (q_maxval w) x1)
              (oput_int (enc (q_maxval w) x0) s)))) (q_os w)) ;;
  Ok {| q_os := s; q_width := q_width w; q_height := q_height w; q_maxval := q_maxval w;
        q_mono := q_mono w |}.
End Pixels.

(** netpbm.hh:21-26  linear(val) in exact arithmetic; std::pow of a positive base is [Rpower] (the base
    (val + a)/(maxval + a) is positive whenever the second branch is taken and maxval >= 1) *)
Definition pnm_linear (maxval val : Z) : R :=
  let K0 := ZnearestE (0.04045 * IZR maxval) in
  let phi := (12.92 * IZR maxval)%R in
  let a := (0.055 * IZR maxval)%R in
  if val <=? K0 then (IZR val / phi)%R
  else Rpower ((IZR val + a) / (IZR maxval + a)) 2.4.

(** netpbm.hh:127-133  srgb(val) in exact arithmetic; std::max(a,b) = a < b ? b : a, std::min(a,b) =
    b < a ? b : a *)
Definition pnm_srgb (maxval : Z) (val : R) : Z :=
  let v := if Rlt_bool val 0 then 0%R else val in
  let v := if Rlt_bool 1 v then 1%R else v in
  let v := if Rle_bool v (0.04045 / 12.92) then (v * 12.92)%R
           else ((1 + 0.055) * Rpower v (1 / 2.4) - 0.055)%R in
  ZnearestE (IZR maxval * v).
