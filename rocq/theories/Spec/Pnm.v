(* Specification vocabulary for Netpbm headers *)
From Coq Require Import List ZArith.
Import ListNotations.
Open Scope Z_scope.

(** blank, line feed, tab *)
Definition ws (b : Z) : Prop := b = 32 \/ b = 10 \/ b = 9.
Definition dig (b : Z) : Prop := 48 <= b <= 57.

(** a comment line: '#', anything but a line feed, line feed *)
Definition comment_line (c : list Z) : list Z := 35 :: c ++ [10].

(** what separates two tokens: one white space character; if it is a line feed, any number of comment
    lines; any number of white space characters *)
Definition separator (s : list Z) : Prop :=
  exists b cs sp, ws b /\ Forall (fun c => ~ In 10 c) cs /\ (b = 10 \/ cs = []) /\ Forall ws sp /\
    s = b :: concat (map comment_line cs) ++ sp.

(** value of a decimal number *)
Definition dec_value (ds : list Z) : Z := fold_left (fun v d => 10 * v + (d - 48)) ds 0.
Definition number (ds : list Z) (v : Z) : Prop := ds <> [] /\ Forall dig ds /\ dec_value ds = v.

(** the header of a binary grey (P5) or colour (P6) file, up to and including the single white space
    character after maxval *)
Definition pnm_header (mono : bool) (width height maxval : Z) (text : list Z) : Prop :=
  exists s0 d0 s1 d1 s2 d2 t,
    separator s0 /\ number d0 width /\ separator s1 /\ number d1 height /\ separator s2 /\ number d2 maxval /\
    ws t /\ text = [80; if mono then 53 else 54] ++ s0 ++ d0 ++ s1 ++ d1 ++ s2 ++ d2 ++ [t].

(** a header in which one of the numbers, the earlier ones being at most [big], exceeds [big]; the file may go on in any way *)
Definition pnm_overflow (big : Z) (file : list Z) : Prop :=
  exists (mono : bool) (before : list (list Z * list Z)) s d w rest, (length before <= 2)%nat /\
    Forall (fun sd => separator (fst sd) /\ exists v, number (snd sd) v /\ v <= big) before /\
    separator s /\ number d w /\ big < w /\
    file = [80; if mono then 53 else 54] ++ concat (map (fun sd => fst sd ++ snd sd) before) ++ s ++ d ++ rest.
