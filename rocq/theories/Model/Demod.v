(* Model of /repo/amd.hh and /repo/fmd.hh *)
From Coq Require Import Reals ZArith.
From Verif Require Export Model.Signal Model.Const Model.Utils.

Section Demod.
Context {T : Type} (N : num T).
(** std::max and std::min *)
Definition nmax (a b : T) : T := if nltb N a b then b else a.
Definition nmin (a b : T) : T := if nltb N b a then b else a.

(** amd.hh:16 *)
Record amd := mkAmd { am_avg : T; am_att : T; am_dec : T; am_lo : T; am_hi : T; am_idx : T }.
(** amd.hh:18-20 *)
Definition amd_new : amd := mkAmd (n0 N) (n0 N) (n0 N) (nlit N 0.001) (n1 N) (n1 N).
(** amd.hh:21-24 *)
Definition amd_index (a : amd) (modidx : T) : amd := mkAmd (am_avg a) (am_att a) (am_dec a) (am_lo a) (am_hi a) modidx.
(** amd.hh:25-31 *)
Definition amd_agc (a : amd) (attack decay low high : T) : amd := mkAmd (am_avg a) attack decay low high (am_idx a).
(** amd.hh:32-39 *)
Definition amd_step (a : amd) (input : cplx T) : amd * T :=
  let amp := cabs N input in
  let avg := lerp N (vreal N) (am_avg a) amp (if nltb N amp (am_avg a) then am_dec a else am_att a) in
  let avg := nmin (nmax avg (am_lo a)) (am_hi a) in
  let amp := ndiv N amp avg in
  (mkAmd avg (am_att a) (am_dec a) (am_lo a) (am_hi a) (am_idx a),
   ndiv N (nsub N (nmul N amp (nadd N (n1 N) (am_idx a))) (n1 N)) (am_idx a)).

(** fmd.hh: prev (an angle, one or two samples) and scale; [argf] is arg *)
Record fmd P := mkFmd { fm_prev : P; fm_scale : T }.
Arguments mkFmd {P}. Arguments fm_prev {P}. Arguments fm_scale {P}.
Context (argf : cplx T -> T).
(** fmd.hh:27-29, 52-54, 75-77, 98-100, 124-126  constructors *)
Definition fmd1_new : fmd T := mkFmd (n0 N) (n0 N).
Definition fmd_new : fmd (cplx T) := mkFmd (cmk (n1 N) (n0 N)) (n0 N).
Definition fmd5_new : fmd (cplx T * cplx T) := mkFmd (cmk (n1 N) (n0 N), cmk (n1 N) (n0 N)) (n0 N).
(** fmd.hh:30-33, 55-58, 78-81, 101-104  bandwidth of FMD1 to FMD4 *)
Definition fmd_bandwidth {P} (f : fmd P) (bw : T) : fmd P := mkFmd (fm_prev f) (ndiv N (n1 N) (nmul N bw (Pi N))).
(** fmd.hh:127-130  bandwidth of FMD5 *)
Definition fmd5_bandwidth {P} (f : fmd P) (bw : T) : fmd P := mkFmd (fm_prev f) (ndiv N (n1 N) (nmul N bw (TwoPi N))).
(** fmd.hh:18-25 *)
Definition wrap_around (angle : T) : T :=
  if nltb N angle (nopp N (Pi N)) then nadd N angle (TwoPi N)
  else if nltb N (Pi N) angle then nsub N angle (TwoPi N) else angle.
(** fmd.hh:34-41 *)
Definition fmd1_step (f : fmd T) (input : cplx T) : fmd T * T :=
  let phase := argf input in
  let delta := wrap_around (nsub N phase (fm_prev f)) in
  (mkFmd phase (fm_scale f), nmul N (fm_scale f) delta).
(** fmd.hh:59-64 *)
Definition fmd2_step (f : fmd (cplx T)) (input : cplx T) : fmd (cplx T) * T :=
  let phase := argf (cdiv N input (fm_prev f)) in (mkFmd input (fm_scale f), nmul N (fm_scale f) phase).
(** fmd.hh:82-87 *)
Definition fmd3_step (f : fmd (cplx T)) (input : cplx T) : fmd (cplx T) * T :=
  let phase := argf (cmul N input (cconj N (fm_prev f))) in (mkFmd input (fm_scale f), nmul N (fm_scale f) phase).
(** prev.real() * v.imag() - prev.imag() * v.real() *)
Definition cross (prev v : cplx T) : T := nsub N (nmul N (creal prev) (cimag v)) (nmul N (cimag prev) (creal v)).
(** fmd.hh:105-113 *)
Definition fmd4_step (f : fmd (cplx T)) (input : cplx T) : fmd (cplx T) * T :=
  let phase := ndiv N (cross (fm_prev f) input) (cnorm N input) in (mkFmd input (fm_scale f), nmul N (fm_scale f) phase).
(** fmd.hh:131-140 *)
Definition fmd5_step (f : fmd (cplx T * cplx T)) (input : cplx T) : fmd (cplx T * cplx T) * T :=
  let '(prev1, prev2) := fm_prev f in
  let diff := csub N input prev2 in
  let phase := ndiv N (cross prev1 diff) (cnorm N prev1) in
  (mkFmd (input, prev1) (fm_scale f), nmul N (fm_scale f) phase).
End Demod.
Arguments amd T : clear implicits.
Arguments fmd T P : clear implicits.
Arguments mkFmd {T P}. Arguments fm_prev {T P}. Arguments fm_scale {T P}.
