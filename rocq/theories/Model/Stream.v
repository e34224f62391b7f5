(* Model of the std::ifstream / std::ofstream operations used by wav.hh and netpbm.hh.  This file models
   the C++ standard library, not /repo. *)
From Verif Require Export Model.Base.
Open Scope Z_scope.

(** ** Input streams: the file's bytes (0..255), the get position and the two state bits used *)
Record istream := { ibytes : list Z; ipos : Z; ieof : bool; ifail : bool }.

(** a stream just opened on a file with the given content / whose opening failed *)
Definition iopen (bytes : list Z) : istream := {| ibytes := bytes; ipos := 0; ieof := false; ifail := false |}.
Definition iopen_failed : istream := {| ibytes := []; ipos := 0; ieof := false; ifail := true |}.

(** is.good() *)
Definition igood (s : istream) : bool := negb (ieof s) && negb (ifail s).

(** is.get(): next byte, or EOF = -1 setting eofbit and failbit; on a stream that is not good only
    failbit is set *)
Definition iget (s : istream) : Z * istream :=
  if igood s then
    match znth (ibytes s) (ipos s) with
    | Some b => (b, {| ibytes := ibytes s; ipos := ipos s + 1; ieof := false; ifail := false |})
    | None => (-1, {| ibytes := ibytes s; ipos := ipos s; ieof := true; ifail := true |})
    end
  else (-1, {| ibytes := ibytes s; ipos := ipos s; ieof := ieof s; ifail := true |}).

(** is.read(buf, n) into an uninitialised char buf[n]: cells that could not be read stay uninitialised *)
Fixpoint iread (n : nat) (s : istream) : list (option Z) * istream :=
  match n with
  | O => ([], s)
  | S n' =>
      let '(c, s1) := iget s in
      let '(cs, s2) := iread n' s1 in
      ((if igood s1 then Some c else None) :: cs, s2)
  end.

(** is.seekg(off, std::ios_base::cur): clears eofbit; does nothing but keep failbit on a failed stream;
    positions past the end are allowed, negative positions fail *)
Definition iseek_cur (off : Z) (s : istream) : istream :=
  if ifail s then {| ibytes := ibytes s; ipos := ipos s; ieof := false; ifail := true |}
  else if ipos s + off <? 0 then {| ibytes := ibytes s; ipos := ipos s; ieof := false; ifail := true |}
  else {| ibytes := ibytes s; ipos := ipos s + off; ieof := false; ifail := false |}.

(** ** Output streams: put position and all puts (position, byte) in program order.  Writing never
    fails in this model. *)
Record ostream := { opos : Z; oputs : list (Z * Z) }.
Definition oopen_trunc : ostream := {| opos := 0; oputs := [] |}.

(** the file that results from a sequence of puts *)
Definition store (f : list Z) (pb : Z * Z) : list Z :=
  if fst pb <? zlen f then zupd f (fst pb) (snd pb) else f ++ [snd pb].
Definition file_of (puts : list (Z * Z)) : list Z := fold_left store puts [].

(** os.put(c); os.write(s, n); os.seekp(p); os.tellp() *)
Definition oput (c : Z) (s : ostream) : ostream := {| opos := opos s + 1; oputs := oputs s ++ [(opos s, c)] |}.
Definition owrite (cs : list Z) (s : ostream) : ostream := fold_left (fun s c => oput c s) cs s.
Definition oseek (p : Z) (s : ostream) : ostream := {| opos := p; oputs := oputs s |}.
Definition otell (s : ostream) : Z := opos s.

(** use of an int variable that may be uninitialised *)
Definition fld (o : option Z) : outcome Z := match o with Some v => Ok v | None => Undefined end.

(** conversion of a wider integer to int (two's complement) *)
Definition int32 (z : Z) : Z := (z + 2147483648) mod 4294967296 - 2147483648.
