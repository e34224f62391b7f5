(* Model of /repo/const.hh *)
From Coq Require Import Reals.
From Verif Require Export Model.Num.
Open Scope R_scope.

(** const.hh:14-58  the literals; each function returns its literal converted to T *)
Definition EighthPi_lit : R := 0.3926990816987241548078304229099378605246461749218882276218680740384.
Definition FourthPi_lit : R := 0.7853981633974483096156608458198757210492923498437764552437361480769.
Definition HalfPi_lit : R := 1.570796326794896619231321691639751442098584699687552910487472296153.
Definition Pi_lit : R := 3.141592653589793238462643383279502884197169399375105820974944592307.
Definition TwoPi_lit : R := 6.283185307179586476925286766559005768394338798750211641949889184615.
Definition FourPi_lit : R := 12.56637061435917295385057353311801153678867759750042328389977836923.
Definition SqrtPi_lit : R := 1.772453850905516027298167483341145182797549456122387128213807789852.
Definition SqrtTwoPi_lit : R := 2.506628274631000502415765284811045253006986740609938316629923576342.
Definition InvSqrtTwo_lit : R := 0.7071067811865475244008443621048490392848359376884740365883398689953.

Section Const.
Context {T : Type} (N : num T).
Definition EighthPi : T := nlit N EighthPi_lit.
Definition FourthPi : T := nlit N FourthPi_lit.
Definition HalfPi : T := nlit N HalfPi_lit.
Definition Pi : T := nlit N Pi_lit.
Definition TwoPi : T := nlit N TwoPi_lit.
Definition FourPi : T := nlit N FourPi_lit.
Definition SqrtPi : T := nlit N SqrtPi_lit.
Definition SqrtTwoPi : T := nlit N SqrtTwoPi_lit.
Definition InvSqrtTwo : T := nlit N InvSqrtTwo_lit.
End Const.
