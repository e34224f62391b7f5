(* Model of /repo/ema.hh, /repo/blockdc.hh and /repo/calculus.hh *)
From Coq Require Import List ZArith Reals.
From Verif Require Export Model.Base Model.Signal Model.Utils Model.Fft.
Import ListNotations.
Open Scope Z_scope.

(** blockdc.hh:14-15  TYPE x1, y1; VALUE a, b *)
Record blockdc (T V : Type) := mkBdc { bd_x1 : V; bd_y1 : V; bd_a : T; bd_b : T }.
Arguments mkBdc {T V}. Arguments bd_x1 {T V}. Arguments bd_y1 {T V}. Arguments bd_a {T V}. Arguments bd_b {T V}.
(** ema.hh:17-18  TYPE prev; VALUE alpha *)
Record ema (T V : Type) := mkEma { em_prev : V; em_alpha : T }.
Arguments mkEma {T V}. Arguments em_prev {T V}. Arguments em_alpha {T V}.
(** ema.hh:45-46  TYPE prev[ORDER]; VALUE alpha *)
Record emac (T V : Type) := mkEmac { ec_prev : list V; ec_alpha : T }.
Arguments mkEmac {T V}. Arguments ec_prev {T V}. Arguments ec_alpha {T V}.

Section Filters.
Context {T : Type} (N : num T) (tr : trig T) {V : Type} (M : vsp T V).

(** blockdc.hh:17-19 *)
Definition blockdc_new : blockdc T V := mkBdc (v0 M) (v0 M) (n0 N) (nlit N (1/2)%R).
(** blockdc.hh:20-24 *)
Definition blockdc_samples (d : blockdc T V) (s : Z) : blockdc T V :=
  let a := ndiv N (nofZ N (s - 1)) (nofZ N s) in
  mkBdc (bd_x1 d) (bd_y1 d) a (ndiv N (nadd N (n1 N) a) (nofZ N 2)).
(** blockdc.hh:25-30 *)
Definition blockdc_step (d : blockdc T V) (x0 : V) : blockdc T V * V :=
  let y0 := vadd M (vscale M (bd_b d) (vsub M x0 (bd_x1 d))) (vscale M (bd_a d) (bd_y1 d)) in
  (mkBdc x0 y0 (bd_a d) (bd_b d), y0).

(** ema.hh:19-23 and 68-72  cutoff_alpha *)
Definition cutoff_alpha (n K : Z) : T :=
  let x := tcos tr n K in
  nadd N (nsub N x (n1 N)) (nsqrt N (nadd N (nmul N x (nsub N x (nofZ N 4))) (nofZ N 3))).
(** ema.hh:28-31 *)
Definition ema_cutoff (e : ema T V) (n K : Z) : ema T V := mkEma (em_prev e) (cutoff_alpha n K).
(** ema.hh:32-35 *)
Definition ema_samples (e : ema T V) (s : Z) : ema T V := mkEma (em_prev e) (ndiv N (n1 N) (nofZ N s)).
(** ema.hh:36-39 *)
Definition ema_step (e : ema T V) (input : V) : ema T V * V :=
  let p := lerp N M (em_prev e) input (em_alpha e) in (mkEma p (em_alpha e), p).

(** ema.hh:47-67  cascade_factor(n): the literals *)
Definition cascade_factor (n : nat) : T := nlit N (match n with
  | 2%nat => 0.6435942529055826247354434374182098089242027424440076511561520093520%R
  | 3%nat => 0.5098245285339585980866134620415975171004662971729213347866667412748%R
  | 4%nat => 0.4349794420460822959023617403105260887838801269492020945122292703957%R
  | 5%nat => 0.3856142567346739149847213965799930737314794827929705449459805476567%R
  | 6%nat => 0.3499457790992384314823879950215014587750945565870355960474164484675%R
  | 7%nat => 0.3226290651410878970708971817580301448745259798477682170908870012270%R
  | 8%nat => 0.3008450309798346315492310951214492771360484456002599192820777432131%R
  | 9%nat => 0.2829482972069387977799123584440613415063420296903386876512703264517%R
  | 10%nat => 0.2679056970956257290860485974661891235831324413057223464282157983007%R
  | 11%nat => 0.2550315459702243937103098780342370981449477556708628034249027758407%R
  | 12%nat => 0.2438505574307659124524083486415529630644763241448445300317390218311%R
  | 13%nat => 0.2340215299532217691188557628487431016851279721568792383213019527102%R
  | 14%nat => 0.2252923404228812762935182605055552181633447787610798690912140601327%R
  | 15%nat => 0.2174721196397982365782144895603276387766971846333067133969338153904%R
  | 16%nat => 0.2104133608576552353576644943161359426249259240013118976757629219108%R
  | _ => 1%R end).
(** ema.hh:74-78 *)
Definition emac_new (ORDER : nat) : emac T V := mkEmac (repeat (v0 M) ORDER) (n1 N).
(** ema.hh:79-82; [rint] is nearbyint *)
Definition emac_cutoff (rint : T -> Z) (e : emac T V) (n K : Z) : emac T V :=
  mkEmac (ec_prev e) (cutoff_alpha (rint (ndiv N (nofZ N n) (cascade_factor (length (ec_prev e))))) K).
(** ema.hh:83-88 *)
Fixpoint emac_loop (alpha : T) (prev : list V) (input : V) : list V * V :=
  match prev with
  | [] => ([], input)
  | p :: prev' => let i := lerp N M p input alpha in let '(ps, o) := emac_loop alpha prev' i in (i :: ps, o)
  end.
Definition emac_step (e : emac T V) (input : V) : emac T V * V :=
  let '(ps, o) := emac_loop (ec_alpha e) (ec_prev e) input in (mkEmac ps (ec_alpha e), o).
End Filters.

(** calculus.hh over any type with + and - *)
Section Calculus.
Context {A : Type} (add sub : A -> A -> A).
(** calculus.hh:12-23  Integrator: the state is sum *)
Definition integrator_step (sum input : A) : A * A := let s := add sum input in (s, s).
(** calculus.hh:26-38  Differentiator: the state is prev *)
Definition differentiator_step (prev input : A) : A * A := (input, sub input prev).
End Calculus.
