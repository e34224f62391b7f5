(* The angle of a point of the plane *)
From Coq Require Import Reals.
Open Scope R_scope.

(** t is the angle of (x, y): in (-pi, pi], with cosine and sine proportional to x and y *)
Definition angle_of (x y t : R) : Prop :=
  - PI < t <= PI /\ x = sqrt (x * x + y * y) * cos t /\ y = sqrt (x * x + y * y) * sin t.
