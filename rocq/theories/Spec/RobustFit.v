(* Specification vocabulary: slopes between points, for the median based line estimators *)
From Coq Require Import Reals List.
Import ListNotations.
Open Scope R_scope.

(** slopes / intercepts of the lines through point i and each of the first n points with another abscissa *)
Definition slopes_at (n : nat) (x y : nat -> R) (i : nat) : list R :=
  flat_map (fun j => if Req_EM_T (x j) (x i) then [] else [(y j - y i) / (x j - x i)]) (seq 0 n).
Definition icepts_at (n : nat) (x y : nat -> R) (i : nat) : list R :=
  flat_map (fun j => if Req_EM_T (x j) (x i) then [] else [(x j * y i - x i * y j) / (x j - x i)]) (seq 0 n).
(** slopes between all pairs i < j of the first n points with different abscissas *)
Definition pair_slopes (n : nat) (x y : nat -> R) : list R :=
  flat_map (fun i => flat_map (fun j => if Req_EM_T (x j) (x i) then [] else [(y j - y i) / (x j - x i)]) (seq (S i) (n - S i))) (seq 0 n).
(** y_i - slope x_i for the first n points *)
Definition residuals (n : nat) (x y : nat -> R) (slope : R) : list R := map (fun i => y i - slope * x i) (seq 0 n).
(** how often b occurs, how many of the first n indices satisfy [good] *)
Definition times (b : R) (l : list R) : nat := count_occ Req_EM_T l b.
Definition many (n : nat) (good : nat -> bool) : nat := length (filter good (seq 0 n)).
