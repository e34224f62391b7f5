(* Lemmas about sample-by-sample objects *)
From Coq Require Import List Lia.
From Verif Require Import Model.Signal.
Import ListNotations.

Lemma state_at_app {S I O} (step : S -> I -> S * O) s x t : state_at step s x (Datatypes.S t) = state_at step (fst (step s (x 0))) (fun k => x (Datatypes.S k)) t.
Proof. induction t as [|t IH]; auto. cbn [state_at] in *. rewrite IH. reflexivity. Qed.
Lemma out_S {S I O} (step : S -> I -> S * O) s x t : out step s x (Datatypes.S t) = out step (fst (step s (x 0))) (fun k => x (Datatypes.S k)) t.
Proof. unfold out. rewrite state_at_app. reflexivity. Qed.

(** a finite history is a prefix of a signal *)
Lemma calls_out {S I O} (step : S -> I -> S * O) n : forall s x,
  calls step s (map x (seq 0 n)) = (state_at step s x n, map (out step s x) (seq 0 n)).
Proof.
  induction n as [|n IH]; intros s x; [reflexivity|].
  cbn [seq map calls]. rewrite <- seq_shift, !map_map.
  destruct (step s (x 0)) as [s1 o] eqn:E. rewrite IH.
  rewrite state_at_app, E. f_equal. f_equal.
  - unfold out. cbn. rewrite E. reflexivity.
  - apply map_ext. intros a. rewrite out_S, E. reflexivity.
Qed.

(** signals that agree so far give the same output *)
Lemma state_at_ext {S I O} (step : S -> I -> S * O) s x x' t : (forall k, k < t -> x k = x' k) -> state_at step s x t = state_at step s x' t.
Proof. induction t as [|t IH]; intros H; auto. cbn. rewrite IH, H by (auto; lia). reflexivity. Qed.
Lemma out_ext {S I O} (step : S -> I -> S * O) s x x' t : (forall k, k <= t -> x k = x' k) -> out step s x t = out step s x' t.
Proof. intros H. unfold out. rewrite (state_at_ext step s x x') by (intros; apply H; lia). rewrite H by lia. reflexivity. Qed.

(** a relation between states is kept by two objects *)
Lemma out_sim {S S' I I' O O'} (step : S -> I -> S * O) (step' : S' -> I' -> S' * O') (Rs : S -> S' -> Prop) (Ri : I -> I' -> Prop) (Ro : O -> O' -> Prop) :
  (forall s s' i i', Rs s s' -> Ri i i' -> Rs (fst (step s i)) (fst (step' s' i')) /\ Ro (snd (step s i)) (snd (step' s' i'))) ->
  forall s s' x x', Rs s s' -> (forall t, Ri (x t) (x' t)) -> forall t, Ro (out step s x t) (out step' s' x' t).
Proof.
  intros H s s' x x' Hs Hx t. assert (P : Rs (state_at step s x t) (state_at step' s' x' t)).
  { induction t as [|t IH]; auto. cbn. apply H; auto. }
  apply H; auto.
Qed.
