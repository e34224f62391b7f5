(* Radix selection *)
From Coq Require Import ZArith Znumtheory Lia List.
From Verif Require Import Proofs.BaseLemmas Spec.Dft Model.Fft.
Import ListNotations.
Open Scope Z_scope.

Definition radices : list Z := [2; 3; 4; 5; 7; 8; 11; 13; 17; 19; 23; 29; 31].

Ltac split_cases :=
  unfold split; repeat match goal with
  | |- context [if ?b then _ else _] => let E := fresh "E" in destruct b eqn:E
  end.

Lemma split_spec N : 0 < N -> (split N = 1 /\ Forall (fun p => ~ (p | N)) radices) \/ (In (split N) radices /\ (split N | N)).
Proof.
  intros HN. unfold radices. split_cases;
    repeat match goal with
    | H : (_ && _)%bool = true |- _ => apply andb_prop in H; destruct H
    end;
    try solve [right; split; [cbn; tauto| apply Z.mod_divide; [lia|apply Z.eqb_eq; assumption]]].
  - right. split; [cbn; tauto|]. apply Z.mod_divide; [lia|].
    apply Z.eqb_eq in H. apply Z.mod_divide in H as (q & Hq); [|lia]. rewrite Hq. replace (q * 8) with (q * 4 * 2) by ring. apply Z.mod_mul. lia.
  - left. split; auto.
    assert (D : forall p, p <> 0 -> (N mod p =? 0) = false -> ~ (p | N)).
    { intros p Hp Hm Hd. apply Z.mod_divide in Hd; auto. apply Z.eqb_neq in Hm. contradiction. }
    assert (~ (2 | N)) by (apply D; [lia|assumption]).
    assert (~ (4 | N)) by (intros (q & ->); apply H; exists (q * 2); lia).
    assert (~ (8 | N)) by (intros (q & ->); apply H; exists (q * 4); lia).
    repeat constructor; auto; (apply D; [lia|assumption]).
Qed.

Lemma radices_bound r : In r radices -> 2 <= r <= 31.
Proof. unfold radices; cbn. intuition lia. Qed.

Lemma small_prime p : prime p -> p <= 31 -> In p radices.
Proof.
  intros Hp Hle. pose proof (prime_ge_2 p Hp) as H2.
  assert (NP : forall d, (d | p) -> 1 < d -> d < p -> False).
  { intros d Hd H1 H3. destruct (prime_divisors p Hp d Hd) as [H|[H|[H|H]]]; lia. }
  assert (C : (2 | p) \/ (3 | p) \/ (5 | p) \/ In p [7; 11; 13; 17; 19; 23; 29; 31]).
  { assert (E : In p (map Z.of_nat (seq 2 30))). { apply in_map_iff. exists (Z.to_nat p). split; [lia|]. apply in_seq. lia. }
    cbn in E.
    repeat (destruct E as [<-|E]; [
      first [left; apply Z.mod_divide; [lia|reflexivity] | right; left; apply Z.mod_divide; [lia|reflexivity]
            | right; right; left; apply Z.mod_divide; [lia|reflexivity] | right; right; right; cbn; tauto]|]). contradiction. }
  unfold radices. destruct C as [C|[C|[C|C]]].
  - destruct (Z.eq_dec p 2) as [->|]; [cbn; tauto|]. exfalso. eapply NP; eauto; lia.
  - destruct (Z.eq_dec p 3) as [->|]; [cbn; tauto|]. exfalso. apply (NP 3); auto; try lia. apply Z.divide_pos_le in C; lia.
  - destruct (Z.eq_dec p 5) as [->|]; [cbn; tauto|]. exfalso. apply (NP 5); auto; try lia. apply Z.divide_pos_le in C; lia.
  - cbn in *. tauto.
Qed.

Lemma prime_factor n : 1 < n -> exists p, prime p /\ (p | n).
Proof.
  intros H. assert (G : forall k m, 1 < m -> m <= Z.of_nat k -> exists p, prime p /\ (p | m)).
  { induction k as [|k IH]; intros m Hm Hk; [lia|].
    destruct (prime_dec m) as [P|P]; [exists m; split; [auto|apply Z.divide_refl]|].
    destruct (not_prime_divide m ltac:(lia) P) as (d & Hd & Hdiv).
    destruct (IH d ltac:(lia) ltac:(lia)) as (p & Hp & Hpd). exists p. split; auto. eapply Z.divide_trans; eauto. }
  apply (G (Z.to_nat n)); lia.
Qed.

Lemma smooth_divide a b : (a | b) -> smooth31 b -> smooth31 a.
Proof. intros D S p Hp Hd. apply S; auto. eapply Z.divide_trans; eauto. Qed.

(** a 31-smooth size is 1 or has a supported radix *)
Lemma split_smooth N : 0 < N -> smooth31 N -> (N = 1 /\ split N = 1) \/ (In (split N) radices /\ exists q, N = split N * q /\ 0 < q < N /\ smooth31 q).
Proof.
  intros HN HS. destruct (split_spec N HN) as [[E F]|[I (q & D)]].
  - left. split; auto. destruct (Z.eq_dec N 1); auto. exfalso.
    destruct (prime_factor N ltac:(lia)) as (p & Hp & Hd). specialize (HS p Hp Hd). pose proof (small_prime p Hp HS) as HI.
    rewrite Forall_forall in F. now apply (F p HI).
  - right. split; auto. pose proof (radices_bound _ I). exists q. splits; try nia. eapply smooth_divide; eauto. exists (split N). lia.
Qed.
Lemma split_1 : split 1 = 1. Proof. reflexivity. Qed.

Lemma split_radix_smooth r : In r radices -> forall p, prime p -> (p | r) -> p <= 31.
Proof. intros I p Hp Hd. pose proof (radices_bound r I). apply Z.divide_pos_le in Hd; lia. Qed.
Lemma smooth_mul a b : smooth31 a -> smooth31 b -> smooth31 (a * b).
Proof. intros A B p Hp Hd. destruct (prime_mult p Hp a b Hd); auto. Qed.
Lemma smooth_radix r : In r radices -> smooth31 r.
Proof. intros I p. now apply split_radix_smooth. Qed.
Lemma smooth_1 : smooth31 1.
Proof. intros p Hp Hd. apply Z.divide_pos_le in Hd; lia. Qed.
