(* Lemmas about arrays used as shift registers *)
From Coq Require Import List ZArith Lia.
From Verif Require Import Model.OSignal Proofs.BaseLemmas.
Open Scope Z_scope.

Lemma shift_in_eq {A} (a : list A) v : (1 <= length a)%nat -> shift_in (zlen a) a v = Ok (tl a ++ [v]).
Proof.
  intros H. unfold shift_in. set (len := zlen a). assert (L : 1 <= len) by (unfold len, zlen; lia).
  destruct (for_loop_inv (fun i a' => zlen a' = len /\ forall j, 0 <= j < len -> znth a' j = if j <? i then znth a (j + 1) else znth a j)
    (fun i a => w <- get a (i + 1) ;; set a i w) (Z.to_nat (len - 1)) 0 a) as (a' & E & (La & Na)).
  - split; [reflexivity|]. intros j Hj. destruct (Z.ltb_spec j 0); [lia|reflexivity].
  - intros i a' Hi [La Na]. rewrite Z2Nat.id in Hi by lia. destruct (get_in_range a' (i + 1)) as (w & W & ->); [lia|]. cbn [bind].
    rewrite set_in_range by lia. eexists. split; [reflexivity|]. split; [rewrite zlen_zupd; auto|]. intros j Hj. rewrite znth_zupd by lia.
    rewrite Na in W by lia. rewrite (proj2 (Z.ltb_ge (i + 1) i)) in W by lia. destruct (Z.eqb_spec j i) as [->|Nij].
    + destruct (Z.ltb_spec i (i + 1)); [congruence|lia].
    + rewrite Na by lia. destruct (Z.ltb_spec j i), (Z.ltb_spec j (i + 1)); auto; lia.
  - rewrite E. cbn [bind]. rewrite set_in_range by lia. f_equal. rewrite Z2Nat.id in Na by lia. destruct a as [|h a]; [cbn in H; lia|]. cbn [tl].
    assert (Lt : zlen (h :: a) = zlen a + 1) by (unfold zlen; cbn [length]; lia). fold len in Lt.
    apply list_eq_znth; [rewrite zlen_zupd, zlen_app; unfold zlen at 3; cbn; lia|]. rewrite zlen_zupd, La. intros j Hj. rewrite znth_zupd by lia. rewrite znth_app by lia.
    destruct (Z.eqb_spec j (len - 1)) as [Ej|Nj].
    + destruct (Z.ltb_spec j (zlen a)); [lia|]. replace (j - zlen a) with 0 by lia. reflexivity.
    + destruct (Z.ltb_spec j (zlen a)); [|lia]. rewrite Na by lia. destruct (Z.ltb_spec j (0 + (len - 1))); [|lia].
      rewrite !znth_nonneg by lia. replace (Z.to_nat (j + 1)) with (S (Z.to_nat j)) by lia. reflexivity.
Qed.

(** the values g(o), g(o+1), ..., g(o+L-1) *)
Definition wind {A} (g : Z -> A) (o : Z) (L : nat) : list A := map (fun j => g (o + Z.of_nat j)) (seq 0 L).
Lemma wind_length {A} (g : Z -> A) o L : length (wind g o L) = L.
Proof. unfold wind. rewrite map_length, seq_length. reflexivity. Qed.
Lemma wind_get {A} (g : Z -> A) o L i : 0 <= i < Z.of_nat L -> get (wind g o L) i = Ok (g (o + i)).
Proof.
  intros H. apply get_Some. rewrite znth_nonneg by lia. unfold wind. rewrite nth_error_map, (nth_error_nth' _ O) by (rewrite seq_length; lia).
  rewrite seq_nth by lia. cbn. do 2 f_equal. lia.
Qed.
Lemma wind_shift {A} (g : Z -> A) o L len v : (1 <= L)%nat -> len = Z.of_nat L -> v = g (o + Z.of_nat L) -> shift_in len (wind g o L) v = Ok (wind g (o + 1) L).
Proof.
  intros H -> ->. pose proof (shift_in_eq (wind g o L) (g (o + Z.of_nat L))) as E. rewrite wind_length in E. unfold zlen in E. rewrite wind_length in E. rewrite E by auto. f_equal.
  destruct L as [|L]; [lia|]. unfold wind. change (tl (map (fun j => g (o + Z.of_nat j)) (seq 0 (S L)))) with (map (fun j => g (o + Z.of_nat j)) (seq 1 L)). rewrite (seq_S L 0), map_app, <- seq_shift, map_map. cbn [map]. f_equal; [|f_equal; f_equal; lia].
  apply map_ext. intros j. f_equal. lia.
Qed.
Lemma wind_repeat {A} (g : Z -> A) (z : A) o L : (forall i, o <= i < o + Z.of_nat L -> g i = z) -> wind g o L = repeat z L.
Proof.
  revert o. induction L as [|L IH]; intros o H; [reflexivity|]. unfold wind in *. cbn [seq map repeat]. f_equal; [apply H; lia|].
  rewrite <- seq_shift, map_map, <- (IH (o + 1)) by (intros; apply H; lia). apply map_ext. intros j. f_equal. lia.
Qed.
Lemma wind_ext {A} (g g' : Z -> A) o L : (forall i, o <= i < o + Z.of_nat L -> g i = g' i) -> wind g o L = wind g' o L.
Proof. intros H. unfold wind. apply map_ext_in. intros j Hj. apply in_seq in Hj. apply H. lia. Qed.

Lemma ofill_spec {A} (f : Z -> outcome A) (g : Z -> A) : forall k i, (forall j, i <= j < i + Z.of_nat k -> f j = Ok (g j)) -> ofill f k i = Ok (wind g i k).
Proof.
  induction k as [|k IH]; intros i H; [reflexivity|]. cbn [ofill]. rewrite H by lia. cbn [bind]. rewrite IH by (intros; apply H; lia). cbn [bind].
  f_equal. unfold wind. cbn [seq map]. f_equal; [f_equal; lia|]. rewrite <- seq_shift, map_map. apply map_ext. intros j. f_equal. lia.
Qed.
Lemma for_loop_fold {S} (n : nat) (i : Z) (body : Z -> S -> outcome S) (f : S -> Z -> S) (s : S) :
  (forall j s, i <= j < i + Z.of_nat n -> body j s = Ok (f s j)) -> for_loop n i body s = Ok (fold_left f (map (fun j => i + Z.of_nat j) (seq 0 n)) s).
Proof.
  revert i s. induction n as [|n IH]; intros i s H; [reflexivity|]. cbn [for_loop]. rewrite H by lia. cbn [bind]. rewrite IH by (intros; apply H; lia).
  cbn [seq map fold_left]. rewrite Z.add_0_r, <- seq_shift, map_map. do 2 f_equal. apply map_ext. intros j. lia.
Qed.
