(* Correctness of the recursion of FFT::Dit, for any notion [V] of correct value of a bin *)
From Coq Require Import ZArith Lia List.
From Verif Require Import Proofs.BaseLemmas Spec.Dft Model.Fft Proofs.FftSplit.
Import ListNotations.
Open Scope Z_scope.

Section DitGen.
Context {T : Type} (N : num T) (tr : trig T).
Notation C := (cplx T).

Lemma gets_ok (inp : list C) s n : forall i, 0 <= s -> 0 <= i -> (n = O \/ i + (Z.of_nat n - 1) * s < zlen inp) ->
  exists ins, gets inp i s n = Ok ins /\ zlen ins = Z.of_nat n /\ forall j, 0 <= j < Z.of_nat n -> znth ins j = znth inp (i + j * s).
Proof.
  induction n as [|n IH]; intros i Hs Hi Hn.
  - exists []. splits; auto. lia.
  - destruct Hn as [|Hn]; [lia|]. cbn [gets]. destruct (get_in_range inp i ltac:(nia)) as (v & Hv & ->). cbn [bind].
    destruct (IH (i + s)) as (ins & -> & L & P); [lia|lia|destruct n; [auto|right; nia]|]. cbn [bind].
    exists (v :: ins). splits; auto. { unfold zlen in *. cbn [length]. lia. }
    intros j Hj. destruct (Z.eq_dec j 0) as [->|].
    + rewrite Z.mul_0_l, Z.add_0_r. auto.
    + rewrite znth_nonneg by lia. replace (Z.to_nat j) with (S (Z.to_nat (j - 1))) by lia. cbn [nth_error].
      rewrite <- znth_nonneg by lia. rewrite P by lia. f_equal. lia.
Qed.

Lemma sets_ok step vs : forall (out : list (option C)) o, 0 < step -> 0 <= o -> (vs = [] \/ o + (zlen vs - 1) * step < zlen out) ->
  exists out', sets out o step vs = Ok out' /\ zlen out' = zlen out /\
    (forall j v, znth vs j = Some v -> znth out' (o + j * step) = Some (Some v)) /\
    (forall m, (forall j, 0 <= j < zlen vs -> m <> o + j * step) -> znth out' m = znth out m).
Proof.
  induction vs as [|v vs IH]; intros out o Hs Ho Hn.
  - exists out. splits; auto. intros j w H. apply znth_Some_range in H. unfold zlen in H. cbn in H. lia.
  - destruct Hn as [|Hn]; [discriminate|]. assert (LV : zlen (v :: vs) = zlen vs + 1) by (unfold zlen; cbn [length]; lia).
    pose proof (zlen_nonneg vs). cbn [sets]. rewrite set_in_range by nia. cbn [bind].
    destruct (IH (zupd out o (Some v)) (o + step)) as (out' & -> & L & P & U).
    { lia. } { lia. } { destruct vs as [|w vs]; [auto|right]. rewrite zlen_zupd. nia. }
    rewrite zlen_zupd in L. exists out'. splits; auto.
    + intros j w Hj. pose proof (znth_Some_range _ _ _ Hj) as Rj. destruct (Z.eq_dec j 0) as [->|].
      * rewrite Z.mul_0_l, Z.add_0_r. rewrite U by (intros; nia). rewrite znth_zupd_eq by nia. cbn in Hj. congruence.
      * replace (o + j * step) with (o + step + (j - 1) * step) by ring. apply P.
        rewrite znth_nonneg in Hj by lia. replace (Z.to_nat j) with (S (Z.to_nat (j - 1))) in Hj by lia. cbn [nth_error] in Hj. now rewrite znth_nonneg by lia.
    + intros m Hm. rewrite U.
      * rewrite znth_zupd_ne; auto. intros ->. apply (Hm 0); lia.
      * intros j Hj ->. apply (Hm (j + 1)); lia.
Qed.

Lemma twiddled_ok (out : list (option C)) (z : list C) step l1 n : forall k l, 
  (forall j, 0 <= j < Z.of_nat n -> exists x w, znth out (k + j * step) = Some (Some x) /\ znth z (l + j * l1) = Some w) ->
  exists xs, twiddled N out z k step l l1 n = Ok xs /\ zlen xs = Z.of_nat n /\
    forall j x w, 0 <= j < Z.of_nat n -> znth out (k + j * step) = Some (Some x) -> znth z (l + j * l1) = Some w -> znth xs j = Some (cmul N w x).
Proof.
  induction n as [|n IH]; intros k l H.
  - exists []. splits; auto. lia.
  - cbn [twiddled]. destruct (H 0) as (x & w & Hx & Hw); [lia|]. rewrite Z.mul_0_l, Z.add_0_r in Hx, Hw.
    rewrite (get_Some _ _ _ Hw), (geti_Some _ _ _ Hx). cbn [bind].
    destruct (IH (k + step) (l + l1)) as (xs & -> & L & P).
    { intros j Hj. destruct (H (j + 1)) as (x' & w' & Hx' & Hw'); [lia|]. exists x', w'.
      replace (k + step + j * step) with (k + (j + 1) * step) by ring. replace (l + l1 + j * l1) with (l + (j + 1) * l1) by ring. auto. }
    cbn [bind]. exists (cmul N w x :: xs). splits; auto. { unfold zlen in *. cbn [length]. lia. }
    intros j x' w' Hj Hx' Hw'. destruct (Z.eq_dec j 0) as [->|].
    + rewrite Z.mul_0_l, Z.add_0_r in Hx', Hw'. cbn. congruence.
    + rewrite znth_nonneg by lia. replace (Z.to_nat j) with (S (Z.to_nat (j - 1))) by lia. cbn [nth_error]. rewrite <- znth_nonneg by lia.
      apply P; [lia| |].
      * rewrite <- Hx'. f_equal. ring.
      * rewrite <- Hw'. f_equal. ring.
Qed.

Context (SIGN NT : Z) (inp z : list C) (V : Z -> Z -> Z -> Z -> C -> Prop).
Hypothesis Hz : zlen z = NT.
Hypothesis Hleaf1 : forall s i v, znth inp i = Some v -> V 1 s i 0 v.
Hypothesis HleafR : forall R s i ins, In R radices -> split R = R -> 0 < s -> R * s = NT -> 0 <= i -> i + (R - 1) * s < zlen inp -> zlen ins = R ->
  (forall j, 0 <= j < R -> znth ins j = znth inp (i + j * s)) ->
  exists outs, dft N tr SIGN R ins = Ok outs /\ zlen outs = R /\ forall l v, znth outs l = Some v -> V R s i l v.
Hypothesis Hcomb : forall R q s i k0 xs ins, In R radices -> split (R * q) = R -> 1 < q -> 0 < s -> R * q * s = NT -> 0 <= i -> i + (R * q - 1) * s < zlen inp -> 0 <= k0 < q ->
  zlen xs = R -> (forall j x, znth xs j = Some x -> V q (R * s) (i + j * s) k0 x) ->
  zlen ins = R -> znth ins 0 = znth xs 0 ->
  (forall j x w, 1 <= j -> znth xs j = Some x -> znth z (j * (k0 * s)) = Some w -> znth ins j = Some (cmul N w x)) ->
  exists outs, dft N tr SIGN R ins = Ok outs /\ zlen outs = R /\ forall l v, znth outs l = Some v -> V (R * q) s i (k0 + l * q) v.

Definition bins_ok (n s o i : Z) (out' : list (option C)) : Prop :=
  forall k, 0 <= k < n -> exists v, znth out' (o + k) = Some (Some v) /\ V n s i k v.

Lemma dit_gen : forall fuel n s out o i, 0 < n -> 0 < s -> n * s = NT -> smooth31 n -> n <= Z.of_nat fuel ->
  0 <= o -> o + n <= zlen out -> 0 <= i -> i + (n - 1) * s < zlen inp ->
  exists out', dit N tr fuel SIGN (split n) n s out o inp i z = Ok out' /\ zlen out' = zlen out /\
    (forall m, ~ (o <= m < o + n) -> znth out' m = znth out m) /\ bins_ok n s o i out'.
Proof.
  induction fuel as [|fuel IH]; intros n s out o i Hn Hs HNT HS Hf Ho Hlo Hi Hli; [lia|].
  destruct (split_smooth n Hn HS) as [[-> E1]|[I (q & Eq & Hq & HSq)]].
  - rewrite E1. cbn [dit Z.eqb Pos.eqb andb]. destruct (get_in_range inp i ltac:(lia)) as (v & Hv & ->). cbn [bind].
    rewrite set_in_range by lia. eexists. split; [reflexivity|]. rewrite zlen_zupd. splits; auto.
    + intros m Hm. apply znth_zupd_ne; lia.
    + intros k Hk. assert (k = 0) by lia. subst k. exists v. rewrite Z.add_0_r, znth_zupd_eq by lia. split; auto.
  - remember (split n) as R eqn:ER. pose proof (radices_bound R I) as HR. cbn [dit].
    destruct (Z.eqb_spec R 1) as [|_]; [lia|]. cbn [andb].
    destruct (Z.eqb_spec n R) as [EnR|NE].
    + assert (q = 1) by nia. subst q.
      destruct (gets_ok inp s (Z.to_nat R) i) as (ins & -> & L & P); [lia|lia|right; nia|]. cbn [bind].
      destruct (HleafR R s i ins) as (outs & -> & LO & VO); auto; try nia; try congruence. { intros j Hj. apply P. lia. }
      cbn [bind]. destruct (sets_ok 1 outs out o) as (out' & -> & L' & P' & U'); [lia|lia|right; lia|].
      exists out'. splits; auto.
      * intros m Hm. apply U'. intros j Hj. lia.
      * intros k Hk. destruct (znth_in_range outs k ltac:(lia)) as (v & Hv). exists v. split.
        -- rewrite <- (P' _ _ Hv). f_equal. lia.
        -- rewrite EnR. apply VO. auto.
    + assert (Q : n / R = q) by (rewrite Eq, Z.mul_comm; apply Z.div_mul; lia). rewrite Q.
      assert (NI : (n + q - 1) / q = R) by (symmetry; apply (Z.div_unique (n + q - 1) q R (q - 1)); nia). rewrite NI.
      pose (P1 := fun (j : Z) (out1 : list (option C)) => zlen out1 = zlen out /\
         (forall m, ~ (o <= m < o + j * q) -> znth out1 m = znth out m) /\
         forall j', 0 <= j' < j -> bins_ok q (R * s) (o + j' * q) (i + j' * s) out1).
      edestruct (for_loop_inv P1) with (n := Z.to_nat R) (i := 0) (s := out) as (out1 & E1 & HP1).
      { unfold P1. splits; auto. intros; lia. }
      2:{ rewrite E1. cbn [bind]. rewrite Z2Nat.id in HP1 by lia. destruct HP1 as (L1 & U1 & B1). rewrite Z.add_0_l in *.
        pose (P2 := fun (k0 : Z) (out2 : list (option C)) => zlen out2 = zlen out /\
           (forall m, ~ (o <= m < o + n) -> znth out2 m = znth out m) /\
           (forall j k, 0 <= j < R -> k0 <= k < q -> znth out2 (o + j * q + k) = znth out1 (o + j * q + k)) /\
           (forall k l, 0 <= k < k0 -> 0 <= l < R -> exists v, znth out2 (o + (k + l * q)) = Some (Some v) /\ V n s i (k + l * q) v)).
        edestruct (for_loop_inv P2) with (n := Z.to_nat q) (i := 0) (s := out1) as (out2 & E2 & HP2).
        { unfold P2. splits; auto. - intros m Hm. apply U1. nia. - intros; lia. }
        2:{ rewrite E2. rewrite Z2Nat.id in HP2 by lia. destruct HP2 as (L2 & U2 & _ & B2). exists out2. splits; auto.
            intros k Hk. pose proof (Z.div_mod k q ltac:(lia)). pose proof (Z.mod_pos_bound k q ltac:(lia)).
            destruct (B2 (k mod q) (k / q)) as (v & Hv & HV); [lia| |]. { split. apply Z.div_pos; lia. apply Z.div_lt_upper_bound; nia. }
            exists v. replace k with (k mod q + k / q * q) by lia. auto. }
        intros k0 out2 Hk (L2 & U2 & K2 & B2). rewrite Z2Nat.id in Hk by lia.
        assert (G : forall j, 0 <= j < R -> exists x, znth out2 (o + k0 + j * q) = Some (Some x) /\ V q (R * s) (i + j * s) k0 x).
        { intros j Hj. destruct (B1 j Hj k0 ltac:(lia)) as (x & Hx & VX). exists x. split; auto.
          replace (o + k0 + j * q) with (o + j * q + k0) by ring. rewrite K2 by lia. auto. }
        destruct (G 0 ltac:(lia)) as (x0 & Hx0 & V0). rewrite Z.mul_0_l, Z.add_0_r in Hx0. rewrite Z.mul_0_l, Z.add_0_r in V0.
        rewrite (geti_Some _ _ _ Hx0). cbn [bind].
        destruct (twiddled_ok out2 z q (k0 * s) (Z.to_nat (R - 1)) (o + k0 + q) (k0 * s)) as (xs & -> & LX & PX).
        { intros j Hj. destruct (G (j + 1) ltac:(lia)) as (x & Hx & _). 
          destruct (znth_in_range z (k0 * s + j * (k0 * s))) as (w & Hw). { rewrite Hz, <- HNT, Eq. rewrite Z2Nat.id in Hj by lia. assert (0 <= (j + 1) * k0 < R * q) by nia. nia. }
          exists x, w. split; auto. rewrite <- Hx. f_equal. ring. }
        cbn [bind].
        assert (XL : exists ys, zlen ys = R /\ forall j, 0 <= j < R -> exists x, znth ys j = Some x /\ znth out2 (o + k0 + j * q) = Some (Some x)).
        { assert (GG : forall r, (Z.of_nat r <= R) -> exists ys, zlen ys = Z.of_nat r /\ forall j, 0 <= j < Z.of_nat r -> exists x, znth ys j = Some x /\ znth out2 (o + k0 + j * q) = Some (Some x)).
          { induction r as [|r IHr]; intros Hr. { exists []. split; auto. lia. }
            destruct IHr as (ys & Ly & Py); [lia|]. destruct (G (Z.of_nat r) ltac:(lia)) as (x & Hx & _). exists (ys ++ [x]). split.
            { rewrite zlen_app. unfold zlen at 2. cbn. lia. }
            intros j Hj. rewrite znth_app by lia. destruct (Z.ltb_spec j (zlen ys)); [apply Py; lia|].
            assert (j = Z.of_nat r) by lia. subst j. rewrite Ly, Z.sub_diag. exists x. auto. }
          destruct (GG (Z.to_nat R)) as (ys & Ly & Py); [lia|]. exists ys. rewrite Z2Nat.id in Ly by lia. split; auto. intros. apply Py. lia. }
        destruct XL as (ys & Ly & Py).
        assert (LI : zlen (x0 :: xs) = R) by (unfold zlen in *; cbn [length]; lia).
        destruct (Hcomb R q s i k0 ys (x0 :: xs)) as (outs & -> & LO & VO); auto; try lia; try nia; try congruence.
        { intros j x Hj. pose proof (znth_Some_range _ _ _ Hj). destruct (Py j ltac:(lia)) as (x' & H1 & H2). destruct (G j ltac:(lia)) as (x'' & H3 & H4). congruence. }
        { destruct (Py 0 ltac:(lia)) as (x' & H1 & H2). rewrite Z.mul_0_l, Z.add_0_r in H2. rewrite H1. cbn. congruence. }
        { intros j x w Hj Hx Hw. pose proof (znth_Some_range _ _ _ Hx). destruct (Py j ltac:(lia)) as (x' & H1 & H2). assert (x' = x) by congruence. subst x'.
          rewrite znth_nonneg by lia. replace (Z.to_nat j) with (S (Z.to_nat (j - 1))) by lia. cbn [nth_error]. rewrite <- znth_nonneg by lia.
          apply PX; [lia| |].
          - rewrite <- H2. f_equal. ring.
          - rewrite <- Hw. f_equal. ring. }
        cbn [bind]. destruct (sets_ok q outs out2 (o + k0)) as (out3 & -> & L3 & P3 & U3); [lia|lia|right; rewrite LO; nia|].
        exists out3. split; auto. unfold P2. splits; try lia.
        - intros m Hm. rewrite U3; [auto|]. intros j Hj. rewrite LO in Hj. nia.
        - intros j k Hj Hk'. rewrite U3; [apply K2; lia|]. intros j' Hj' E. rewrite LO in Hj'. 
          assert (j = j') by nia. lia.
        - intros k l Hk' Hl. destruct (Z.eq_dec k k0) as [->|].
          + destruct (znth_in_range outs l ltac:(lia)) as (v & Hv). exists v. split.
            * replace (o + (k0 + l * q)) with (o + k0 + l * q) by ring. auto.
            * rewrite Eq. auto.
          + destruct (B2 k l) as (v & Hv & HV); [lia|lia|]. exists v. split; auto. rewrite U3; auto.
            intros j' Hj' E. rewrite LO in Hj'. assert (l = j') by nia. lia. }
      intros j out1 Hj (L1 & U1 & B1). rewrite Z2Nat.id in Hj by lia.
      destruct (IH q (R * s) out1 (o + j * q) (i + j * s)) as (out2 & E2 & L2 & U2 & B2); auto; try nia.
      exists out2. split; auto. unfold P1. splits; try lia.
      * intros m Hm. rewrite U2 by nia. apply U1. nia.
      * intros j' Hj'. destruct (Z.eq_dec j' j) as [->|]; auto.
        intros k Hk. destruct (B1 j' ltac:(lia) k Hk) as (v & Hv & HV). exists v. split; auto. rewrite U2; auto. nia.
Qed.
End DitGen.
