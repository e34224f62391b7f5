(* Rounding errors of the transform: a computed value is compared with the exact one relative to a bound on the
   exact one, (1+h)^d - 1 counting at most d roundings on the way *)
From Coq Require Import Reals ZArith Lia Lra Psatz List.
From Coquelicot Require Import Complex.
From Verif Require Import Proofs.BaseLemmas Spec.Dft Spec.Rounding Model.Fft Proofs.FftAlg Proofs.FftSplit Proofs.FftKernels Proofs.FftGen Proofs.FftProofs.
Import ListNotations.
Open Scope R_scope.

Lemma Cmod_sub_le (a b c : C) : Cmod (a - c)%C <= Cmod (a - b)%C + Cmod (b - c)%C.
Proof. replace (a - c)%C with ((a - b) + (b - c))%C by (apply C_eq; cbn; ring). apply Cmod_triangle. Qed.
Lemma Cmod_of_sub (a b : C) : Cmod a <= Cmod (a - b)%C + Cmod b.
Proof. replace a with ((a - b) + b)%C at 1 by (apply C_eq; cbn; ring). apply Cmod_triangle. Qed.
Lemma Cmod_comp (a b x y : R) : Rabs a <= x -> Rabs b <= y -> Cmod (a, b) <= Cmod (x, y).
Proof.
  intros Ha Hb. unfold Cmod. apply sqrt_le_1_alt. cbn [fst snd].
  assert (Rabs a ^ 2 <= x ^ 2) by (apply pow_incr; split; auto using Rabs_pos).
  assert (Rabs b ^ 2 <= y ^ 2) by (apply pow_incr; split; auto using Rabs_pos). rewrite <- (pow2_abs a), <- (pow2_abs b). lra.
Qed.
Lemma Cmod_diag x : 0 <= x -> Cmod (x, x) <= 3 / 2 * x.
Proof.
  intros H. unfold Cmod. cbn [fst snd]. rewrite <- (sqrt_pow2 (3 / 2 * x)) by lra. apply sqrt_le_1_alt. nra.
Qed.
Lemma Cmod_abs x y : Cmod (Rabs x, Rabs y) = Cmod (x, y).
Proof. unfold Cmod. cbn [fst snd]. now rewrite !pow2_abs. Qed.
Lemma Cmod_scal_nn k (z : C) : 0 <= k -> Cmod (k * fst z, k * snd z) = k * Cmod z.
Proof.
  intros H. replace (k * fst z, k * snd z) with (RtoC k * z)%C by (apply C_eq; cbn; ring).
  rewrite Cmod_mult, Cmod_R, Rabs_pos_eq; auto.
Qed.
Lemma Cmod_fst (z : C) : Rabs (fst z) <= Cmod z.
Proof. pose proof (Rmax_Cmod z). pose proof (Rmax_l (Rabs (fst z)) (Rabs (snd z))). lra. Qed.
Lemma Cmod_snd (z : C) : Rabs (snd z) <= Cmod z.
Proof. pose proof (Rmax_Cmod z). pose proof (Rmax_r (Rabs (fst z)) (Rabs (snd z))). lra. Qed.

Section Round.
Context (u e X h : R) (rnd : R -> R) (tr : trig R).
Hypothesis Hu : 0 <= u.
Hypothesis He : 0 <= e.
Hypothesis Hr : rounding u e rnd.
Hypothesis HX : 0 < X.
Hypothesis Hh : u + 2 * e / X <= h.
Context (Mx : Z).
Hypothesis HMx : (31 <= Mx)%Z.
Hypothesis Hcos : forall n M, (0 <= n < M)%Z -> (M <= Mx)%Z -> Rabs (tcos tr n M - tcos exact_trig n M) <= h.
Hypothesis Hsin : forall n M, (0 <= n < M)%Z -> (M <= Mx)%Z -> Rabs (tsin tr n M - tsin exact_trig n M) <= h.
Hypothesis Hrs2 : Rabs (trsqrt2 tr - trsqrt2 exact_trig) <= h.
Notation F := (Fn rnd).

Lemma h_e B : X <= B -> u * B + 2 * e <= h * B.
Proof.
  intros HB. assert (2 * e / X * X <= 2 * e / X * B). { apply Rmult_le_compat_l; auto. apply Rmult_le_pos; [lra|]. apply Rlt_le, Rinv_0_lt_compat; auto. }
  assert (2 * e / X * X = 2 * e) by (field; lra). assert ((u + 2 * e / X) * B <= h * B) by (apply Rmult_le_compat_r; lra). lra.
Qed.
Lemma h0 : 0 <= h.
Proof. pose proof (h_e X ltac:(lra)). nra. Qed.

Definition rndc (z : C) : C := (rnd (fst z), rnd (snd z)).
Lemma rndc_err z B : Cmod z <= B -> X <= B -> Cmod (rndc z - z)%C <= h * B.
Proof.
  intros Hz HB. destruct z as [a b]. unfold rndc. cbn [fst snd].
  replace ((rnd a, rnd b) - (a, b))%C with (rnd a - a, rnd b - b) by (apply C_eq; cbn; ring).
  eapply Rle_trans; [apply Cmod_comp; apply Hr|].
  replace (u * Rabs a + e, u * Rabs b + e) with (((u * fst (Rabs a, Rabs b))%R, (u * snd (Rabs a, Rabs b))%R) + (e, e))%C by (apply C_eq; cbn; ring).
  eapply Rle_trans; [apply Cmod_triangle|]. rewrite Cmod_scal_nn, Cmod_abs by auto.
  pose proof (Cmod_diag e He). pose proof (h_e B HB). assert (u * Cmod (a, b) <= u * B) by (apply Rmult_le_compat_l; auto). lra.
Qed.
Lemma rnd_err2 x y B : Rabs x + Rabs y <= B -> X <= B -> Rabs (rnd x - x) + Rabs (rnd y - y) <= h * B.
Proof. intros H HB. pose proof (Hr x). pose proof (Hr y). pose proof (h_e B HB). nra. Qed.
Lemma rnd_err1 x B : Rabs x <= B -> X <= B -> Rabs (rnd x - x) <= h * B.
Proof. intros H HB. pose proof (Hr x). pose proof (h_e B HB). nra. Qed.

Definition P (d : nat) := (1 + h) ^ d.
Lemma P_S d : P (S d) = (1 + h) * P d.
Proof. reflexivity. Qed.
Lemma P_ge d : 1 <= P d.
Proof. apply pow_R1_Rle. pose proof h0. lra. Qed.
Lemma P_le d d' : (d <= d')%nat -> P d <= P d'.
Proof. intros H. apply Rle_pow; auto. pose proof h0. lra. Qed.
Lemma P_add d d' : P (d + d') = P d * P d'.
Proof. apply pow_add. Qed.

(** c is computed with at most d roundings from something whose exact value is v, W bounds v *)
Definition near (d : nat) (W : R) (c v : C) : Prop := X <= W /\ Cmod v <= W /\ Cmod (c - v)%C <= (P d - 1) * W.

Lemma near_size d W c v : near d W c v -> Cmod c <= P d * W.
Proof. intros (HW & Hv & Hc). pose proof (Cmod_of_sub c v). lra. Qed.
Lemma near_le d d' W W' c v : near d W c v -> (d <= d')%nat -> W <= W' -> near d' W' c v.
Proof.
  intros (HW & Hv & Hc) Hd HWW. unfold near; splits; try lra. pose proof (P_le d d' Hd). pose proof (P_ge d).
  assert ((P d - 1) * W <= (P d' - 1) * W') by (apply Rmult_le_compat; lra). lra.
Qed.
Lemma near_refl W (c : C) : X <= W -> Cmod c <= W -> near 0 W c c.
Proof. intros. unfold near; splits; auto. replace (c - c)%C with (RtoC 0) by (apply C_eq; cbn; ring). rewrite Cmod_0. cbn. lra. Qed.
Lemma near_round d W c v : near d W c v -> near (S d) W (rndc c) v.
Proof.
  intros N. pose proof (near_size _ _ _ _ N) as Sz. destruct N as (HW & Hv & Hc). unfold near; splits; auto.
  pose proof (P_ge d). pose proof (rndc_err c (P d * W) Sz ltac:(nra)). pose proof (Cmod_sub_le (rndc c) c v). rewrite P_S. lra.
Qed.
Lemma near_plus d W W' c v c' v' : near d W c v -> near d W' c' v' -> near d (W + W') (c + c')%C (v + v')%C.
Proof.
  intros (HW & Hv & Hc) (HW' & Hv' & Hc'). unfold near; splits; try lra.
  - pose proof (Cmod_triangle v v'). lra.
  - replace (c + c' - (v + v'))%C with ((c - v) + (c' - v'))%C by (apply C_eq; cbn; ring). pose proof (Cmod_triangle (c - v)%C (c' - v')%C). lra.
Qed.
Lemma near_minus d W W' c v c' v' : near d W c v -> near d W' c' v' -> near d (W + W') (c - c')%C (v - v')%C.
Proof.
  intros (HW & Hv & Hc) (HW' & Hv' & Hc'). unfold near; splits; try lra.
  - pose proof (Cmod_triangle v (- v')%C). rewrite Cmod_opp in H. unfold Cminus. lra.
  - replace (c - c' - (v - v'))%C with ((c - v) + - (c' - v'))%C by (apply C_eq; cbn; ring).
    pose proof (Cmod_triangle (c - v)%C (- (c' - v'))%C). rewrite Cmod_opp in H. lra.
Qed.
Lemma near_add d W W' (c v c' v' : C) : near d W c v -> near d W' c' v' -> near (S d) (W + W') (cadd F c c') (cadd Rn v v').
Proof. intros A B. exact (near_round _ _ _ _ (near_plus _ _ _ _ _ _ _ A B)). Qed.
Lemma near_sub d W W' (c v c' v' : C) : near d W c v -> near d W' c' v' -> near (S d) (W + W') (csub F c c') (csub Rn v v').
Proof. intros A B. exact (near_round _ _ _ _ (near_minus _ _ _ _ _ _ _ A B)). Qed.
(** multiplication by a number of modulus one, without rounding *)
Definition mi (z : C) : C := (snd z, - fst z).
Lemma Cmod_mi z : Cmod (mi z) = Cmod z.
Proof. unfold Cmod, mi. cbn [fst snd]. f_equal. ring. Qed.
Lemma near_mi d W c v : near d W c v -> near d W (mi c) (mi v).
Proof.
  intros (HW & Hv & Hc). unfold near; splits; auto. { now rewrite Cmod_mi. }
  replace (mi c - mi v)%C with (mi (c - v)%C) by (apply C_eq; cbn; ring). now rewrite Cmod_mi.
Qed.
Lemma near_twiddle d W W' (a v b w : C) : near d W a v -> near d W' b w -> near (S d) (W + W') (twiddle F a b) (twiddle Rn v w).
Proof.
  intros A B. pose proof (near_round _ _ _ _ (near_mi _ _ _ _ (near_minus _ _ _ _ _ _ _ A B))) as H.
  replace (twiddle F a b) with (rndc (mi (a - b)%C)). 2:{ destruct a as [a1 a2], b as [b1 b2]. change (twiddle F (a1, a2) (b1, b2)) with (rnd (a2 - b2), rnd (b1 - a1)). unfold rndc, mi. cbn [fst snd Cminus Cplus Copp]. f_equal; f_equal; ring. }
  assert (E : twiddle Rn v w = mi (v - w)%C :> C). { destruct v as [v1 v2], w as [w1 w2]. apply C_eq; cbn; ring. }
  rewrite E. exact H.
Qed.
Lemma near_fiddle d W W' (a v b w : C) : near d W a v -> near d W' b w -> near (S (S d)) (2 * (W + W')) (fiddle F a b) (fiddle Rn v w).
Proof.
  intros A B. pose proof (near_add _ _ _ _ _ _ _ A B) as H1. pose proof (near_sub _ _ _ _ _ _ _ A B) as H2.
  pose proof (near_round _ _ _ _ (near_plus _ _ _ _ _ _ _ H2 (near_mi _ _ _ _ H1))) as H.
  replace (W + W' + (W + W')) with (2 * (W + W')) in H by ring. exact H.
Qed.
Lemma near_scale d W (ct ce : R) (a v : C) : Rabs (ct - ce) <= h -> Rabs ce <= 1 -> near d W a v ->
  near (S (S d)) W (cscale F ct a) (cscale Rn ce v).
Proof.
  intros Hc H1 N. assert (near (S d) W (cscale Rn ct a) (cscale Rn ce v)).
  { pose proof (near_size _ _ _ _ N) as Sz. destruct N as (HW & Hv & Ha). pose proof (Cmod_ge_0 v).
    assert (E : forall r (z : C), cscale Rn r z = (RtoC r * z)%C) by (intros r [x y]; apply C_eq; cbn; ring).
    rewrite !E. unfold near; splits; auto. { rewrite Cmod_mult, Cmod_R. pose proof (Rabs_pos ce). nra. }
    replace (RtoC ct * a - RtoC ce * v)%C with (RtoC (ct - ce) * a + RtoC ce * (a - v))%C by (apply C_eq; cbn; ring).
    eapply Rle_trans; [apply Cmod_triangle|]. rewrite !Cmod_mult, !Cmod_R, P_S.
    pose proof (Cmod_ge_0 a). pose proof (Cmod_ge_0 (a - v)%C). pose proof (Rabs_pos ce). pose proof (Rabs_pos (ct - ce)). pose proof h0.
    assert (Rabs (ct - ce) * Cmod a <= h * (P d * W)) by (apply Rmult_le_compat; auto).
    assert (Rabs ce * Cmod (a - v)%C <= 1 * ((P d - 1) * W)) by (apply Rmult_le_compat; auto). lra. }
  exact (near_round _ _ _ _ H).
Qed.
Lemma near_cx n M d W (a v : C) : (0 <= n < M)%Z -> (M <= Mx)%Z -> near d W a v -> near (S (S d)) W (cx F tr n M a) (cx Rn exact_trig n M v).
Proof. intros H1 H2. apply near_scale; auto. cbn. apply Rabs_le. apply COS_bound. Qed.
Lemma near_sx n M d W (a v : C) : (0 <= n < M)%Z -> (M <= Mx)%Z -> near d W a v -> near (S (S d)) W (sx F tr n M a) (sx Rn exact_trig n M v).
Proof. intros H1 H2. apply near_scale; auto. cbn. apply Rabs_le. apply SIN_bound. Qed.
Lemma near_rsqrt2 d W (a v : C) : near d W a v -> near (S (S d)) W (rsqrt2 F tr a) (rsqrt2 Rn exact_trig v).
Proof.
  apply near_scale; auto. cbn. pose proof Rlt_sqrt2_0. pose proof (sqrt_sqrt 2 ltac:(lra)).
  assert (0 < / sqrt 2) by now apply Rinv_0_lt_compat. assert (sqrt 2 * / sqrt 2 = 1) by (field; lra). rewrite Rabs_pos_eq; nra.
Qed.

(** ** kernels *)
Notation nears d W := (Forall2 (near d W)).

Lemma nears_le d d' W W' l l' : (d <= d')%nat -> W <= W' -> nears d W l l' -> nears d' W' l l'.
Proof. intros. induction H1; constructor; auto. eapply near_le; eauto. Qed.

Lemma fold_near {A} (d : nat) (W : R) (g g' : A -> C) (s : A -> bool) (l : list A) : 
  (forall x, In x l -> near d W (g x) (g' x)) -> forall n c v, near (d + n) (INR (S n) * W) c v ->
  near (d + n + length l) (INR (S n + length l) * W)
    (fold_left (fun acc x => if s x then csub F acc (g x) else cadd F acc (g x)) l c)
    (fold_left (fun acc x => if s x then csub Rn acc (g' x) else cadd Rn acc (g' x)) l v).
Proof.
  induction l as [|x l IH]; intros H n c v N; cbn [fold_left length].
  - now rewrite !Nat.add_0_r.
  - assert (Nx : near (d + n) W (g x) (g' x)). { eapply near_le; [apply H; left; auto|lia|lra]. }
    assert (E : INR (S n) * W + W = INR (S (S n)) * W) by (rewrite (S_INR (S n)); ring).
    replace (d + n + S (length l))%nat with (d + S n + length l)%nat by lia. replace (S n + S (length l))%nat with (S (S n) + length l)%nat by lia.
    apply IH. { intros; apply H; right; auto. } rewrite <- E.
    replace (d + S n)%nat with (S (d + n)) by lia. destruct (s x); [apply near_sub|apply near_add]; auto.
Qed.

Lemma combine_map_r {A B D} (f : B -> D) : forall (l : list A) (m : list B), combine l (map f m) = map (fun '(a, b) => (a, f b)) (combine l m).
Proof. induction l; intros [|b m]; cbn; auto. now rewrite IHl. Qed.

(** lists of pairs (computed, exact) make the two evaluations one fold *)
Lemma fold_combine {A} (f : A -> Z * C -> A) (g : C * C -> C) : forall idx (ab : list (C * C)) a,
  fold_left f (combine idx (map g ab)) a = fold_left (fun acc x => f acc (fst x, g (snd x))) (combine idx ab) a.
Proof. induction idx as [|i idx IH]; intros [|x ab] a; cbn; auto. Qed.
Lemma fold_ext' {A B} (f g : B -> A -> B) l : (forall b a, f b a = g b a) -> forall i, fold_left f l i = fold_left g l i.
Proof. intros H. induction l; intros i; cbn; auto. now rewrite H. Qed.

Lemma crow_near p d W : X <= W -> (p <= Mx)%Z -> forall idx (ab : list (C * C)), (forall i, In i idx -> (0 <= i < p)%Z) -> length idx = length ab -> (0 < length ab)%nat -> (forall x, In x ab -> near d W (fst x) (snd x)) ->
  near (S (S d) + (length ab - 1)) (INR (length ab) * W) (crow F tr p idx (map fst ab)) (crow Rn exact_trig p idx (map snd ab)).
Proof.
  intros HW HP [|i0 idx] [|x0 ab] HI L L0 H; cbn in L, L0; try lia. unfold crow. cbn [map combine length]. rewrite !fold_combine.
  replace (S (S d) + (S (length ab) - 1))%nat with (S (S d) + 0 + length (combine idx ab))%nat by (rewrite combine_length; lia).
  replace (INR (S (length ab))) with (INR (1 + length (combine idx ab))) by (f_equal; rewrite combine_length; lia).
  pose proof (fold_near (S (S d)) W (fun x => cx F tr (fst x) p (fst (snd x))) (fun x => cx Rn exact_trig (fst x) p (snd (snd x))) (fun _ => false) (combine idx ab)) as Q.
  apply Q.
  - intros [i x] I. pose proof (in_combine_l _ _ _ _ I) as I'. apply in_combine_r in I. apply near_cx; auto. { apply HI. right. auto. } apply H. right. auto.
  - rewrite Nat.add_0_r, Rmult_1_l. apply near_cx; auto. { apply HI. left. auto. } apply H. left. auto.
Qed.
Lemma sfold (N : num R) (t : trig R) p (g : C * C -> C) : forall idx (ab : list (C * C)) a,
  fold_left (fun acc '(j, x) => if (j <? 0)%Z then csub N acc (sx N t (- j) p x) else cadd N acc (sx N t j p x)) (combine idx (map g ab)) a =
  fold_left (fun acc x => if (fst x <? 0)%Z then csub N acc (sx N t (if (fst x <? 0)%Z then - fst x else fst x)%Z p (g (snd x)))
     else cadd N acc (sx N t (if (fst x <? 0)%Z then - fst x else fst x)%Z p (g (snd x)))) (combine idx ab) a.
Proof. induction idx as [|i idx IH]; intros [|x ab] a; cbn; auto. rewrite IH. now destruct (i <? 0)%Z. Qed.
Lemma srow_near p d W : X <= W -> (p <= Mx)%Z -> forall idx (ab : list (C * C)), (forall i, In i idx -> (0 <= (if i <? 0 then - i else i) < p)%Z  ) -> (0 <= nth 0 idx 0)%Z -> length idx = length ab -> (0 < length ab)%nat -> (forall x, In x ab -> near d W (fst x) (snd x)) ->
  near (S (S d) + (length ab - 1)) (INR (length ab) * W) (srow F tr p idx (map fst ab)) (srow Rn exact_trig p idx (map snd ab)).
Proof.
  intros HW HP [|i0 idx] [|x0 ab] HI HI1 L L0 H; cbn in L, L0; try lia. assert (HI0 : (0 <= i0)%Z -> (0 <= i0 < p)%Z). { intros Q. pose proof (HI i0 (or_introl eq_refl)) as R. destruct (Z.ltb_spec i0 0); lia. } unfold srow. cbn [map combine length]. rewrite !sfold.
  replace (S (S d) + (S (length ab) - 1))%nat with (S (S d) + 0 + length (combine idx ab))%nat by (rewrite combine_length; lia).
  replace (INR (S (length ab))) with (INR (1 + length (combine idx ab))) by (f_equal; rewrite combine_length; lia).
  pose proof (fold_near (S (S d)) W (fun x => sx F tr (if (fst x <? 0)%Z then - fst x else fst x)%Z p (fst (snd x))) (fun x => sx Rn exact_trig (if (fst x <? 0)%Z then - fst x else fst x)%Z p (snd (snd x))) (fun x => (fst x <? 0)%Z) (combine idx ab)) as Q.
  apply Q.
  - intros [i x] I. pose proof (in_combine_l _ _ _ _ I) as I'. apply in_combine_r in I. apply near_sx; auto. { apply HI. right. auto. } apply H. right. auto.
  - rewrite Nat.add_0_r, Rmult_1_l. apply near_sx; auto. apply H. left. auto.
Qed.

Lemma Forall2_pairs {A B} (Rel : A -> B -> Prop) : forall l m, Forall2 Rel l m -> exists ab, l = map fst ab /\ m = map snd ab /\ forall x, In x ab -> Rel (fst x) (snd x).
Proof.
  induction 1 as [|a b l m H _ (ab & E1 & E2 & E3)]. { exists []. splits; auto. contradiction. }
  exists ((a, b) :: ab). cbn. splits; try congruence. intros x [<-|I]; auto.
Qed.
Lemma Forall2_rev {A B} (Rel : A -> B -> Prop) l m : Forall2 Rel l m -> Forall2 Rel (rev l) (rev m).
Proof. induction 1; cbn; auto. apply Forall2_app; auto. Qed.
Lemma combine_rev_near {A B D} (Rel : A -> B -> Prop) n : forall (l l2 : list A) (m m2 : list B) (f : A * A -> D) (g : B * B -> D) (Rel' : D -> D -> Prop),
  Forall2 Rel l m -> Forall2 Rel l2 m2 -> (forall a b a' b', Rel a b -> Rel a' b' -> Rel' (f (a, a')) (g (b, b'))) ->
  Forall2 Rel' (map f (firstn n (combine l l2))) (map g (firstn n (combine m m2))).
Proof.
  induction n; intros l l2 m m2 f g Rel' H H2 HR; cbn; auto. inversion H; subst; cbn; auto. inversion H2; subst; cbn; auto.
Qed.
Lemma Forall2_len {A B} (Rel : A -> B -> Prop) l m : Forall2 Rel l m -> length l = length m.
Proof. induction 1; cbn; auto. Qed.

Lemma fold_left_map' {A B D} (f : D -> B -> D) (g : A -> B) l : forall a, fold_left f (map g l) a = fold_left (fun acc x => f acc (g x)) l a.
Proof. induction l; intros; cbn; auto. Qed.
Definition table_range (p : Z) (tab : list (list Z * list Z)) : bool :=
  forallb (fun r => forallb (fun i => (0 <=? i) && (i <? p))%Z (fst r) && forallb (fun i => (- p <? i) && (i <? p))%Z (snd r))%bool tab.
Lemma odd_range p tab : odd_table p = Some tab -> table_range p tab = true /\ (p <= 31)%Z.
Proof.
  unfold odd_table. intros H.
  repeat match type of H with
  | (if (?x =? ?y)%Z then _ else _) = _ => destruct (Z.eqb_spec x y) as [->|]; [injection H as <-; split; [vm_compute; reflexivity|lia]|]
  end. discriminate.
Qed.
Lemma kernel_odd_near p tab Y (in0 in0' : C) (rest rest' : list C) : table_ok p tab = true -> table_range p tab = true -> (p <= Mx)%Z -> length rest = (2 * length tab)%nat -> (0 < length tab)%nat ->
  near 0 Y in0 in0' -> nears 0 Y rest rest' ->
  nears (length tab + 4) (2 * INR (S (2 * length tab)) * Y) (kernel_odd F tr p tab (in0 :: rest)) (kernel_odd Rn exact_trig p tab (in0' :: rest')).
Proof.
  intros T TR HP L L0 N0 NR. assert (XY : X <= Y) by apply N0. unfold kernel_odd.
  set (H := length tab) in *.
  pose proof (combine_rev_near _ H _ _ _ _ (fun '(x, y) => cadd F x y) (fun '(x, y) => cadd Rn x y) (near 1 (Y + Y)) NR (Forall2_rev _ _ _ NR)
    (fun a b a' b' R1 R2 => near_add _ _ _ _ _ _ _ R1 R2)) as NA.
  pose proof (combine_rev_near _ H _ _ _ _ (fun '(x, y) => twiddle F x y) (fun '(x, y) => twiddle Rn x y) (near 1 (Y + Y)) NR (Forall2_rev _ _ _ NR)
    (fun a b a' b' R1 R2 => near_twiddle _ _ _ _ _ _ _ R1 R2)) as NT.
  assert (LC : length (firstn H (combine rest (rev rest))) = H). { rewrite firstn_length, combine_length, rev_length. lia. }
  destruct (Forall2_pairs _ _ _ NA) as (pa & EA & EA' & PA). destruct (Forall2_pairs _ _ _ NT) as (pt & ET & ET' & PT).
  assert (LA : length pa = H). { rewrite <- LC. pose proof (f_equal (@length _) EA) as Q. rewrite !map_length in Q. auto. }
  assert (LT : length pt = H). { rewrite <- LC. pose proof (f_equal (@length _) ET) as Q. rewrite !map_length in Q. auto. }
  cplxC. rewrite EA, ET. rewrite EA', ET'.
  assert (RB : 0 <= INR H * Y). { apply Rmult_le_pos; [apply pos_INR|lra]. }
  assert (ES : INR (S (2 * H)) = 2 * INR H + 1). { rewrite S_INR, mult_INR. reflexivity. }
  assert (HY : 0 < Y) by lra. 
  assert (CS : Forall2 (fun x y => near (H + 2) (INR H * (Y + Y)) (fst x) (fst y) /\ near (H + 2) (INR H * (Y + Y)) (snd x) (snd y))
    (map (fun '(ci, si) => (crow F tr p ci (map fst pa), srow F tr p si (map fst pt))) tab)
    (map (fun '(ci, si) => (crow Rn exact_trig p ci (map snd pa), srow Rn exact_trig p si (map snd pt))) tab)).
  { assert (TL : forall r, In r tab -> length (fst r) = H /\ length (snd r) = H /\ (0 <= nth 0 (snd r) 0)%Z /\
       (forall i, In i (fst r) -> (0 <= i < p)%Z) /\ (forall i, In i (snd r) -> (0 <= (if i <? 0 then - i else i) < p)%Z)).
    { unfold table_ok in T. unfold table_range in TR. rewrite forallb_forall in TR. apply andb_prop in T as [_ T]. rewrite forallb_forall in T. intros r I. specialize (TR r I). apply andb_prop in TR as [TR1 TR2]. rewrite forallb_forall in TR1, TR2. apply (In_nth _ _ ([], [])) in I as (k & Hk & E).
      specialize (T k ltac:(apply in_seq; lia)). rewrite E in T. unfold row_ok in T. rewrite !Bool.andb_true_iff in T. destruct T as [[[T1 T2] T3] _].
      apply Nat.eqb_eq in T1, T2. apply Z.leb_le in T3. splits; auto.
      - intros i I. specialize (TR1 i I). lia.
      - intros i I. specialize (TR2 i I). destruct (Z.ltb_spec i 0); lia. }
    clear EA ET EA' ET' NA NT. revert TL. generalize tab. induction tab0 as [|[ci si] tl IH]; intros TL; cbn [map]; constructor.
    - destruct (TL (ci, si) ltac:(left; auto)) as (T1 & T2 & T3 & T4 & T5). cbn [fst snd] in *.
      pose proof (crow_near p 1 (Y + Y) ltac:(lra) HP ci pa T4 ltac:(lia) ltac:(lia) PA) as K1.
      pose proof (srow_near p 1 (Y + Y) ltac:(lra) HP si pt T5 T3 ltac:(lia) ltac:(lia) PT) as K2.
      rewrite LA in K1. rewrite LT in K2. replace (3 + (H - 1))%nat with (H + 2)%nat in * by lia. auto.
    - apply IH. intros; apply TL; right; auto. }
  constructor.
  - pose proof (fold_near 1 (Y + Y) fst snd (fun _ => false) pa PA 0 in0 in0') as Q.
    rewrite !fold_left_map'. cbn [length Nat.add] in Q. rewrite LA in Q. eapply near_le; [apply Q|lia|].
    + eapply near_le; [exact N0|lia|cbn; lra].
    + change (1 + H)%nat with (S H). rewrite ES, S_INR. lra.
  - assert (O : forall (f g : C * C -> C), (forall x y, near (H + 2) (INR H * (Y + Y)) (fst x) (fst y) /\ near (H + 2) (INR H * (Y + Y)) (snd x) (snd y) -> near (H + 4) (2 * INR (S (2 * H)) * Y) (f x) (g y)) ->
       nears (H + 4) (2 * INR (S (2 * H)) * Y)
       (map f (map (fun '(ci, si) => (crow F tr p ci (map fst pa), srow F tr p si (map fst pt))) tab))
       (map g (map (fun '(ci, si) => (crow Rn exact_trig p ci (map snd pa), srow Rn exact_trig p si (map snd pt))) tab))).
    { intros f g HF. clear - CS HF. induction CS; cbn [map]; constructor; auto. }
    apply Forall2_app; [|apply Forall2_rev]; apply O; intros [c s] [c' s'] [N1 N2]; cbn [fst snd] in *.
    + assert (N3 : near (S (H + 2)) (Y + INR H * (Y + Y)) (cadd F in0 c) (cadd Rn in0' c')).
      { apply near_add; auto. eapply near_le; [exact N0|lia|lra]. }
      eapply near_le; [apply near_sub; [exact N3|eapply near_le; [exact N2|lia|apply Rle_refl]]|lia|]. rewrite ES. lra.
    + assert (N3 : near (S (H + 2)) (Y + INR H * (Y + Y)) (cadd F in0 c) (cadd Rn in0' c')).
      { apply near_add; auto. eapply near_le; [exact N0|lia|lra]. }
      eapply near_le; [apply near_add; [exact N3|eapply near_le; [exact N2|lia|apply Rle_refl]]|lia|]. rewrite ES. lra.
Qed.

Lemma kernel2_near Y (i0 i1 : C) : near 0 Y i0 i0 -> near 0 Y i1 i1 -> nears 1 (2 * 2 * Y) (kernel2 F i0 i1) (kernel2 Rn i0 i1).
Proof.
  intros H0 H1. assert (X <= Y) by apply H0. unfold kernel2. repeat first [apply Forall2_cons|apply Forall2_nil]; (eapply near_le; [(apply near_add || apply near_sub); eassumption|lia|lra]).
Qed.
Ltac nr := first [eassumption | apply near_add | apply near_sub | apply near_twiddle | apply near_fiddle | apply near_rsqrt2].
Lemma kernel4_near Y (i0 i1 i2 i3 : C) : near 0 Y i0 i0 -> near 0 Y i1 i1 -> near 0 Y i2 i2 -> near 0 Y i3 i3 ->
  nears 2 (2 * 4 * Y) (kernel4 F i0 i1 i2 i3) (kernel4 Rn i0 i1 i2 i3).
Proof.
  intros H0 H1 H2 H3. assert (X <= Y) by apply H0. unfold kernel4. repeat first [apply Forall2_cons|apply Forall2_nil]; (eapply near_le; [repeat nr|lia|lra]).
Qed.
Lemma kernel8_near Y (i0 i1 i2 i3 i4 i5 i6 i7 : C) : near 0 Y i0 i0 -> near 0 Y i1 i1 -> near 0 Y i2 i2 -> near 0 Y i3 i3 ->
  near 0 Y i4 i4 -> near 0 Y i5 i5 -> near 0 Y i6 i6 -> near 0 Y i7 i7 ->
  nears 6 (2 * 8 * Y) (kernel8 F tr i0 i1 i2 i3 i4 i5 i6 i7) (kernel8 Rn exact_trig i0 i1 i2 i3 i4 i5 i6 i7).
Proof.
  intros H0 H1 H2 H3 H4 H5 H6 H7. assert (HY : X <= Y) by apply H0. unfold kernel8.
  assert (A : forall x y : C, near 0 Y x x -> near 0 Y y y -> near 1 (2 * Y) (cadd F x y) (cadd Rn x y) /\ near 1 (2 * Y) (csub F x y) (csub Rn x y) /\ near 1 (2 * Y) (twiddle F x y) (twiddle Rn x y)).
  { intros x y Hx Hy. replace (2 * Y) with (Y + Y) by ring. splits; nr; auto. }
  destruct (A _ _ H0 H4) as (Na & Nb & _). destruct (A _ _ H1 H5) as (Nc & Nd & _). destruct (A _ _ H2 H6) as (Ne & _ & Nf). destruct (A _ _ H3 H7) as (Ng & Nh & _).
  set (a := cadd F i0 i4) in *. set (b := csub F i0 i4) in *. set (c := cadd F i1 i5) in *. set (d := csub F i1 i5) in *.
  set (ee := cadd F i2 i6) in *. set (f := twiddle F i2 i6) in *. set (g := cadd F i3 i7) in *. set (hh := csub F i3 i7) in *.
  set (a' := cadd Rn i0 i4) in *. set (b' := csub Rn i0 i4) in *. set (c' := cadd Rn i1 i5) in *. set (d' := csub Rn i1 i5) in *.
  set (ee' := cadd Rn i2 i6) in *. set (f' := twiddle Rn i2 i6) in *. set (g' := cadd Rn i3 i7) in *. set (hh' := csub Rn i3 i7) in *.
  clearbody a b c d ee f g hh a' b' c' d' ee' f' g' hh'. clear A H0 H1 H2 H3 H4 H5 H6 H7 i0 i1 i2 i3 i4 i5 i6 i7.
  assert (L : forall D W c v, near D W c v -> (D <= 5)%nat -> near 5 W c v) by (intros; eapply near_le; eauto; lra).
  assert (Nae : near 2 (2 * Y + 2 * Y) (cadd F a ee) (cadd Rn a' ee')) by (nr; auto).
  assert (Nae' : near 2 (2 * Y + 2 * Y) (csub F a ee) (csub Rn a' ee')) by (nr; auto).
  assert (Nbf : near 2 (2 * Y + 2 * Y) (cadd F b f) (cadd Rn b' f')) by (nr; auto).
  assert (Nbf' : near 2 (2 * Y + 2 * Y) (csub F b f) (csub Rn b' f')) by (nr; auto).
  assert (Ncg : near 2 (2 * Y + 2 * Y) (cadd F c g) (cadd Rn c' g')) by (nr; auto).
  assert (Ntcg : near 2 (2 * Y + 2 * Y) (twiddle F c g) (twiddle Rn c' g')) by (nr; auto).
  assert (Ndh : near 5 (2 * (2 * Y + 2 * Y)) (rsqrt2 F tr (fiddle F d hh)) (rsqrt2 Rn exact_trig (fiddle Rn d' hh'))) by (repeat nr).
  assert (Nhd : near 5 (2 * (2 * Y + 2 * Y)) (rsqrt2 F tr (fiddle F hh d)) (rsqrt2 Rn exact_trig (fiddle Rn hh' d'))) by (repeat nr).
  apply L in Nae, Nae', Nbf, Nbf', Ncg, Ntcg, Ndh, Nhd; try lia.
  repeat first [apply Forall2_cons|apply Forall2_nil]; (eapply near_le; [nr; eassumption|lia|lra]).
Qed.

(** number of roundings charged for one radix (see [dft_round]) *)
Definition cost (R : Z) : nat := if (R =? 2)%Z then 2%nat else if (R =? 4)%Z then 4%nat else if (R =? 8)%Z then 12%nat else Z.to_nat (R + 7).

Lemma kernel_near R Y (ins : list C) : In R radices -> Z.of_nat (length ins) = R -> X <= Y -> (forall x, In x ins -> Cmod x <= Y) ->
  exists outs' outs c, kernel F tr R ins = Ok outs' /\ kernel Rn exact_trig R ins = Ok outs /\ nears c (2 * IZR R * Y) outs' outs /\ (2 * c <= cost R)%nat.
Proof.
  intros I L HY HB.
  assert (B0 : forall x, In x ins -> near 0 Y x x) by (intros; apply near_refl; auto).
  assert (ODD : forall tab, odd_table R = Some tab -> (0 < length tab)%nat -> (cost R = Z.to_nat (R + 7)) -> kernel F tr R ins = Ok (kernel_odd F tr R tab ins) -> kernel Rn exact_trig R ins = Ok (kernel_odd Rn exact_trig R tab ins) ->
    exists outs' outs c, kernel F tr R ins = Ok outs' /\ kernel Rn exact_trig R ins = Ok outs /\ nears c (2 * IZR R * Y) outs' outs /\ (2 * c <= cost R)%nat).
  { intros tab E LT CR E1 E2. destruct (odd_range _ _ E) as [TR HP]. apply odd_tables in E. pose proof E as T. unfold table_ok in T. apply andb_prop in T as [T _]. apply Z.eqb_eq in T.
    destruct ins as [|in0 rest]; [cbn [length] in L; lia|]. cbn [length] in L.
    exists (kernel_odd F tr R tab (in0 :: rest)), (kernel_odd Rn exact_trig R tab (in0 :: rest)), (length tab + 4)%nat. splits; auto; [|rewrite CR; lia].
    replace (IZR R) with (INR (S (2 * length tab))) by (rewrite INR_IZR_INZ; congruence). apply kernel_odd_near; auto; try lia.
    - apply B0. left; auto.
    - clear - B0. assert (HH : forall x, In x rest -> near 0 Y x x) by (intros; apply B0; right; auto). clear B0. induction rest; constructor; auto. apply HH; left; auto. apply IHrest. intros; apply HH; right; auto. }
  unfold radices in I. cbn in I. 
  repeat (destruct I as [<-|I]; [
    do 32 (destruct ins as [|?x ins]; [try (exfalso; clear - L; cbn in L; discriminate L);
      first [eapply ODD; [reflexivity|cbn; lia|reflexivity|reflexivity|reflexivity]
            | eexists _, _, _; split; [reflexivity|]; split; [reflexivity|]; split; [first [apply kernel2_near|apply kernel4_near|apply kernel8_near]; apply B0; cbn; tauto | cbn; lia]]|]); exfalso; clear - L; cbn [length] in L; lia|]).
  contradiction.
Qed.

Lemma Csum_bound n (f : nat -> C) B : (forall j, (j < n)%nat -> Cmod (f j) <= B) -> Cmod (Csum n f) <= INR n * B.
Proof.
  induction n; intros H; cbn [Csum]. { rewrite Cmod_0. cbn. lra. }
  eapply Rle_trans; [apply Cmod_triangle|]. rewrite S_INR. pose proof (IHn ltac:(auto)). pose proof (H n ltac:(lia)). lra.
Qed.
Lemma Cmod_root s N m : Cmod (root s N m) = 1.
Proof.
  unfold root. set (z := cis _). assert (H : fst z * fst z + snd z * snd z = 1) by apply cis_norm. clearbody z. unfold Cmod.
  rewrite <- sqrt_1. f_equal. lra.
Qed.
Lemma Forall2_nth {A B} (Rel : A -> B -> Prop) l m a b : Forall2 Rel l m -> forall n, (n < length l)%nat -> Rel (nth n l a) (nth n m b).
Proof. induction 1; intros [|n] Hn; cbn in *; try lia; auto. apply IHForall2. lia. Qed.

Lemma P_double c W : 0 <= W -> (P c - 1) * (2 * W) <= (P (2 * c) - 1) * W.
Proof. intros HW. replace (2 * c)%nat with (c + c)%nat by lia. rewrite P_add. assert (0 <= (P c - 1) * (P c - 1) * W) by (apply Rmult_le_pos; auto; apply Rle_0_sqr). lra. Qed.

Lemma dft_near SIGN R Y (ins : list C) : In R radices -> Z.of_nat (length ins) = R -> X <= Y -> (forall x, In x ins -> Cmod x <= Y) ->
  exists outs' outs c, dft F tr SIGN R ins = Ok outs' /\ dft Rn exact_trig SIGN R ins = Ok outs /\ nears c (2 * IZR R * Y) outs' outs /\ (2 * c <= cost R)%nat.
Proof.
  intros I L HY HB. destruct (kernel_near R Y ins I L HY HB) as (o' & o & c & E1 & E2 & N & HC). unfold dft. rewrite E1, E2. cbn [bind].
  destruct (SIGN =? 1)%Z. { exists o', o, c. auto. }
  inversion N; subst. { exists [], [], c. auto. } eexists _, _, c. splits; try reflexivity; auto. constructor; auto. now apply Forall2_rev.
Qed.

(** one radix: the error against the exact transform of the same inputs *)
Lemma dft_round SIGN R Y (ins : list C) : SIGN = 1%Z \/ SIGN = (-1)%Z -> In R radices -> Z.of_nat (length ins) = R -> X <= Y -> (forall x, In x ins -> Cmod x <= Y) ->
  exists outs : list C, dft F tr SIGN R ins = Ok outs /\ length outs = length ins /\
  forall l, (l < length ins)%nat -> Cmod (nth l outs (RtoC 0) - Csum (length ins) (fun j => nth j ins (RtoC 0) * root SIGN R (Z.of_nat j * Z.of_nat l)))%C <= (P (cost R) - 1) * (IZR R * Y).
Proof.
  intros HS I L HY HB. destruct (dft_near SIGN R Y ins I L HY HB) as (o' & o & c & E1 & E2 & N & HC).
  destruct (dft_ok SIGN R ins HS I L) as (o2 & E3 & L3 & V). assert (o2 = o) by congruence. subst o2.
  exists o'. pose proof (Forall2_len _ _ _ N) as LN. splits; auto; try congruence. intros l Hl. cplxC. rewrite <- V by auto.
  destruct (Forall2_nth _ _ _ (RtoC 0) (RtoC 0) N l ltac:(lia)) as (_ & _ & Hn). cplxC. 
  pose proof (radices_bound R I) as HR. assert (1 <= IZR R) by (apply IZR_le; lia). assert (0 <= IZR R * Y) by (apply Rmult_le_pos; lra).
  pose proof (P_double c (IZR R * Y) H0). pose proof (P_le _ _ HC). pose proof (P_ge (2 * c)).
  assert ((P (2 * c) - 1) * (IZR R * Y) <= (P (cost R) - 1) * (IZR R * Y)) by (apply Rmult_le_compat_r; lra). rewrite <- Rmult_assoc in H1. lra.
Qed.

(** multiplication with a twiddle factor *)
Lemma Cmul_parts (a b : C) : Rabs (fst a * fst b) + Rabs (snd a * snd b) <= Cmod a * Cmod b /\ Rabs (fst a * snd b) + Rabs (snd a * fst b) <= Cmod a * Cmod b.
Proof.
  rewrite !Rabs_mult.
  assert (G : forall x y z w, x * z + y * w <= Cmod (x, y) * Cmod (z, w)).
  { intros x y z w. unfold Cmod. cbn [fst snd]. rewrite <- sqrt_mult by nra.
    destruct (Rle_dec 0 (x * z + y * w)) as [H|H].
    - rewrite <- (sqrt_pow2 (x * z + y * w)) by auto. apply sqrt_le_1_alt. assert (0 <= (x * w - y * z) ^ 2) by apply pow2_ge_0. nra.
    - pose proof (sqrt_pos ((x ^ 2 + y ^ 2) * (z ^ 2 + w ^ 2))). lra. }
  pose proof (G (Rabs (fst a)) (Rabs (snd a)) (Rabs (fst b)) (Rabs (snd b))) as G1. rewrite !Cmod_abs in G1.
  pose proof (G (Rabs (fst a)) (Rabs (snd a)) (Rabs (snd b)) (Rabs (fst b))) as G2. rewrite !Cmod_abs in G2.
  assert (E : Cmod (snd b, fst b) = Cmod b). { unfold Cmod. cbn [fst snd]. f_equal. ring. } rewrite E in G2. destruct a, b. cbn [fst snd] in *. split; lra.
Qed.
Lemma cmul_round (a b : C) B : Cmod a * Cmod b <= B -> X <= B -> Cmod (cmul F a b - a * b)%C <= (P 3 - 1) * B.
Proof.
  intros HB XB. destruct (Cmul_parts a b) as [P1 P2]. pose proof h0 as Hp.
  destruct a as [a1 a2], b as [b1 b2]. cbn [fst snd] in *.
  change (cmul F (a1, a2) (b1, b2)) with (rnd (rnd (a1 * b1) - rnd (a2 * b2)), rnd (rnd (a1 * b2) + rnd (a2 * b1))).
  assert (G : forall x y s, (s = 1 \/ s = -1) -> Rabs x + Rabs y <= B -> Rabs (rnd (rnd x + s * rnd y) - (x + s * y)) <= (2 * h + h * h) * B).
  { intros x y s Hs Hxy. assert (As : Rabs s = 1) by (destruct Hs as [-> | ->]; unfold Rabs; destruct (Rcase_abs _); lra). pose proof (rnd_err2 x y B Hxy XB) as E1.
    assert (E2 : Rabs (rnd x + s * rnd y - (x + s * y)) <= h * B).
    { replace (rnd x + s * rnd y - (x + s * y)) with ((rnd x - x) + s * (rnd y - y)) by ring. eapply Rle_trans; [apply Rabs_triang|]. rewrite Rabs_mult.
      rewrite As. lra. }
    assert (E3 : Rabs (x + s * y) <= B).
    { eapply Rle_trans; [apply Rabs_triang|]. rewrite Rabs_mult. rewrite As. lra. }
    assert (E4 : Rabs (rnd x + s * rnd y) <= (1 + h) * B).
    { replace (rnd x + s * rnd y) with ((rnd x + s * rnd y - (x + s * y)) + (x + s * y)) by ring. eapply Rle_trans; [apply Rabs_triang|]. lra. }
    pose proof (rnd_err1 _ _ E4 ltac:(nra)) as E5.
    replace (rnd (rnd x + s * rnd y) - (x + s * y)) with ((rnd (rnd x + s * rnd y) - (rnd x + s * rnd y)) + (rnd x + s * rnd y - (x + s * y))) by ring.
    eapply Rle_trans; [apply Rabs_triang|]. lra. }
  pose proof (G (a1 * b1) (a2 * b2) (-1) ltac:(auto) ltac:(lra)) as G1. pose proof (G (a1 * b2) (a2 * b1) 1 ltac:(auto) ltac:(lra)) as G2.
  replace (rnd (a1 * b1) + -1 * rnd (a2 * b2)) with (rnd (a1 * b1) - rnd (a2 * b2)) in G1 by ring.
  rewrite Rmult_1_l in G2.
  match goal with |- Cmod ?z <= _ => replace z with (rnd (rnd (a1 * b1) - rnd (a2 * b2)) - (a1 * b1 + -1 * (a2 * b2)), rnd (rnd (a1 * b2) + rnd (a2 * b1)) - (a1 * b2 + 1 * (a2 * b1))) end.
  2:{ apply C_eq; cbn; ring. }
  eapply Rle_trans; [apply (Cmod_comp _ _ _ _ G1 G2)|]. assert (0 < B) by lra.
  eapply Rle_trans; [apply Cmod_diag; apply Rmult_le_pos; nra|]. unfold P. cbn [pow].
  replace ((1 + h) * ((1 + h) * ((1 + h) * 1)) - 1) with (3 * h + 3 * h * h + h * h * h) by ring.
  rewrite <- Rmult_assoc. apply Rmult_le_compat_r; [lra|]. assert (0 <= h * h * h) by (apply Rmult_le_pos; nra). nra.
Qed.
Lemma near_cmul d W (a w c v : C) : Cmod (a - w)%C <= P 3 - 1 -> Cmod w = 1 -> near d W c v -> near (d + 6) W (cmul F a c) (w * v)%C.
Proof.
  intros Ha Hw N. pose proof (near_size _ _ _ _ N) as Sz. destruct N as (HW & Hv & Hc). pose proof (Cmod_ge_0 c). pose proof (Cmod_ge_0 a).
  pose proof (Cmod_of_sub a w) as Hs. rewrite Hw in Hs. assert (Sa : Cmod a <= P 3) by lra. pose proof (P_ge 3). pose proof (P_ge d).
  assert (SB : Cmod a * Cmod c <= P 3 * (P d * W)) by (apply Rmult_le_compat; auto).
  assert (W0 : 0 < W) by lra. assert (Q1 : W <= P d * W) by nra. assert (Q2 : P d * W <= P 3 * (P d * W)) by nra.
  pose proof (cmul_round a c _ SB ltac:(lra)) as R1. unfold near. splits; auto. { rewrite Cmod_mult, Hw. lra. }
  assert (R2 : Cmod (a * c - w * v)%C <= (P 3 * P d - 1) * W).
  { replace (a * c - w * v)%C with ((a - w) * c + w * (c - v))%C by (apply C_eq; cbn; ring).
    eapply Rle_trans; [apply Cmod_triangle|]. rewrite !Cmod_mult, Hw.
    assert (Cmod (a - w)%C * Cmod c <= (P 3 - 1) * (P d * W)) by (apply Rmult_le_compat; auto using Cmod_ge_0). lra. }
  pose proof (Cmod_sub_le (cmul F a c) (a * c)%C (w * v)%C) as R3.
  replace (d + 6)%nat with (3 + (3 + d))%nat by lia. rewrite !P_add. lra.
Qed.

(** ** the transform *)
Lemma cost_bound R : In R radices -> (2 ^ Z.of_nat (6 + cost R) <= R ^ 11)%Z.
Proof. unfold radices. cbn [In]. intros I. repeat (destruct I as [<-|I]; [vm_compute; discriminate|]). contradiction. Qed.

Context (SIGN NT : Z) (HS : SIGN = 1%Z \/ SIGN = (-1)%Z) (inp : list C).
Hypothesis Hin : forall m, (0 <= m < zlen inp)%Z -> Cmod (at_ inp m) <= X.
Notation D n s i k := (DFT SIGN (Z.to_nat n) (fun m => at_ inp (i + Z.of_nat m * s)) (Z.to_nat k)).

Definition dep (n : Z) : nat := Z.to_nat (Z.log2 (n ^ 11)).
Lemma dep_mul R q : In R radices -> (0 < q)%Z -> (dep q + (6 + cost R) <= dep (R * q))%nat.
Proof.
  intros I Hq. pose proof (cost_bound R I). pose proof (radices_bound R I). unfold dep.
  assert (Q : (0 < q ^ 11)%Z) by (apply Z.pow_pos_nonneg; lia). pose proof (Z.log2_spec _ Q) as [L _]. pose proof (Z.log2_nonneg (q ^ 11)).
  assert (Z.of_nat (6 + cost R) + Z.log2 (q ^ 11) <= Z.log2 ((R * q) ^ 11))%Z; [|lia].
  apply Z.log2_le_pow2. { apply Z.pow_pos_nonneg; nia. }
  rewrite Z.pow_add_r, Z.pow_mul_l by lia. apply Z.mul_le_mono_nonneg; auto; apply Z.pow_nonneg; lia.
Qed.
Definition Vr (n s i k : Z) (v : C) : Prop := near (dep n) (IZR n * X) v (D n s i k).

Lemma cis_mod t : Cmod (cis t) = 1.
Proof. set (z := cis _). assert (H : fst z * fst z + snd z * snd z = 1) by apply cis_norm. clearbody z. unfold Cmod. rewrite <- sqrt_1. f_equal. lra. Qed.
Lemma DFT_bound n s i k : (0 < n)%Z -> (0 < s)%Z -> (0 <= i)%Z -> (i + (n - 1) * s < zlen inp)%Z -> Cmod (D n s i k) <= IZR n * X.
Proof.
  intros Hn Hs Hi Hl. unfold DFT. eapply Rle_trans; [apply Csum_bound with (B := X)|].
  - intros j Hj. rewrite Cmod_mult, cis_mod, Rmult_1_r. apply Hin. nia.
  - rewrite INR_IZR_INZ, Z2Nat.id by lia. lra.
Qed.

Lemma dit_round fuel n s (out : list (option C)) o i (z : list C) : (0 < n)%Z -> (0 < s)%Z -> (n * s = NT)%Z -> smooth31 n -> (n <= Z.of_nat fuel)%Z ->
  (0 <= o)%Z -> (o + n <= zlen out)%Z -> (0 <= i)%Z -> (i + (n - 1) * s < zlen inp)%Z ->
  zlen z = NT -> (forall m w, znth z m = Some w -> Cmod (w - root SIGN NT m)%C <= P 3 - 1) ->
  exists out' : list (option C), dit F tr fuel SIGN (split n) n s out o inp i z = Ok out' /\ zlen out' = zlen out /\
    (forall m, ~ (o <= m < o + n)%Z -> znth out' m = znth out m) /\
    forall k, (0 <= k < n)%Z -> exists v, znth out' (o + k)%Z = Some (Some v) /\ Vr n s i k v.
Proof.
  intros Hn Hs HNT Hsm Hf Ho Hlo Hi Hli Lz Vz.
  assert (HLEAF : forall (R s' i' : Z), In R radices -> (0 < s')%Z -> (R * s' = NT)%Z -> (0 <= i')%Z -> (i' + (R - 1) * s' < zlen inp)%Z -> (1 <= IZR R)%R).
  { intros R s' i' I _ _ _ _. pose proof (radices_bound R I). apply IZR_le. lia. }
  destruct (dit_gen F tr SIGN NT inp z Vr) with (fuel := fuel) (n := n) (s := s) (out := out) (o := o) (i := i) as (out' & E & L & U & B); auto.
  - intros s' i' v Hv. unfold Vr. pose proof (znth_Some_range _ _ _ Hv) as RV. replace (D 1 s' i' 0) with v.
    + rewrite Rmult_1_l. eapply near_le; [apply near_refl; [apply Rle_refl|]|lia|apply Rle_refl]. rewrite <- (at_znth _ _ _ Hv). apply Hin. exact RV.
    + change (Z.to_nat 1) with 1%nat. unfold DFT. cbn [Csum].
      change (Z.of_nat 0) with 0%Z. rewrite Z.mul_0_l, Z.add_0_r, (at_znth _ _ _ Hv).
      replace (IZR SIGN * 2 * PI * (INR 0 * INR (Z.to_nat 0)) / INR 1)%R with 0%R by (cbn; field). rewrite cis_0, Cplus_0_l, Cmult_1_r. reflexivity.
  - intros R s' i' ins IR _ Hs' HR Hi' Hl Lins Pins. cplxC. pose proof (radices_bound R IR) as BR. pose proof (HLEAF R s' i' IR Hs' HR Hi' Hl) as R1.
    destruct (dft_round SIGN R X ins HS IR Lins ltac:(lra)) as (outs & E & LO & V).
    { intros x I. apply (In_nth _ _ (RtoC 0)) in I as (j & Hj & <-). rewrite <- at_nth. unfold at_ at 1. rewrite Pins by (unfold zlen in *; lia).
      apply Hin. unfold zlen in *. nia. }
    exists outs. splits; auto. { unfold zlen in *. lia. }
    intros l v Hl'. pose proof (znth_Some_range _ _ _ Hl') as Rl. unfold Vr.
    assert (Ev : v = nth (Z.to_nat l) outs (RtoC 0)). { rewrite znth_nonneg in Hl' by lia. symmetry. now apply nth_error_nth. }
    assert (DD : (D R s' i' l) = Csum (length ins) (fun j => nth j ins (RtoC 0) * root SIGN R (Z.of_nat j * Z.of_nat (Z.to_nat l)))%C).
    { rewrite DFT_root by lia. rewrite Z2Nat.id by lia. replace (length ins) with (Z.to_nat R) by (unfold zlen in *; lia). apply Csum_ext. intros j Hj. rewrite Z2Nat.id by lia. f_equal.
      rewrite <- at_nth. unfold at_. rewrite Pins by lia. reflexivity. }
    assert (BD : Cmod (D R s' i' l) <= IZR R * X) by (apply DFT_bound; lia).
    apply near_le with (d := cost R) (W := IZR R * X); [|pose proof (dep_mul R 1 IR ltac:(lia)) as Q; rewrite Z.mul_1_r in Q; lia|apply Rle_refl].
    unfold near. splits; auto; [nra|]. rewrite DD, Ev. apply V. unfold zlen in *. lia.
  - intros R q s' i' k0 xs ins IR _ Hq Hs' HR Hi' Hl' Hk Lxs Vxs Lins I0 Ij. cplxC. pose proof (radices_bound R IR) as BR.
    assert (R1 : 1 <= IZR R) by (apply IZR_le; lia). assert (Q1 : 1 <= IZR q) by (apply IZR_le; lia).
    set (d := (dep q + 6)%nat).
    set (ex := fun j : nat => (root SIGN (R * q) (Z.of_nat j * k0) * D q (R * s') (i' + Z.of_nat j * s') k0)%C).
    assert (NI : forall j, (Z.of_nat j < R)%Z -> near d (IZR q * X) (nth j ins (RtoC 0)) (ex j)).
    { intros j Hj. destruct (znth_in_range xs (Z.of_nat j) ltac:(lia)) as (x & Hx). pose proof (Vxs _ _ Hx) as Nx. unfold Vr in Nx.
      destruct (Nat.eq_dec j 0) as [->|Hj0].
      - change (Z.of_nat 0) with 0%Z in *. rewrite <- I0 in Hx. change 0%nat with (Z.to_nat 0) at 1. rewrite znth_nonneg in Hx by lia. rewrite (nth_error_nth _ _ _ Hx).
        unfold ex. change (Z.of_nat 0) with 0%Z. rewrite Z.mul_0_l, root_0, Cmult_1_l. eapply near_le; [exact Nx|lia|apply Rle_refl].
      - assert (IX : (0 <= Z.of_nat j * (k0 * s') < zlen z)%Z). { rewrite Lz, <- HR. assert (0 <= Z.of_nat j * k0 < R * q)%Z by nia. nia. }
        destruct (znth_in_range z _ IX) as (w & Hw). pose proof (Ij (Z.of_nat j) x w ltac:(lia) Hx Hw) as Hi''. rewrite znth_nth_error in Hi''. rewrite (nth_error_nth _ _ _ Hi'').
        unfold d, ex. apply near_cmul; auto using Cmod_root.
        pose proof (Vz _ _ Hw) as G. rewrite <- HR in G. replace (Z.of_nat j * (k0 * s'))%Z with (s' * (Z.of_nat j * k0))%Z in G by ring.
        rewrite (Z.mul_comm (R * q) s'), root_scale in G by nia. exact G. }
    set (Y := P d * (IZR q * X)).
    assert (QX : X <= IZR q * X) by nra. pose proof (P_ge d) as PD. assert (YX : X <= Y) by (unfold Y; nra).
    destruct (dft_round SIGN R Y ins HS IR Lins YX) as (outs & E & LO & V).
    { intros x I. apply (In_nth _ _ (RtoC 0)) in I as (j & Hj & <-). apply (near_size _ _ _ (ex j)). apply NI. unfold zlen in *. lia. }
    exists outs. splits; auto. { unfold zlen in *. lia. }
    intros l v Hl. pose proof (znth_Some_range _ _ _ Hl) as Rl. unfold Vr.
    assert (Ev : v = nth (Z.to_nat l) outs (RtoC 0)). { rewrite znth_nonneg in Hl by lia. symmetry. now apply nth_error_nth. }
    assert (RL : (0 <= l < R)%Z) by (unfold zlen in *; lia).
    assert (DD : D (R * q) s' i' (k0 + l * q) = Csum (length ins) (fun j => ex j * root SIGN R (Z.of_nat j * Z.of_nat (Z.to_nat l)))%C).
    { rewrite Z2Nat.inj_mul by lia. replace (Z.to_nat (k0 + l * q)) with (Z.to_nat k0 + Z.to_nat l * Z.to_nat q)%nat by nia.
      rewrite DFT_decimate by lia. replace (length ins) with (Z.to_nat R) by (unfold zlen in *; lia). apply Csum_ext. intros j Hj. rewrite !Z2Nat.id by lia. f_equal.
      unfold ex. rewrite Nat2Z.inj_mul, !Z2Nat.id by lia. f_equal. apply DFT_ext. intros m Hm. f_equal. nia. }
    apply near_le with (d := (dep q + (6 + cost R))%nat) (W := IZR (R * q) * X); [|apply dep_mul; auto; lia|apply Rle_refl].
    rewrite mult_IZR. unfold near. splits.
    + nra.
    + rewrite <- mult_IZR. apply DFT_bound; lia.
    + rewrite DD, Ev. eapply Rle_trans; [apply Cmod_sub_le with (b := Csum (length ins) (fun j => nth j ins (RtoC 0) * root SIGN R (Z.of_nat j * Z.of_nat (Z.to_nat l)))%C)|].
      pose proof (V (Z.to_nat l) ltac:(unfold zlen in *; lia)) as G1.
      assert (G2 : Cmod (Csum (length ins) (fun j => nth j ins (RtoC 0) * root SIGN R (Z.of_nat j * Z.of_nat (Z.to_nat l))) -
                Csum (length ins) (fun j => ex j * root SIGN R (Z.of_nat j * Z.of_nat (Z.to_nat l))))%C <= IZR R * ((P d - 1) * (IZR q * X))).
      { rewrite <- Csum_minus. replace (IZR R) with (INR (length ins)) by (rewrite INR_IZR_INZ; f_equal; exact Lins). apply Csum_bound. intros j Hj.
        replace (nth j ins (RtoC 0) * root SIGN R (Z.of_nat j * Z.of_nat (Z.to_nat l)) - ex j * root SIGN R (Z.of_nat j * Z.of_nat (Z.to_nat l)))%C
          with ((nth j ins (RtoC 0) - ex j) * root SIGN R (Z.of_nat j * Z.of_nat (Z.to_nat l)))%C by (apply C_eq; cbn; ring).
        rewrite Cmod_mult, Cmod_root, Rmult_1_r. apply NI. unfold zlen in *. lia. }
      replace (dep q + (6 + cost R))%nat with (d + cost R)%nat by (unfold d; lia). rewrite P_add. unfold Y in G1. lra.
  - exists out'. splits; auto.
Qed.
End Round.

(** the table of twiddle factors *)
Lemma factors_near u e t h rnd tr BINS SIGN : 0 <= u -> 0 <= h -> 0 <= t -> rounding u e rnd -> rnd 1 = 1 -> rnd (-1) = -1 ->
  (forall n M, (0 <= n < M)%Z -> (M <= Z.max 31 BINS)%Z -> Rabs (tcos tr n M - cos (2 * PI * IZR n / IZR M)) <= t /\ Rabs (tsin tr n M - sin (2 * PI * IZR n / IZR M)) <= t) ->
  t <= h -> u * (1 + t) + e <= h -> (0 < BINS)%Z -> SIGN = 1%Z \/ SIGN = (-1)%Z ->
  forall k w, znth (fft_factors (Fn rnd) tr BINS SIGN) k = Some w -> Cmod (w - root SIGN BINS k)%C <= P h 3 - 1.
Proof.
  intros Hu Hh T0 Hr R1 R2 HT Ht H2 HB HS k w Hw. set (z := fft_factors (Fn rnd) tr BINS SIGN) in *.
  assert (Lz : zlen z = BINS). { unfold z, fft_factors, zlen. rewrite map_length, seq_length. lia. }
  pose proof (znth_Some_range _ _ _ Hw) as Rk. assert (Rk2 : (0 <= k < BINS)%Z) by (cplxC; lia). clear Rk. rename Rk2 into Rk. unfold z, fft_factors in Hw. rewrite znth_nonneg in Hw by lia.
  rewrite nth_error_map, (nth_error_nth' _ 0%nat) in Hw by (rewrite seq_length; lia). rewrite seq_nth in Hw by lia. cbn [option_map Nat.add] in Hw. rewrite Z2Nat.id in Hw by lia.
  injection Hw as <-. cbn [nmul nofZ Fn].
  destruct (HT k BINS Rk ltac:(lia)) as [T1 T2].
  set (c := cos (2 * PI * IZR k / IZR BINS)) in *. set (s := sin (2 * PI * IZR k / IZR BINS)) in *.
  assert (Er : root SIGN BINS k = (c, IZR SIGN * s)).
  { unfold root, cis, c, s. replace (IZR SIGN * 2 * PI * IZR k / IZR BINS)%R with (IZR SIGN * (2 * PI * IZR k / IZR BINS))%R by (unfold Rdiv; ring).
    destruct HS as [-> | ->]; [rewrite !Rmult_1_l; reflexivity|]. replace (-1 * (2 * PI * IZR k / IZR BINS)) with (- (2 * PI * IZR k / IZR BINS)) by ring.
    rewrite cos_neg, sin_neg. f_equal. ring. }
  rewrite Er. assert (ES : rnd (IZR SIGN) = IZR SIGN) by (destruct HS as [-> | ->]; auto). rewrite ES.
  assert (AS : Rabs (IZR SIGN) = 1) by (destruct HS as [-> | ->]; unfold Rabs; destruct (Rcase_abs _); lra).
  set (st := tsin tr k BINS) in *.
  assert (Ss : Rabs s <= 1) by (apply Rabs_le; apply SIN_bound).
  assert (Sst : Rabs st <= 1 + t). { replace st with ((st - s) + s) by ring. eapply Rle_trans; [apply Rabs_triang|]. lra. }
  assert (E2 : Rabs (rnd (IZR SIGN * st) - IZR SIGN * s) <= 2 * h).
  { replace (rnd (IZR SIGN * st) - IZR SIGN * s) with ((rnd (IZR SIGN * st) - IZR SIGN * st) + IZR SIGN * (st - s)) by ring. eapply Rle_trans; [apply Rabs_triang|].
    rewrite Rabs_mult, AS. pose proof (Hr (IZR SIGN * st)) as Q. rewrite Rabs_mult, AS, Rmult_1_l in Q. assert (u * Rabs st <= u * (1 + t)) by (apply Rmult_le_compat_l; auto). lra. }
  match goal with |- Cmod ?x <= _ => replace x with (tcos tr k BINS - c, rnd (IZR SIGN * st) - IZR SIGN * s) by (apply C_eq; cbn; ring) end.
  eapply Rle_trans; [apply (Cmod_comp _ _ h (2 * h)); [lra|exact E2]|].
  unfold P. cbn [pow]. replace ((1 + h) * ((1 + h) * ((1 + h) * 1)) - 1) with (3 * h + 3 * h * h + h * h * h) by ring.
  assert (0 <= h * h) by nra. assert (0 <= h * h * h) by nra. apply Rle_trans with (3 * h); [|lra].
  unfold Cmod. cbn [fst snd]. rewrite <- (sqrt_pow2 (3 * h)) by lra. apply sqrt_le_1_alt. nra.
Qed.

Lemma fft_round u e t h X rnd tr BINS SIGN (out : list (option C)) (inp : list C) (m : nat) :
  0 <= u -> 0 <= e -> rounding u e rnd -> rnd 1 = 1 -> rnd (-1) = -1 -> 0 < X ->
  (forall n M, (0 <= n < M)%Z -> (M <= Z.max 31 BINS)%Z -> Rabs (tcos tr n M - cos (2 * PI * IZR n / IZR M)) <= t /\ Rabs (tsin tr n M - sin (2 * PI * IZR n / IZR M)) <= t) ->
  Rabs (trsqrt2 tr - / sqrt 2) <= t -> t <= h -> u + 2 * e / X <= h -> u * (1 + t) + e <= h ->
  (0 < BINS)%Z -> smooth31 BINS -> SIGN = 1%Z \/ SIGN = (-1)%Z -> (BINS <= zlen out)%Z -> (BINS <= zlen inp)%Z -> (BINS <= 2 ^ Z.of_nat m)%Z ->
  (forall x, In x inp -> Cmod x <= X) ->
  exists out' : list (option C), fft (Fn rnd) tr BINS SIGN out inp = Ok out' /\ zlen out' = zlen out /\
    (forall k, (BINS <= k)%Z -> znth out' k = znth out k) /\
    forall k, (0 <= k < BINS)%Z -> exists v, znth out' k = Some (Some v) /\
      Cmod (v - DFT SIGN (Z.to_nat BINS) (fun n => nth n inp (RtoC 0)) (Z.to_nat k))%C <= ((1 + h) ^ (11 * m) - 1) * (IZR BINS * X).
Proof.
  intros Hu He Hr R1 R2 HX HT HR2 Ht H1 H2 HB Hsm HS Lo Li Hm Hin.
  assert (Hh : 0 <= h). { assert (0 <= 2 * e / X). { apply Rmult_le_pos; [lra|]. apply Rlt_le, Rinv_0_lt_compat; auto. } lra. }
  assert (T0 : 0 <= t) by (eapply Rle_trans; [apply Rabs_pos|exact HR2]).
  unfold fft. set (z := fft_factors (Fn rnd) tr BINS SIGN).
  assert (Lz : zlen z = BINS). { unfold z, fft_factors, zlen. rewrite map_length, seq_length. lia. }
  destruct (dit_round u e X h rnd tr Hu He Hr HX H1 (Z.max 31 BINS)) with (SIGN := SIGN) (NT := BINS) (inp := inp) (fuel := Z.to_nat BINS) (n := BINS) (s := 1%Z) (out := out) (o := 0%Z) (i := 0%Z) (z := z)
    as (out' & E & L & U & V); auto; try lia.
  - intros n M HnM HM. destruct (HT n M HnM HM). cbn. lra.
  - intros n M HnM HM. destruct (HT n M HnM HM). cbn. lra.
  - cbn. lra.
  - intros k Hk. apply Hin. destruct (znth_in_range inp k Hk) as (v & Hv). rewrite (at_znth _ _ _ Hv). rewrite znth_nonneg in Hv by lia. eapply nth_error_In; eauto.
  - intros k w Hw. apply (factors_near u e t h rnd tr BINS SIGN); auto.
  - exists out'. splits; auto. { intros k Hk. apply U. lia. }
    intros k Hk. destruct (V k Hk) as (v & Ev & (_ & _ & Hv)). rewrite Z.add_0_l in Ev. exists v. split; auto.
    replace (DFT SIGN (Z.to_nat BINS) (fun n => nth n inp (RtoC 0)) (Z.to_nat k)) with (DFT SIGN (Z.to_nat BINS) (fun m0 => at_ inp (0 + Z.of_nat m0 * 1)) (Z.to_nat k)).
    2:{ apply DFT_ext. intros j Hj. rewrite Z.add_0_l, Z.mul_1_r. apply at_nth. }
    eapply Rle_trans; [exact Hv|]. apply Rmult_le_compat_r; [apply Rmult_le_pos; [apply IZR_le; lia|lra]|].
    assert (P h (dep BINS) <= P h (11 * m)); [|unfold P in *; lra]. apply Rle_pow; [lra|].
    unfold dep. assert (Z.log2 (BINS ^ 11) <= Z.of_nat (11 * m))%Z; [|lia].
    replace (Z.of_nat (11 * m)) with (Z.log2 (2 ^ Z.of_nat (11 * m))) by (apply Z.log2_pow2; lia). apply Z.log2_le_mono.
    replace (Z.of_nat (11 * m)) with (Z.of_nat m * 11)%Z by lia. rewrite Z.pow_mul_r by lia. apply Z.pow_le_mono_l. lia.
Qed.

Lemma pow1h h n : 0 <= h -> INR n * h <= 1 -> (1 + h) ^ n <= 1 + INR n * h + (INR n * h) * (INR n * h).
Proof.
  intros Hh. induction n as [|n IH]; intros H; cbn [pow]. { cbn. lra. }
  rewrite S_INR in *. pose proof (pos_INR n) as Hn. specialize (IH ltac:(nra)). set (x := INR n) in *. clearbody x.
  assert (0 <= h * h) by nra. assert (x * h * (x * h * h) <= 1 * (x * h * h)). { apply Rmult_le_compat_r; nra. }
  assert ((1 + h) * (1 + h) ^ n <= (1 + h) * (1 + x * h + x * h * (x * h))) by (apply Rmult_le_compat_l; lra). nra.
Qed.
