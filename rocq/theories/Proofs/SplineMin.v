(* The natural cubic spline has the least curvature of all interpolating functions (Holladay) *)
From Coq Require Import Reals Lra Lia.
From Coquelicot Require Import Coquelicot.
From Verif Require Import Spec.Interp.
Open Scope R_scope.

Lemma cont_pos (h : R -> R) (x0 : R) : continuous h x0 -> 0 < h x0 -> exists d, 0 < d /\ forall x, Rabs (x - x0) < d -> 0 < h x.
Proof.
  intros H P. assert (L : locally (h x0) (fun y => 0 < y)) by (apply (open_gt 0); auto).
  destruct (H _ L) as (d & D). exists d. split; [apply d|]. intros x Hx. apply D. exact Hx.
Qed.
(** two continuous functions equal on an open interval are equal at its ends *)
Lemma cont_eq_ends (f g : R -> R) a b : a < b -> (forall x, a <= x <= b -> continuous f x) -> (forall x, a <= x <= b -> continuous g x) ->
  (forall x, a < x < b -> f x = g x) -> forall x, a <= x <= b -> f x = g x.
Proof.
  intros AB Cf Cg E x Hx. destruct (Req_dec (f x) (g x)) as [|N]; auto. exfalso.
  set (h := fun t => (f t - g t) * (f t - g t)). assert (Ch : continuous h x).
  { apply (continuous_mult (fun t => f t - g t) (fun t => f t - g t)); apply (continuous_minus f g); auto. }
  assert (P : 0 < h x). { unfold h. apply Rsqr_pos_lt. lra. }
  destruct (cont_pos h x Ch P) as (d & D & Q).
  assert (exists t, a < t < b /\ Rabs (t - x) < d) as (t & Ht & Hd).
  { destruct (Rle_lt_dec x ((a + b) / 2)).
    - exists (x + Rmin (d / 2) ((b - a) / 4)). pose proof (Rmin_l (d/2) ((b-a)/4)). pose proof (Rmin_r (d/2) ((b-a)/4)). assert (0 < Rmin (d/2) ((b-a)/4)) by (apply Rmin_glb_lt; lra). split; [lra|]. rewrite Rabs_pos_eq; lra.
    - exists (x - Rmin (d / 2) ((b - a) / 4)). pose proof (Rmin_l (d/2) ((b-a)/4)). pose proof (Rmin_r (d/2) ((b-a)/4)). assert (0 < Rmin (d/2) ((b-a)/4)) by (apply Rmin_glb_lt; lra). split; [lra|]. rewrite Rabs_left; lra. }
  specialize (Q t Hd). unfold h in Q. rewrite (E t Ht) in Q. lra.
Qed.
(** derivatives of functions equal on an open interval *)
Lemma derive_eq (f g : R -> R) a b (l m : R) x : a < x < b -> (forall t, a < t < b -> f t = g t) -> is_derive f x l -> is_derive g x m -> l = m.
Proof.
  intros Hx E Df Dg. assert (Df' : is_derive g x l).
  { eapply is_derive_ext_loc; [|exact Df]. assert (P : 0 < Rmin (x - a) (b - x)) by (apply Rmin_glb_lt; lra). exists (mkposreal _ P). intros t Ht. apply E.
    assert (Rabs (t - x) < Rmin (x - a) (b - x)) by exact Ht. pose proof (Rmin_l (x - a) (b - x)). pose proof (Rmin_r (x - a) (b - x)). apply Rabs_def2 in H. lra. }
  rewrite <- (is_derive_unique _ _ _ Df'). apply is_derive_unique. exact Dg.
Qed.

(** second derivative of a function that is cubic on [a, b] *)
Lemma cubic_second (F F1 F2 : R -> R) a b c0 c1 c2 c3 : a < b -> (forall x, is_derive F x (F1 x)) -> (forall x, is_derive F1 x (F2 x)) -> (forall x, continuous F2 x) ->
  (forall x, a <= x <= b -> F x = c0 + c1 * x + c2 * x ^ 2 + c3 * x ^ 3) -> forall x, a <= x <= b -> F2 x = 2 * c2 + 6 * c3 * x.
Proof.
  intros AB D1 D2 C2 E.
  assert (E1 : forall x, a < x < b -> F1 x = c1 + 2 * c2 * x + 3 * c3 * x ^ 2).
  { intros x Hx. apply (derive_eq F (fun x => c0 + c1 * x + c2 * x ^ 2 + c3 * x ^ 3) a b (F1 x) (c1 + 2 * c2 * x + 3 * c3 * x ^ 2) x); auto.
    - intros t Ht. apply E. lra.
    - auto_derive; auto; ring. }
  assert (E2 : forall x, a < x < b -> F2 x = 2 * c2 + 6 * c3 * x).
  { intros x Hx. apply (derive_eq F1 (fun x => c1 + 2 * c2 * x + 3 * c3 * x ^ 2) a b (F2 x) (2 * c2 + 6 * c3 * x) x); auto. auto_derive; auto; ring. }
  apply cont_eq_ends; auto. intros x _. apply (ex_derive_continuous (fun x => 2 * c2 + 6 * c3 * x)). auto_derive; auto.
Qed.

Section Piece.
Variables (H H1 H2 : R -> R) (a b : R).
Hypothesis AB : a < b.
Hypothesis D1 : forall x, a <= x <= b -> is_derive H x (H1 x).
Hypothesis D2 : forall x, a <= x <= b -> is_derive H1 x (H2 x).
Hypothesis Ct : forall x, a <= x <= b -> continuous H2 x.
Lemma piece_int p q : H a = 0 -> H b = 0 ->
  is_RInt (fun x => (p + q * x) * H2 x) a b ((p + q * b) * H1 b - (p + q * a) * H1 a).
Proof.
  intros Ha Hb. replace ((p + q * b) * H1 b - (p + q * a) * H1 a) with (minus ((p + q * b) * H1 b - q * H b) ((p + q * a) * H1 a - q * H a)).
  2:{ rewrite Ha, Hb. unfold minus, plus, opp. cbn. ring. }
  apply (is_RInt_derive (fun x => (p + q * x) * H1 x - q * H x)).
  - intros x Hx. rewrite Rmin_left, Rmax_right in Hx by lra. replace ((p + q * x) * H2 x) with ((q * H1 x + (p + q * x) * H2 x) - q * H1 x) by ring.
    apply (is_derive_minus (fun x => (p + q * x) * H1 x) (fun x => q * H x)).
    + apply (is_derive_mult (fun x => p + q * x) H1 x q (H2 x)); auto; [auto_derive; auto; ring|intros; apply Rmult_comm].
    + apply (is_derive_scal H x q (H1 x)). auto.
  - intros x Hx. rewrite Rmin_left, Rmax_right in Hx by lra. apply (continuous_mult (fun x => p + q * x) H2); auto.
    apply (ex_derive_continuous (fun x => p + q * x)). auto_derive; auto.
Qed.
End Piece.

Lemma zero_integral (h : R -> R) a b : a < b -> (forall x, a <= x <= b -> continuous h x) -> (forall x, a <= x <= b -> 0 <= h x) -> RInt h a b <= 0 ->
  forall x, a <= x <= b -> h x = 0.
Proof.
  intros AB Ch P I. assert (Q : forall x, a < x < b -> h x = 0).
  { intros x Hx. destruct (Rle_lt_or_eq_dec 0 (h x) ltac:(apply P; lra)) as [L|]; auto. exfalso.
    destruct (cont_pos h x (Ch x ltac:(lra)) L) as (d & D & Q).
    set (e := Rmin (d / 2) (Rmin ((x - a) / 2) ((b - x) / 2))). assert (E0 : 0 < e) by (unfold e; repeat apply Rmin_glb_lt; lra).
    assert (E1 : e <= d / 2) by apply Rmin_l. assert (E2 : e <= (x - a) / 2) by (eapply Rle_trans; [apply Rmin_r|apply Rmin_l]). assert (E3 : e <= (b - x) / 2) by (eapply Rle_trans; [apply Rmin_r|apply Rmin_r]).
    assert (ex : forall s t, a <= s -> s <= t -> t <= b -> ex_RInt h s t).
    { intros s t S1 S2 S3. apply (@ex_RInt_continuous R_CompleteNormedModule). intros z Hz. rewrite Rmin_left, Rmax_right in Hz by lra. apply Ch. lra. }
    assert (0 <= RInt h a (x - e)) by (apply RInt_ge_0; [lra|apply ex; lra|intros; apply P; lra]).
    assert (0 <= RInt h (x + e) b) by (apply RInt_ge_0; [lra|apply ex; lra|intros; apply P; lra]).
    assert (0 < RInt h (x - e) (x + e)). { apply RInt_gt_0; [lra| |]. - intros t Ht. apply Q. apply Rabs_def1; lra. - intros t Ht. apply Ch. lra. }
    assert (K1 : RInt h a (x - e) + RInt h (x - e) b = RInt h a b) by (apply (RInt_Chasles h a (x - e) b); apply ex; lra).
    assert (K2 : RInt h (x - e) (x + e) + RInt h (x + e) b = RInt h (x - e) b) by (apply (RInt_Chasles h (x - e) (x + e) b); apply ex; lra).
    lra. }
  apply (cont_eq_ends h (fun _ => 0) a b AB Ch); auto. intros. apply continuous_const.
Qed.

Section Holladay.
Variables (n : nat) (u y : nat -> R) (F F1 F2 G G1 G2 : R -> R).
Hypothesis Hn : (2 <= n)%nat.
Hypothesis Hu : forall k, (S k < n)%nat -> u k < u (S k).
Hypothesis If : interpolates n u y F.
Hypothesis Pf : piecewise_cubic n u F.
Hypothesis DF1 : forall x, is_derive F x (F1 x).
Hypothesis DF2 : forall x, is_derive F1 x (F2 x).
Hypothesis CF : forall x, continuous F2 x.
Hypothesis N0 : F2 (u 0%nat) = 0.
Hypothesis N1 : F2 (u (n - 1)%nat) = 0.
Notation a := (u 0%nat).
Notation b := (u (n - 1)%nat).
Hypothesis Ig : interpolates n u y G.
Hypothesis DG1 : forall x, a <= x <= b -> is_derive G x (G1 x).
Hypothesis DG2 : forall x, a <= x <= b -> is_derive G1 x (G2 x).
Hypothesis CG : forall x, a <= x <= b -> continuous G2 x.

Lemma knots_le j k : (j <= k)%nat -> (k < n)%nat -> u j <= u k.
Proof. intros L. induction L; intros; [lra|]. apply Rle_trans with (u m); [apply IHL; lia|]. left. apply Hu. lia. Qed.
Lemma ends_lt : a < b.
Proof. apply Rlt_le_trans with (u 1%nat); [apply Hu; lia|apply knots_le; lia]. Qed.

Lemma cross_piece j : (S j < n)%nat -> is_RInt (fun x => F2 x * (G2 x - F2 x)) (u j) (u (S j))
   (F2 (u (S j)) * (G1 (u (S j)) - F1 (u (S j))) - F2 (u j) * (G1 (u j) - F1 (u j))).
Proof.
  intros Hj. destruct (Pf j Hj) as (c0 & c1 & c2 & c3 & E). pose proof (Hu j Hj) as UJ.
  assert (Sec : forall x, u j <= x <= u (S j) -> F2 x = 2 * c2 + 6 * c3 * x).
  { apply (cubic_second F F1 F2 _ _ c0 c1 c2 c3); auto. intros x Hx. apply E. split; auto. split; right; lra. }
  assert (In : forall x, u j <= x <= u (S j) -> a <= x <= b).
  { intros x Hx. pose proof (knots_le 0 j ltac:(lia) ltac:(lia)). pose proof (knots_le (S j) (n - 1) ltac:(lia) ltac:(lia)). lra. }
  rewrite (Sec (u j)), (Sec (u (S j))) by lra.
  apply (is_RInt_ext (fun x => (2 * c2 + 6 * c3 * x) * (G2 x - F2 x))).
  { intros x Hx. rewrite Rmin_left, Rmax_right in Hx by lra. rewrite (Sec x) at 2 by lra. reflexivity. }
  apply (piece_int (fun x => G x - F x) (fun x => G1 x - F1 x) (fun x => G2 x - F2 x)); auto.
  - intros x Hx. apply (is_derive_minus G F); auto.
  - intros x Hx. apply (is_derive_minus G1 F1); auto.
  - intros x Hx. apply (continuous_minus G2 F2); auto.
  - rewrite (Ig j), (If j) by lia. ring.
  - rewrite (Ig (S j)), (If (S j)) by lia. ring.
Qed.
Lemma cross_sum k : (k < n)%nat -> is_RInt (fun x => F2 x * (G2 x - F2 x)) a (u k) (F2 (u k) * (G1 (u k) - F1 (u k)) - F2 a * (G1 a - F1 a)).
Proof.
  induction k; intros Hk.
  - replace (F2 a * (G1 a - F1 a) - F2 a * (G1 a - F1 a)) with (@zero R_NormedModule) by (unfold zero; cbn; ring). apply is_RInt_point.
  - replace (F2 (u (S k)) * (G1 (u (S k)) - F1 (u (S k))) - F2 a * (G1 a - F1 a)) with
      (plus (F2 (u k) * (G1 (u k) - F1 (u k)) - F2 a * (G1 a - F1 a)) (F2 (u (S k)) * (G1 (u (S k)) - F1 (u (S k))) - F2 (u k) * (G1 (u k) - F1 (u k)))) by (unfold plus; cbn; ring).
    apply (is_RInt_Chasles _ a (u k) (u (S k)) _ _ (IHk ltac:(lia)) (cross_piece k Hk)).
Qed.

Lemma ex_cont (h : R -> R) : (forall x, a <= x <= b -> continuous h x) -> ex_RInt h a b.
Proof. intros Ch. apply (@ex_RInt_continuous R_CompleteNormedModule). intros z Hz. pose proof ends_lt. rewrite Rmin_left, Rmax_right in Hz by lra. apply Ch. lra. Qed.
Lemma cont_sq (h : R -> R) x : continuous h x -> continuous (fun t => h t ^ 2) x.
Proof. intros Ch. apply (continuous_ext (fun t => h t * h t)); [intros t; change (@eq R (h t * h t) (h t ^ 2)); ring|]. apply (continuous_mult h h); auto. Qed.

(** the curvature of G exceeds that of F by the curvature of the difference *)
Lemma curvature : RInt (fun x => G2 x ^ 2) a b = RInt (fun x => F2 x ^ 2) a b + RInt (fun x => (G2 x - F2 x) ^ 2) a b.
Proof.
  pose proof (cross_sum (n - 1) ltac:(lia)) as C. rewrite N0, N1 in C. pose proof ends_lt as AB.
  assert (EF : ex_RInt (fun x => F2 x ^ 2) a b) by (apply ex_cont; intros; apply cont_sq; auto).
  assert (EH : ex_RInt (fun x => (G2 x - F2 x) ^ 2) a b) by (apply ex_cont; intros; apply cont_sq; apply (continuous_minus G2 F2); auto).
  pose proof (RInt_correct _ _ _ EF) as IF_. pose proof (RInt_correct _ _ _ EH) as IH_.
  apply is_RInt_unique. pose proof (is_RInt_plus _ _ _ _ _ _ IF_ IH_) as S1. pose proof (is_RInt_scal _ _ _ 2 _ C) as S2. pose proof (is_RInt_plus _ _ _ _ _ _ S1 S2) as S3.
  eapply is_RInt_ext in S3; [|intros x Hx; instantiate (1 := fun x => G2 x ^ 2); unfold plus, scal; cbn; unfold mult; cbn; ring].
  match goal with |- is_RInt _ _ _ ?v => match type of S3 with is_RInt _ _ _ ?w => replace v with w; [exact S3|] end end.
  unfold plus, scal. cbn. unfold mult. cbn. ring.
Qed.
Lemma curvature_le : RInt (fun x => F2 x ^ 2) a b <= RInt (fun x => G2 x ^ 2) a b.
Proof.
  rewrite curvature. assert (0 <= RInt (fun x => (G2 x - F2 x) ^ 2) a b); [|lra]. pose proof ends_lt. apply RInt_ge_0; [lra| |intros; apply pow2_ge_0].
  apply ex_cont; intros; apply cont_sq; apply (continuous_minus G2 F2); auto.
Qed.
Lemma curvature_unique : RInt (fun x => G2 x ^ 2) a b <= RInt (fun x => F2 x ^ 2) a b -> forall x, a <= x <= b -> G x = F x.
Proof.
  intros L. pose proof ends_lt as AB. rewrite curvature in L.
  assert (Z : forall x, a <= x <= b -> G2 x - F2 x = 0).
  { intros x Hx. assert ((G2 x - F2 x) ^ 2 = 0); [|nra]. apply (zero_integral (fun x => (G2 x - F2 x) ^ 2) a b); auto; [|intros; apply pow2_ge_0|lra].
    intros; apply cont_sq; apply (continuous_minus G2 F2); auto. }
  set (c := G1 a - F1 a).
  assert (Z1 : forall x, a <= x <= b -> G1 x - F1 x = c).
  { intros x Hx. destruct (MVT_gen (fun x => G1 x - F1 x) a x (fun x => G2 x - F2 x)) as (t & Ht & E).
    - intros t Ht. rewrite Rmin_left, Rmax_right in Ht by lra. apply (is_derive_minus G1 F1); auto. apply DG2. lra.
    - intros t Ht. rewrite Rmin_left, Rmax_right in Ht by lra. apply derivable_continuous_pt. exists (G2 t - F2 t). apply is_derive_Reals. apply (is_derive_minus G1 F1); auto. apply DG2. lra.
    - rewrite Rmin_left, Rmax_right in Ht by lra. cbn beta in E. rewrite (Z t) in E by lra. unfold c. lra. }
  assert (Z0 : forall x, a <= x <= b -> G x - F x = c * (x - a)).
  { intros x Hx. destruct (MVT_gen (fun x => G x - F x) a x (fun x => G1 x - F1 x)) as (t & Ht & E).
    - intros t Ht. rewrite Rmin_left, Rmax_right in Ht by lra. apply (is_derive_minus G F); auto. apply DG1. lra.
    - intros t Ht. rewrite Rmin_left, Rmax_right in Ht by lra. apply derivable_continuous_pt. exists (G1 t - F1 t). apply is_derive_Reals. apply (is_derive_minus G F); auto. apply DG1. lra.
    - rewrite Rmin_left, Rmax_right in Ht by lra. cbn beta in E. rewrite (Z1 t) in E by lra. rewrite (Ig 0%nat), (If 0%nat) in E by lia. lra. }
  assert (C0 : c = 0). { pose proof (Z0 b ltac:(lra)) as E. rewrite (Ig (n - 1)%nat), (If (n - 1)%nat) in E by lia. nra. }
  intros x Hx. pose proof (Z0 x Hx) as E. rewrite C0 in E. lra.
Qed.
End Holladay.
