(* Instances of the window proofs: integers for MovMin/MovMax, reals for SMA and Kahan *)
From Coq Require Import Reals Lra.
From Verif Require Import Proofs.BaseLemmas Proofs.ContainerProofs Proofs.SwaProofs Proofs.MovExtProofs
  Proofs.SmaProofs Spec.Containers Spec.Reduce Spec.Sums
  Model.Swa Model.MovExt Model.Kahan Model.Sma.
Open Scope Z_scope.

Lemma movext_run_ext {A} (e1 e2 comp : A -> A -> bool) NUM init xs : (forall a b, e1 a b = e2 a b) ->
  movext_run e1 comp NUM init xs = movext_run e2 comp NUM init xs.
Proof.
  intros H. unfold movext_run. destruct (movext_new NUM init) as [m| | |]; cbn [bind]; auto.
  revert m. induction xs as [|x xs IH]; intros m; cbn [run]; auto.
  assert (E : movext_call e1 comp NUM m x = movext_call e2 comp NUM m x).
  { unfold movext_call. destruct (delay_call NUM (m_window m) x) as [[w old]| | |]; cbn [bind]; auto.
    destruct (stack_top (m_disp m)); cbn [bind]; auto. now rewrite H. }
  rewrite E. destruct (movext_call e2 comp NUM m x) as [[m1 v]| | |]; cbn [bind]; auto. now rewrite IH.
Qed.

Lemma eqb_ltb a b : negb (a <? b) && negb (b <? a) = (a =? b).
Proof. destruct (Z.ltb_spec a b), (Z.ltb_spec b a), (Z.eqb_spec a b); auto; lia. Qed.
Lemma eqb_gtb a b : negb (a >? b) && negb (b >? a) = (a =? b).
Proof. rewrite !Z.gtb_ltb, andb_comm. apply eqb_ltb. Qed.

Lemma movmin_int_ok NUM xs : 0 < NUM -> (forall x, In x xs -> INT_MIN <= x <= INT_MAX) ->
  exists m vs, movmin_int NUM xs = Ok (m, vs) /\ length vs = length xs /\
    forall t v, nth_error vs t = Some v ->
      In v (lastn (Z.to_nat NUM) (firstn (S t) xs)) /\
      forall y, In y (lastn (Z.to_nat NUM) (firstn (S t) xs)) -> v <= y.
Proof.
  intros Hn Hx. unfold movmin_int. 
  destruct (movext_run_ok Z.ltb Z.ltb_irrefl) with (NUM := NUM) (init := INT_MAX) (xs := xs)
    (P := fun x => x <= INT_MAX) as (m & vs & E & Hl & Hb); auto.
  - intros a b c. rewrite !Z.ltb_lt. lia.
  - intros a b c. rewrite !Z.ltb_lt. lia.
  - right. intros y Hy. apply Z.ltb_ge. exact Hy.
  - intros y Hy. apply Hx, Hy.
  - exists m, vs. rewrite <- E. split; [apply movext_run_ext; intros; symmetry; apply eqb_ltb|]. split; auto.
    intros t v Hv. destruct (Hb t v Hv) as [H1 H2]. split; auto. intros y Hy. apply Z.ltb_ge. auto.
Qed.

Lemma movmax_int_ok NUM xs : 0 < NUM -> (forall x, In x xs -> INT_MIN <= x <= INT_MAX) ->
  exists m vs, movmax_int NUM xs = Ok (m, vs) /\ length vs = length xs /\
    forall t v, nth_error vs t = Some v ->
      In v (lastn (Z.to_nat NUM) (firstn (S t) xs)) /\
      forall y, In y (lastn (Z.to_nat NUM) (firstn (S t) xs)) -> y <= v.
Proof.
  intros Hn Hx. unfold movmax_int. 
  destruct (movext_run_ok Z.gtb) with (NUM := NUM) (init := INT_MIN) (xs := xs)
    (P := fun x => INT_MIN <= x) as (m & vs & E & Hl & Hb); auto.
  - intros a. rewrite Z.gtb_ltb. apply Z.ltb_irrefl.
  - intros a b c. rewrite !Z.gtb_lt. lia.
  - intros a b c. rewrite !Z.gtb_lt. lia.
  - right. intros y Hy. rewrite Z.gtb_ltb. apply Z.ltb_ge. exact Hy.
  - intros y Hy. apply Hx, Hy.
  - exists m, vs. rewrite <- E. split; [apply movext_run_ext; intros; symmetry; apply eqb_gtb|]. split; auto.
    intros t v Hv. destruct (Hb t v Hv) as [H1 H2]. split; auto. intros y Hy. apply Z.ltb_ge.
    rewrite <- Z.gtb_ltb. auto.
Qed.

(** ** reals *)
Definition over_num (NUM : Z) (x : R) : R := (x / IZR NUM)%R.
Definition Rp_assoc a b c : (a + (b + c))%R = (a + b + c)%R := eq_sym (Rplus_assoc a b c).

Notation W NUM := (window (Z.to_nat NUM) 0%R).

Lemma over_num_mean NUM (xs : list R) : 0 < NUM ->
  over_num NUM (gsum 0%R Rplus (W NUM xs)) = Rmean (W NUM xs).
Proof.
  intros H. unfold over_num, Rmean, Rsum. rewrite window_length. f_equal.
  rewrite INR_IZR_INZ, Z2Nat.id by lia. reflexivity.
Qed.

Lemma sma1_real NUM xs : 0 < NUM ->
  exists s, run (sma1_call Rplus (over_num NUM) NUM) (sma1_new 0%R NUM) xs
    = Ok (s, map (fun h => Rmean (W NUM h)) (prefixes xs)) /\
    (xs <> [] -> sma1_abs_dev Rplus Rminus (over_num NUM) NUM Rabs s
      = Ok (Rmean (map (fun v => Rabs (v - Rmean (W NUM xs))) (W NUM xs)))).
Proof.
  intros H.
  destruct (sma1_run 0%R Rplus Rp_assoc Rplus_comm Rplus_0_r (over_num NUM) NUM H xs) as (s & E & HI).
  exists s. split.
  - rewrite E. do 2 f_equal. apply map_ext. intros h. apply over_num_mean, H.
  - intros Hne. rewrite (sma1_abs_dev_ok 0%R Rplus Rminus Rp_assoc Rplus_comm Rplus_0_r (over_num NUM) NUM H Rabs xs s HI Hne).
    rewrite over_num_mean by auto. f_equal. unfold Rmean at 2, Rsum. rewrite map_length, window_length.
    unfold over_num. rewrite INR_IZR_INZ, Z2Nat.id by lia. reflexivity.
Qed.

Definition norm_spec (NUM : Z) (norm : bool) (h : list R) : R :=
  if norm then Rmean (W NUM h) else Rsum (W NUM h).

Lemma norm_ok NUM (norm : bool) h : 0 < NUM ->
  (if norm then over_num NUM else fun v : R => v) (gsum 0%R Rplus (W NUM h)) = norm_spec NUM norm h.
Proof. intros. destruct norm; cbn. - now apply over_num_mean. - reflexivity. Qed.

Lemma sma2_real NUM norm xs : 0 < NUM ->
  observe (run (sma2_call Rplus Rminus (over_num NUM) NUM norm) (sma2_new 0%R NUM) xs)
  = Ok (map (norm_spec NUM norm) (prefixes xs)).
Proof.
  intros H. destruct (sma2_run 0%R Rplus Rminus Ropp Rp_assoc Rplus_comm Rplus_0_r Rplus_opp_r
    (fun a b => eq_refl) (over_num NUM) NUM H norm xs) as (s & -> & _).
  cbn. f_equal. apply map_ext. intros h. now apply norm_ok.
Qed.
Lemma sma3_real NUM norm xs : 0 < NUM ->
  observe (run (sma3_call Rplus Rminus Ropp (over_num NUM) NUM norm) (sma3_new 0%R NUM) xs)
  = Ok (map (norm_spec NUM norm) (prefixes xs)).
Proof.
  intros H. destruct (sma3_run 0%R Rplus Rminus Ropp Rp_assoc Rplus_comm Rplus_0_r Rplus_opp_r
    (fun a b => eq_refl) (over_num NUM) NUM H norm xs) as (s & -> & _).
  cbn. f_equal. apply map_ext. intros h. now apply norm_ok.
Qed.
Lemma sma4_real NUM norm xs : 0 < NUM ->
  observe (run (sma4_call Rplus (over_num NUM) NUM norm) (sma4_new 0%R NUM) xs)
  = Ok (map (norm_spec NUM norm) (prefixes xs)).
Proof.
  intros H. destruct (sma4_run 0%R Rplus Rp_assoc Rplus_comm Rplus_0_r (over_num NUM) NUM H norm xs) as (s & ->).
  cbn. f_equal. apply map_ext. intros h. now apply norm_ok.
Qed.

Lemma sma4_no_drift {A} (add : A -> A -> A) (div : A -> A) NUM norm zero d (xs ys : list A) : 0 < NUM ->
    NUM <= zlen xs -> NUM <= zlen ys -> zlen xs mod NUM = zlen ys mod NUM ->
    lastn (Z.to_nat NUM) xs = lastn (Z.to_nat NUM) ys ->
    exists o1 o2,
      observe (run (sma4_call add div NUM norm) (sma4_new zero NUM) xs) = Ok o1 /\
      observe (run (sma4_call add div NUM norm) (sma4_new zero NUM) ys) = Ok o2 /\
      length o1 = length xs /\ length o2 = length ys /\ last o1 d = last o2 d.
Proof.
  intros H Hx Hy Hm Hw.
  set (f := fun v => if norm then div v else v).
  assert (E : forall zs s, run (sma4_call add div NUM norm) s zs =
     ('(s', os) <- run (swa_call add NUM) s zs ;; Ok (s', map f os))).
  { induction zs as [|z zs IH]; intros s; cbn [run bind map]; auto. unfold sma4_call at 1.
    destruct (swa_call add NUM s z) as [[s1 o]| | |]; cbn [bind]; auto. rewrite IH.
    destruct (run (swa_call add NUM) s1 zs) as [[s2 os]| | |]; cbn [bind]; auto. }
  destruct (exists_last (l := xs)) as (_ & x0 & _). { intros ->. cbn in Hx. lia. }
  destruct (swa_no_drift add NUM H zero x0 xs ys Hx Hy Hm Hw) as (o1 & o2 & E1 & E2 & L1 & L2 & EL).
  exists (map f o1), (map f o2). unfold sma4_new. rewrite !E.
  destruct (run (swa_call add NUM) (swa_new NUM zero) xs) as [[s1 p1]| | |]; try discriminate. cbn in E1. injection E1 as ->.
  destruct (run (swa_call add NUM) (swa_new NUM zero) ys) as [[s2 p2]| | |]; try discriminate. cbn in E2. injection E2 as ->.
  cbn. rewrite !map_length. splits; auto.
  assert (Hmap : forall l : list A, l <> [] -> last (map f l) d = f (last l x0)).
  { intros l Hl. destruct (exists_last Hl) as (l' & a & ->). rewrite map_app. cbn [map]. now rewrite !last_last. }
  rewrite !Hmap; [now rewrite EL| |].
  - intros ->. cbn in L2. unfold zlen in Hy. lia.
  - intros ->. cbn in L1. unfold zlen in Hx. lia.
Qed.

Lemma kahan_real xs init :
  fold_left (fun k x => fst (kahan_call Rplus Rminus k x)) xs (kahan_new 0%R init)
  = mkKahan (init + Rsum xs)%R 0%R.
Proof.
  exact (kahan_fold_exact 0%R Rplus Rminus Ropp Rp_assoc Rplus_comm Rplus_0_r Rplus_opp_r
    (fun a b => eq_refl) xs (kahan_new 0%R init) eq_refl).
Qed.
