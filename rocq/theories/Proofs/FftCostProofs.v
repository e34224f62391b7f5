(* Number of operations of an FFT *)
From Coq Require Import Reals Lra.
From Interval Require Import Tactic.
From Verif Require Import Proofs.BaseLemmas Proofs.ContainerProofs Spec.Dft Proofs.FftSplit Proofs.FftProofs Proofs.QuickCostProofs Proofs.StreamCostProofs Model.FftCost.
Open Scope Z_scope.

Section Er.
Context {T : Type} (N : num T) (tr : trig T).
Notation C := (cplx T).
Lemma er_ops {A} n (x : A) : er (ops n x) = Ok x. Proof. reflexivity. Qed.
Lemma er_k3 p q (x y z : C) : er (k3 N p q x y z) = Ok ((if q then cadd N else csub N) ((if p then cadd N else csub N) x y) z).
Proof. destruct p, q; reflexivity. Qed.
Lemma er_kmap {A B} (f : A -> counted B) (g : A -> B) l : (forall x, er (f x) = Ok (g x)) -> er (kmap f l) = Ok (map g l).
Proof. intros H. induction l as [|x l IH]; [reflexivity|]. cbn [kmap map]. rewrite er_bind, H. cbn [bind]. rewrite er_bind, IH. reflexivity. Qed.
Lemma er_kfold {A B} (f : A -> B -> counted A) (g : A -> B -> A) l : (forall a x, er (f a x) = Ok (g a x)) -> forall a, er (kfold f l a) = Ok (fold_left g l a).
Proof. intros H. induction l as [|x l IH]; intros a; [reflexivity|]. cbn [kfold fold_left]. rewrite er_bind, H. cbn [bind]. apply IH. Qed.
Lemma er_kcrow p idx a : er (kcrow N tr p idx a) = Ok (crow N tr p idx a).
Proof. unfold kcrow, crow. destruct (combine idx a) as [|[i1 a1] l]; [reflexivity|]. rewrite er_bind. cbn [kcx er_ops bind]. unfold kcx. rewrite er_ops. cbn [bind]. apply er_kfold. intros b [i x]. reflexivity. Qed.
Lemma er_ksrow p idx a : er (ksrow N tr p idx a) = Ok (srow N tr p idx a).
Proof. unfold ksrow, srow. destruct (combine idx a) as [|[i1 a1] l]; [reflexivity|]. rewrite er_bind. unfold ksx. rewrite er_ops. cbn [bind]. apply er_kfold. intros b [i x]. destruct (i <? 0); reflexivity. Qed.
Lemma er_kodd p tab ins : er (kkernel_odd N tr p tab ins) = Ok (kernel_odd N tr p tab ins).
Proof.
  unfold kkernel_odd, kernel_odd. destruct ins as [|in0 rest]; [reflexivity|]. cbv zeta. set (pairs := firstn _ _).
  rewrite er_bind, (er_kmap _ (fun '(x, y) => cadd N x y)) by (intros [x y]; reflexivity). cbn [bind].
  rewrite er_bind, (er_kmap _ (fun '(x, y) => twiddle N x y)) by (intros [x y]; reflexivity). cbn [bind].
  set (a := map _ pairs). set (t := map _ pairs).
  rewrite er_bind, (er_kmap _ (fun '(ci, si) => (crow N tr p ci a, srow N tr p si t))) by (intros [ci si]; rewrite er_bind, er_kcrow; cbn [bind]; rewrite er_bind, er_ksrow; reflexivity). cbn [bind].
  set (cs := map _ tab).
  rewrite er_bind, (er_kfold _ (fun acc x => cadd N acc x)) by (intros; reflexivity). cbn [bind].
  rewrite er_bind, (er_kmap _ (fun '(c, s) => csub N (cadd N in0 c) s)) by (intros [c s]; apply er_k3). cbn [bind].
  rewrite er_bind, (er_kmap _ (fun '(c, s) => cadd N (cadd N in0 c) s)) by (intros [c s]; apply er_k3). reflexivity.
Qed.
Lemma er_kkernel R ins : er (kkernel N tr R ins) = kernel N tr R ins.
Proof.
  assert (O : forall l, er (match odd_table R with Some tab => kkernel_odd N tr R tab l | None => Undefined end) = match odd_table R with Some tab => Ok (kernel_odd N tr R tab l) | None => Undefined end) by (intros l; destruct (odd_table R); [apply er_kodd|reflexivity]).
  unfold kkernel, kernel. do 9 (try (destruct ins as [|? ins])); try apply O; match goal with |- er (if ?b then _ else _) = _ => destruct b; reflexivity end.
Qed.
Lemma er_kdft SIGN R ins : er (kdft N tr SIGN R ins) = dft N tr SIGN R ins.
Proof. unfold kdft, dft. rewrite er_bind, er_kkernel. apply bind_ext. intros l. rewrite er_cret. destruct (SIGN =? 1); [reflexivity|]. destruct l; reflexivity. Qed.
Lemma er_ktwiddled out z n : forall k step l l1, er (ktwiddled N out z k step l l1 n) = twiddled N out z k step l l1 n.
Proof.
  induction n as [|n IH]; intros k step l l1; [reflexivity|]. cbn [ktwiddled twiddled]. rewrite er_bind, er_free. apply bind_ext. intros w. rewrite er_bind, er_free. apply bind_ext. intros x. rewrite er_bind. unfold kmul. rewrite er_ops. cbn [bind]. rewrite er_bind, IH. apply bind_ext. reflexivity.
Qed.
Lemma er_kdit fuel : forall SIGN R BINS s out o inp i z, er (kdit N tr fuel SIGN R BINS s out o inp i z) = dit N tr fuel SIGN R BINS s out o inp i z.
Proof.
  induction fuel as [|f IH]; intros SIGN R BINS s out o inp i z; [reflexivity|]. cbn [kdit dit]. destruct ((R =? 1) && (BINS =? 1)).
  { rewrite er_bind, er_free. apply bind_ext. intros v. apply er_free. }
  destruct (R =? 1); [reflexivity|]. destruct (BINS =? R).
  { rewrite er_bind, er_free. apply bind_ext. intros ins. rewrite er_bind, er_kdft. apply bind_ext. intros outs. apply er_free. }
  cbv zeta. rewrite er_bind. erewrite er_for; [|intros j o2; apply IH]. apply bind_ext. intros out'. apply er_for. intros k0 o2.
  rewrite er_bind, er_free. apply bind_ext. intros x0. rewrite er_bind, er_ktwiddled. apply bind_ext. intros xs. rewrite er_bind, er_kdft. apply bind_ext. intros outs. apply er_free.
Qed.
Lemma er_kfft BINS SIGN out inp : er (kfft N tr BINS SIGN out inp) = fft N tr BINS SIGN out inp.
Proof. apply er_kdit. Qed.

(** cost exactly [k] whenever it succeeds *)
Definition exact {A} (m : counted A) (k : Z) : Prop := forall x c, m = Ok (x, c) -> c = k.
Lemma exact_bind {A B} (m : counted A) (f : A -> counted B) a b (P : A -> Prop) : exact m a -> (forall x c, m = Ok (x, c) -> P x) -> (forall x, P x -> exact (f x) b) -> exact (cbind m f) (a + b).
Proof. intros H1 H2 H3 y c E. apply cbind_ok in E as (x & a' & b' & Ea & Eb & ->). rewrite (H1 _ _ Ea), (H3 x (H2 _ _ Ea) _ _ Eb). reflexivity. Qed.
Lemma exact_b {A B} (m : counted A) (f : A -> counted B) a b : exact m a -> (forall x, exact (f x) b) -> exact (cbind m f) (a + b).
Proof. intros H1 H3. apply exact_bind with (P := fun _ => True); auto. Qed.
Lemma exact_ret {A} (x : A) : exact (cret x) 0. Proof. intros y c E. apply cret_ok in E. tauto. Qed.
Lemma exact_free {A} (m : outcome A) : exact (free m) 0. Proof. intros y c E. apply free_ok in E. tauto. Qed.
Lemma exact_ops {A} n (x : A) : exact (ops n x) n. Proof. intros y c E. unfold ops in E. inversion E. auto. Qed.
Lemma exact_und {A} k : exact (@Undefined (A * Z)) k. Proof. intros y c E. discriminate. Qed.
Lemma exact_eq {A} (m : counted A) a b : exact m a -> a = b -> exact m b. Proof. intros H <-. exact H. Qed.
Lemma exact_map {A B} (f : A -> counted B) l k : (forall x, In x l -> exact (f x) k) -> exact (kmap f l) (k * zlen l).
Proof.
  induction l as [|x l IH]; intros H; cbn [kmap]; [rewrite (@zlen_nil A), Z.mul_0_r; apply exact_ret|]. rewrite zlen_cons.
  apply exact_eq with (k + (k * zlen l + 0)); [|lia]. apply exact_b; [apply H; now left|]. intros y. apply exact_b; [apply IH; intros z Hz; apply H; now right|]. intros q. apply exact_ret.
Qed.
Lemma kmap_len {A B} (f : A -> counted B) l : forall l' c, kmap f l = Ok (l', c) -> length l' = length l.
Proof. induction l as [|x l IH]; intros l' c E; cbn [kmap] in E; [apply cret_ok in E as [<- _]; reflexivity|]. apply cbind_ok in E as (y & a & b & _ & E & _). apply cbind_ok in E as (l2 & a2 & b2 & E2 & E & _). apply cret_ok in E as [<- _]. cbn. f_equal. eauto. Qed.
Lemma exact_fold {A B} (f : A -> B -> counted A) l k : (forall a x, exact (f a x) k) -> forall a, exact (kfold f l a) (k * zlen l).
Proof.
  intros H. induction l as [|x l IH]; intros a; cbn [kfold]; [rewrite (@zlen_nil B), Z.mul_0_r; apply exact_ret|]. rewrite zlen_cons.
  apply exact_eq with (k + k * zlen l); [|lia]. apply exact_b; [apply H|]. intros y. apply IH.
Qed.
Lemma exact_for {B} (body : Z -> B -> counted B) k : (forall i s, exact (body i s) k) -> forall n i s, exact (cfor n i body s) (Z.of_nat n * k).
Proof. intros H. induction n as [|n IH]; intros i s; cbn [cfor]; [apply exact_ret|]. apply exact_eq with (k + Z.of_nat n * k); [|lia]. apply exact_b; auto. Qed.
Lemma exact_k3 p q (x y z : C) : exact (k3 N p q x y z) 4.
Proof. destruct p, q; apply (exact_b _ _ 2 2); intros; apply exact_ops. Qed.

Lemma exact_crow p idx a h : zlen idx = h -> zlen a = h -> 0 < h -> exact (kcrow N tr p idx a) (4 * h - 2).
Proof.
  intros H1 H2 Hp. unfold kcrow. assert (L : zlen (combine idx a) = h) by (unfold zlen in *; rewrite combine_length; lia). destruct (combine idx a) as [|[i1 a1] l]; [rewrite (@zlen_nil (Z * C)) in L; lia|]. rewrite zlen_cons in L.
  apply exact_eq with (2 + 4 * zlen l); [|lia]. apply exact_b; [apply exact_ops|]. intros x. apply exact_fold. intros acc [i y]. apply (exact_b _ _ 2 2); intros; apply exact_ops.
Qed.
Lemma exact_srow p idx a h : zlen idx = h -> zlen a = h -> 0 < h -> exact (ksrow N tr p idx a) (4 * h - 2).
Proof.
  intros H1 H2 Hp. unfold ksrow. assert (L : zlen (combine idx a) = h) by (unfold zlen in *; rewrite combine_length; lia). destruct (combine idx a) as [|[i1 a1] l]; [rewrite (@zlen_nil (Z * C)) in L; lia|]. rewrite zlen_cons in L.
  apply exact_eq with (2 + 4 * zlen l); [|lia]. apply exact_b; [apply exact_ops|]. intros x. apply exact_fold. intros acc [i y]. destruct (i <? 0); apply (exact_b _ _ 2 2); intros; apply exact_ops.
Qed.
Lemma exact_odd p tab ins h : zlen tab = h -> 0 < h -> (forall ci si, In (ci, si) tab -> zlen ci = h /\ zlen si = h) -> zlen ins = 2 * h + 1 ->
  exact (kkernel_odd N tr p tab ins) (8 * h * h + 10 * h).
Proof.
  intros Ht Hh Hr Hi. unfold kkernel_odd. destruct ins as [|in0 rest]; [rewrite (@zlen_nil C) in Hi; lia|]. rewrite zlen_cons in Hi. cbv zeta. set (pairs := firstn _ _).
  assert (Lp : zlen pairs = h) by (unfold pairs, zlen in *; rewrite firstn_length, combine_length, rev_length; lia).
  apply exact_eq with (2 * h + (2 * h + ((8 * h - 4) * h + (2 * h + (4 * h + (4 * h + 0)))))); [|ring].
  apply exact_bind with (P := fun a => zlen a = h).
  { rewrite <- Lp. apply exact_map. intros [x y] _. apply exact_ops. }
  { intros a c E. apply kmap_len in E. unfold zlen in *. lia. }
  intros a La. apply exact_bind with (P := fun a => zlen a = h).
  { rewrite <- Lp. apply exact_map. intros [x y] _. apply exact_ops. }
  { intros t c E. apply kmap_len in E. unfold zlen in *. lia. }
  intros t Lt. apply exact_bind with (P := fun a => zlen a = h).
  { replace ((8 * h - 4) * h) with ((8 * h - 4) * zlen tab) by (rewrite Ht; reflexivity). apply exact_map. intros [ci si] I. destruct (Hr _ _ I). apply exact_eq with ((4 * h - 2) + ((4 * h - 2) + 0)); [|lia].
    apply exact_b; [now apply exact_crow|]. intros cc. apply exact_b; [now apply exact_srow|]. intros ss. apply exact_ret. }
  { intros cs c E. apply kmap_len in E. unfold zlen in *. lia. }
  intros cs Lc. apply exact_b. { rewrite <- La. apply exact_fold. intros x y. apply exact_ops. }
  intros o0. apply exact_b. { rewrite <- Lc. apply exact_map. intros [x y] _. apply exact_k3. }
  intros lo. apply exact_b. { rewrite <- Lc. apply exact_map. intros [x y] _. apply exact_k3. }
  intros hi. apply exact_ret.
Qed.
(** operations of one kernel *)
Definition kc (R : Z) : Z := if R =? 2 then 4 else if R =? 4 then 16 else if R =? 8 then 68 else 8 * (R / 2) * (R / 2) + 10 * (R / 2).
Lemma exact_kernel R ins : In R radices -> zlen ins = R -> exact (kkernel N tr R ins) (kc R).
Proof.
  intros I L.
  assert (OT : forall tab h, odd_table R = Some tab -> forallb (fun '(a, b) => (zlen a =? h) && (zlen b =? h)) tab = true -> zlen tab = h -> 0 < h -> R = 2 * h + 1 -> kc R = 8 * h * h + 10 * h -> exact (kkernel_odd N tr R tab ins) (kc R)).
  { intros tab h _ F Lt Hh E Ek. rewrite Ek. apply exact_odd; auto; [|lia]. intros ci si Q. rewrite forallb_forall in F. specialize (F _ Q). cbn in F. apply andb_prop in F as [F1 F2]. apply Z.eqb_eq in F1, F2. auto. }
  unfold radices in I. cbn [In] in I. unfold zlen in L.
  repeat (destruct I as [<-|I]); try contradiction.
  - destruct ins as [|i0 [|i1 [|? ?]]]; try discriminate; try (cbn in L; lia). apply (exact_b _ _ 2 2); [apply exact_ops|intros]. apply (exact_b _ _ 2 0); [apply exact_ops|intros]. apply exact_ret.
  - destruct ins as [|? [|? [|? [|? ?]]]]; try (cbn in L; lia). exact (OT table3 1 eq_refl eq_refl eq_refl eq_refl eq_refl eq_refl).
  - destruct ins as [|? [|? [|? [|? [|? ?]]]]]; try (cbn in L; lia). unfold kkernel. cbn [Z.eqb Pos.eqb]. unfold kkernel4. change (kc 4) with (2 + (2 + (2 + (2 + (2 + (2 + (2 + (2 + 0)))))))). do 8 (apply exact_b; [apply exact_ops|intros]). apply exact_ret.
  - destruct ins as [|? [|? [|? [|? [|? [|? ?]]]]]]; try (cbn in L; lia). exact (OT table5 2 eq_refl eq_refl eq_refl eq_refl eq_refl eq_refl).
  - destruct ins as [|? [|? [|? [|? [|? [|? [|? [|? ?]]]]]]]]; try (cbn in L; lia). exact (OT table7 3 eq_refl eq_refl eq_refl eq_refl eq_refl eq_refl).
  - destruct ins as [|? [|? [|? [|? [|? [|? [|? [|? [|? ?]]]]]]]]]; try (cbn in L; lia). unfold kkernel. cbn [Z.eqb Pos.eqb]. unfold kkernel8.
    assert (Fd : forall a b : C, exact (kfiddle N a b) 6) by (intros; apply (exact_b _ _ 2 4); [apply exact_ops|intros]; apply (exact_b _ _ 2 2); intros; apply exact_ops).
    change (kc 8) with (2+(2+(2+(2+(2+(2+(2+(2+(2+(2+(6+(2+(6+(2+(4+(4+(4+(4+(4+(4+(4+(4+0)))))))))))))))))))))).
    do 22 (apply exact_b; [first [apply exact_ops|apply Fd|apply exact_k3]|intros]). apply exact_ret.
  - do 9 (destruct ins as [|? ins]; [cbn in L; lia|]). exact (OT table11 5 eq_refl eq_refl eq_refl eq_refl eq_refl eq_refl).
  - do 9 (destruct ins as [|? ins]; [cbn in L; lia|]). exact (OT table13 6 eq_refl eq_refl eq_refl eq_refl eq_refl eq_refl).
  - do 9 (destruct ins as [|? ins]; [cbn in L; lia|]). exact (OT table17 8 eq_refl eq_refl eq_refl eq_refl eq_refl eq_refl).
  - do 9 (destruct ins as [|? ins]; [cbn in L; lia|]). exact (OT table19 9 eq_refl eq_refl eq_refl eq_refl eq_refl eq_refl).
  - do 9 (destruct ins as [|? ins]; [cbn in L; lia|]). exact (OT table23 11 eq_refl eq_refl eq_refl eq_refl eq_refl eq_refl).
  - do 9 (destruct ins as [|? ins]; [cbn in L; lia|]). exact (OT table29 14 eq_refl eq_refl eq_refl eq_refl eq_refl eq_refl).
  - do 9 (destruct ins as [|? ins]; [cbn in L; lia|]). exact (OT table31 15 eq_refl eq_refl eq_refl eq_refl eq_refl eq_refl).
Qed.
Lemma exact_dft SIGN R ins : In R radices -> zlen ins = R -> exact (kdft N tr SIGN R ins) (kc R).
Proof. intros I L. apply exact_eq with (kc R + 0); [|lia]. apply exact_b; [now apply exact_kernel|]. intros. apply exact_ret. Qed.
Lemma exact_twiddled out z n : forall k step l l1, exact (ktwiddled N out z k step l l1 n) (6 * Z.of_nat n).
Proof.
  induction n as [|n IH]; intros k step l l1; cbn [ktwiddled]; [apply exact_ret|]. apply exact_eq with (0 + (0 + (6 + (6 * Z.of_nat n + 0)))); [|lia].
  apply exact_b; [apply exact_free|intros]. apply exact_b; [apply exact_free|intros]. apply exact_b; [apply exact_ops|intros]. apply exact_b; [apply IH|intros]. apply exact_ret.
Qed.
Lemma ktwiddled_len out z n : forall k step l l1 xs c, ktwiddled N out z k step l l1 n = Ok (xs, c) -> zlen xs = Z.of_nat n.
Proof.
  induction n as [|n IH]; intros k step l l1 xs c E; cbn [ktwiddled] in E; [apply cret_ok in E as [<- _]; reflexivity|].
  apply cbind_ok in E as (w & a & b & _ & E & _). apply cbind_ok in E as (x & a1 & b1 & _ & E & _). apply cbind_ok in E as (y & a2 & b2 & _ & E & _). apply cbind_ok in E as (r & a3 & b3 & E3 & E & _). apply cret_ok in E as [<- _]. rewrite zlen_cons, (IH _ _ _ _ _ _ E3). lia.
Qed.
Lemma gets_len (inp : list C) n : forall i s l, gets inp i s n = Ok l -> zlen l = Z.of_nat n.
Proof. induction n as [|n IH]; intros i s l E; cbn [gets] in E; [inversion E; reflexivity|]. destruct (get inp i); try discriminate. cbn in E. destruct (gets inp (i + s) s n) eqn:G; try discriminate. cbn in E. inversion E. rewrite zlen_cons, (IH _ _ _ G). lia. Qed.

(** operations of a transform of [n] points *)
Fixpoint fops (fuel : nat) (n : Z) : Z :=
  match fuel with
  | O => 0
  | S f => if n =? 1 then 0 else let R := Fft.split n in let q := n / R in if n =? R then kc R else R * fops f q + q * (6 * (R - 1) + kc R)
  end.
Lemma exact_dit fuel : forall SIGN n s out o inp i z, 0 < n -> smooth31 n -> exact (kdit N tr fuel SIGN (Fft.split n) n s out o inp i z) (fops fuel n).
Proof.
  induction fuel as [|f IH]; intros SIGN n s out o inp i z Hn Hs; [intros x c E; discriminate|]. cbn [kdit fops].
  destruct (split_smooth n Hn Hs) as [[-> E1]|(I & q & En & Hq & Sq)].
  - cbn [Z.eqb Pos.eqb]. change (Fft.split 1) with 1. cbn. apply (exact_b _ _ 0 0); [apply exact_free|intros; apply exact_free].
  - pose proof (radices_bound _ I) as RB. set (R := Fft.split n) in *. destruct (Z.eqb_spec R 1); [lia|]. destruct (Z.eqb_spec n 1); [nia|]. cbn [andb]. destruct (Z.eqb_spec n R) as [E|E].
    + apply exact_eq with (0 + (kc R + 0)); [|lia]. apply exact_bind with (P := fun l => zlen l = R); [apply exact_free|intros x c Q; apply free_ok in Q as [Q _]; apply gets_len in Q; lia|].
      intros ins L. apply exact_b; [now apply exact_dft|intros; apply exact_free].
    + cbv zeta. assert (Eq : n / R = q) by (rewrite En, Z.mul_comm; apply Z.div_mul; lia). rewrite Eq.
      assert (Ec : (n + q - 1) / q = R) by (symmetry; apply Z.div_unique with (q - 1); nia). rewrite Ec.
      apply exact_b.
      { replace (R * fops f q) with (Z.of_nat (Z.to_nat R) * fops f q) by (rewrite Z2Nat.id; lia). apply exact_for. intros j o2. apply IH; auto. lia. }
      intros out2. replace (q * (6 * (R - 1) + kc R)) with (Z.of_nat (Z.to_nat q) * (6 * (R - 1) + kc R)) by (rewrite Z2Nat.id; lia). apply exact_for. intros k0 o2.
      apply exact_eq with (0 + (6 * Z.of_nat (Z.to_nat (R - 1)) + (kc R + 0))); [|rewrite Z2Nat.id by lia; lia].
      apply exact_b; [apply exact_free|]. intros x0. apply exact_bind with (P := fun l => zlen l = R - 1); [apply exact_twiddled|intros x c Q; apply ktwiddled_len in Q; lia|].
      intros xs L. apply exact_b; [apply exact_dft; auto; rewrite zlen_cons; lia|intros; apply exact_free].
Qed.
End Er.

Open Scope R_scope.
Definition lg (x : R) : R := ln x / ln 2.
Lemma lg_mult x y : 0 < x -> 0 < y -> lg (x * y) = lg x + lg y.
Proof. intros. unfold lg. rewrite ln_mult by auto. field. pose proof (ln_increasing 1 2). rewrite ln_1 in *. lra. Qed.
Lemma ln2_pos : 0 < ln 2. Proof. pose proof (ln_increasing 1 2). rewrite ln_1 in *. lra. Qed.
Lemma radix_cost r : In r radices -> IZR (6 * (r - 1) + kc r) <= 14 * IZR r * lg (IZR r).
Proof.
  unfold radices. cbn [In]. unfold lg. intros I. repeat (destruct I as [<-|I]); try contradiction;
  match goal with |- IZR ?z <= _ => let v := eval vm_compute in z in change z with v end; interval.
Qed.
Lemma lg_nonneg x : 1 <= x -> 0 <= lg x.
Proof. intros H. unfold lg. apply Rmult_le_pos; [|apply Rlt_le, Rinv_0_lt_compat, ln2_pos]. rewrite <- ln_1. destruct H as [H| <-]; [apply Rlt_le, ln_increasing; lra|lra]. Qed.
Lemma fops_bound fuel : forall n, (0 < n)%Z -> smooth31 n -> (n <= Z.of_nat fuel)%Z -> (0 <= fops fuel n)%Z /\ IZR (fops fuel n) <= 14 * IZR n * lg (IZR n).
Proof.
  induction fuel as [|f IH]; intros n Hn Hs Hf; [lia|]. cbn [fops]. destruct (split_smooth n Hn Hs) as [[-> E1]|(I & q & En & Hq & Sq)].
  - cbn. split; [lia|]. unfold lg. rewrite ln_1. lra.
  - pose proof (radices_bound _ I) as RB. set (R := Fft.split n) in *. destruct (Z.eqb_spec n 1); [nia|]. cbv zeta.
    assert (Eq : (n / R)%Z = q) by (rewrite En, Z.mul_comm; apply Z.div_mul; lia). rewrite Eq.
    assert (K0 : (0 <= kc R)%Z) by (unfold kc; destruct (R =? 2)%Z, (R =? 4)%Z, (R =? 8)%Z; try lia; assert (0 <= R / 2)%Z by (apply Z.div_pos; lia); nia).
    pose proof (radix_cost R I) as RC. destruct (Z.eqb_spec n R) as [E|E].
    + split; [exact K0|]. rewrite E. eapply Rle_trans; [|exact RC]. apply IZR_le. lia.
    + destruct (IH q ltac:(lia) Sq ltac:(lia)) as [P B]. split; [nia|]. rewrite En, !plus_IZR, !mult_IZR, lg_mult by (apply IZR_lt; lia).
      rewrite plus_IZR, mult_IZR in RC. assert (Q0 : 0 < IZR q) by (apply IZR_lt; lia). assert (R0 : 0 < IZR R) by (apply IZR_lt; lia).
      apply Rmult_le_compat_l with (r := IZR R) in B; [|lra]. apply Rmult_le_compat_l with (r := IZR q) in RC; [|lra]. rewrite ?plus_IZR, ?mult_IZR in *. lra.
Qed.
Open Scope Z_scope.
Lemma odd_pow2 r k : 0 <= k -> Z.odd r = true -> 0 < r -> (r | 2 ^ k) -> r = 1.
Proof.
  intros Hk Ho Hr. revert k Hk. apply (natlike_ind (fun k => (r | 2 ^ k) -> r = 1)).
  - intros D. apply Z.divide_1_r_nonneg in D; [exact D|lia].
  - intros k Hk IH D. apply IH. rewrite Z.pow_succ_r in D by auto. apply Znumtheory.Gauss with 2; auto. apply Znumtheory.rel_prime_sym.
    apply Znumtheory.prime_rel_prime; [exact Znumtheory.prime_2|]. intros (m & ->). rewrite Z.odd_mul, andb_false_r in Ho. discriminate.
Qed.
Lemma split_pow2 k : 0 < k -> exists j, (j = 1 \/ j = 2 \/ j = 3) /\ Fft.split (2 ^ k) = 2 ^ j /\ j <= k.
Proof.
  intros Hk. assert (Hn : 0 < 2 ^ k) by (apply Z.pow_pos_nonneg; lia).
  destruct (split_spec (2 ^ k) Hn) as [[_ F]|[I D]].
  - exfalso. rewrite Forall_forall in F. apply (F 2); [unfold radices; cbn; auto|]. exists (2 ^ (k - 1)). replace k with (Z.succ (k - 1)) at 1 by lia. rewrite Z.pow_succ_r by lia. lia.
  - assert (O : forall r, r = Fft.split (2 ^ k) -> Z.odd r = true -> 1 < r -> False).
    { intros r -> Ho H1. pose proof (odd_pow2 _ k ltac:(lia) Ho ltac:(lia) D). lia. }
    assert (LE : forall j, 0 <= j -> Fft.split (2 ^ k) = 2 ^ j -> j <= k).
    { intros j Hj E. rewrite E in D. apply Z.divide_pos_le in D; auto. apply Z.pow_le_mono_r_iff with 2; lia. }
    unfold radices in I. cbn [In] in I.
    repeat (destruct I as [I|I]); try contradiction; try (exfalso; apply (O _ I); [reflexivity|lia]).
    + exists 1. split; [tauto|]. split; [now rewrite <- I|]. apply LE; [lia|]. now rewrite <- I.
    + exists 2. split; [tauto|]. split; [now rewrite <- I|]. apply LE; [lia|]. now rewrite <- I.
    + exists 3. split; [tauto|]. split; [now rewrite <- I|]. apply LE; [lia|]. now rewrite <- I.
Qed.
Lemma smooth_pow2 k : 0 <= k -> smooth31 (2 ^ k).
Proof. intros Hk p Hp Hd. pose proof (Zpow_facts.prime_power_prime p 2 k Hk Hp Znumtheory.prime_2 Hd). lia. Qed.
Lemma fops_pow2 fuel : forall k, 0 <= k -> 2 ^ k <= Z.of_nat fuel -> 0 <= fops fuel (2 ^ k) <= 5 * 2 ^ k * k.
Proof.
  induction fuel as [|f IH]; intros k Hk Hf; [pose proof (Z.pow_pos_nonneg 2 k); lia|]. cbn [fops]. destruct (Z.eq_dec k 0) as [->|Nk]; [cbn; lia|].
  assert (Hn : 0 < 2 ^ k) by (apply Z.pow_pos_nonneg; lia). assert (H1 : 1 < 2 ^ k) by (apply Z.pow_gt_1; lia).
  destruct (Z.eqb_spec (2 ^ k) 1); [lia|]. cbv zeta. destruct (split_pow2 k ltac:(lia)) as (j & Hj & E & Hjk). rewrite E.
  assert (Ed : 2 ^ k / 2 ^ j = 2 ^ (k - j)) by (symmetry; apply Z.pow_sub_r; lia). rewrite Ed.
  assert (Em : 2 ^ k = 2 ^ j * 2 ^ (k - j)) by (rewrite <- Z.pow_add_r by lia; f_equal; lia).
  assert (Hq : 0 < 2 ^ (k - j)) by (apply Z.pow_pos_nonneg; lia).
  assert (Cj : 0 <= kc (2 ^ j) /\ 6 * (2 ^ j - 1) + kc (2 ^ j) <= 5 * 2 ^ j * j /\ 2 <= 2 ^ j) by (destruct Hj as [->|[->| ->]]; cbn; lia).
  destruct (Z.eqb_spec (2 ^ k) (2 ^ j)) as [Q|Q].
  - apply Z.pow_inj_r in Q; [subst j; lia|lia..].
  - destruct (IH (k - j) ltac:(lia) ltac:(nia)) as [P B]. split; [nia|]. rewrite Em.
    transitivity (2 ^ j * (5 * 2 ^ (k - j) * (k - j)) + 2 ^ (k - j) * (5 * 2 ^ j * j)); [|lia].
    apply Z.add_le_mono; apply Z.mul_le_mono_nonneg_l; lia.
Qed.
Section Fft.
Context {T : Type} (N : num T) (tr : trig T).
Lemma fft_cost BINS SIGN out (inp : list (cplx T)) : 0 < BINS -> smooth31 BINS -> BINS <= zlen inp -> BINS <= zlen out ->
  exists out', kfft N tr BINS SIGN out inp = Ok (out', fops (Z.to_nat BINS) BINS) /\ fft N tr BINS SIGN out inp = Ok out'.
Proof.
  intros H1 H2 H3 H4. destruct (fft_safe N tr BINS SIGN out inp H1 H2 H3 H4) as (out' & E & _). pose proof E as E2. rewrite <- er_kfft in E2.
  destruct (kfft N tr BINS SIGN out inp) as [[o c]| | |] eqn:K; cbn in E2; try discriminate. inversion E2; subst o. exists out'. split; [|exact E]. do 2 f_equal.
  exact (exact_dit N tr (Z.to_nat BINS) SIGN BINS 1 out 0 inp 0 _ H1 H2 _ _ K).
Qed.
End Fft.
