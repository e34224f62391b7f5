(* RealToHalfComplexTransform: its structure in any arithmetic, and its rounding errors *)
From Coq Require Import Reals ZArith Lia Lra Psatz List.
From Coquelicot Require Import Complex.
From Verif Require Import Proofs.BaseLemmas Spec.Dft Spec.Rounding Model.Fft Proofs.FftAlg Proofs.FftSplit Proofs.FftKernels Proofs.FftGen Proofs.FftProofs Proofs.FftInverse Proofs.FftReal Proofs.FftRound.
Import ListNotations.
Open Scope Z_scope.

(** ** structure *)
Section Gen.
Context {T : Type} (N : num T) (tr : trig T).
Notation half := (nlit N (1/2)%R).
Definition Ak (BINS k : Z) : cplx T := cscale N half (csub N (cofr N (n1 N)) (tsin tr k BINS, tcos tr k BINS)).
Definition Bk (BINS k : Z) : cplx T := cscale N half (cadd N (cofr N (n1 N)) (tsin tr k BINS, tcos tr k BINS)).
Lemma A_nth BINS k : 0 <= k < BINS / 2 -> znth (rhct_A N tr BINS) k = Some (Ak BINS k).
Proof.
  intros H. unfold rhct_A. rewrite znth_nonneg by lia. rewrite nth_error_map, (nth_error_nth' _ 0%nat) by (rewrite seq_length; lia).
  rewrite seq_nth by lia. cbn [option_map Nat.add]. rewrite Z2Nat.id by lia. reflexivity.
Qed.
Lemma B_nth BINS k : 0 <= k < BINS / 2 -> znth (rhct_B N tr BINS) k = Some (Bk BINS k).
Proof.
  intros H. unfold rhct_B. rewrite znth_nonneg by lia. rewrite nth_error_map, (nth_error_nth' _ 0%nat) by (rewrite seq_length; lia).
  rewrite seq_nth by lia. cbn [option_map Nat.add]. rewrite Z2Nat.id by lia. reflexivity.
Qed.
Definition rbin (BINS : Z) (Zf : Z -> cplx T) (k : Z) : cplx T := cadd N (cmul N (Zf k) (Ak BINS k)) (cmul N (cconj N (Zf (BINS / 2 - k))) (Bk BINS k)).
Lemma rhct_gen BINS out inp o1 (Zf : Z -> cplx T) : let M := BINS / 2 in 0 < M -> M + 1 <= zlen out ->
  dit N tr (Z.to_nat M) (-1) (split M) M 1 out 0 (pairup inp) 0 (rhct_factors N tr BINS) = Ok o1 -> zlen o1 = zlen out ->
  (forall k, M <= k -> znth o1 k = znth out k) -> (forall k, 0 <= k < M -> znth o1 k = Some (Some (Zf k))) ->
  exists out', rhct N tr BINS out inp = Ok out' /\ zlen out' = zlen out /\ (forall k, M < k -> znth out' k = znth out k) /\
    znth out' 0 = Some (Some (cofr N (nmul N half (nadd N (creal (Zf 0)) (cimag (Zf 0)))))) /\
    znth out' M = Some (Some (cofr N (nmul N half (nsub N (creal (Zf 0)) (cimag (Zf 0)))))) /\
    forall k, 0 < k < M -> znth out' k = Some (Some (rbin BINS Zf k)).
Proof.
  intros M HM Lo E1 L1 U1 V. unfold rhct. fold M. rewrite E1. cbn [bind].
  rewrite (geti_Some _ _ _ (V 0 ltac:(lia))). cbn [bind].
  rewrite set_in_range by lia. cbn [bind]. rewrite (geti_Some _ 0 (Zf 0)) by (rewrite znth_zupd_ne by lia; apply V; lia). cbn [bind].
  rewrite set_in_range by (rewrite zlen_zupd; lia). cbn [bind].
  set (x0 := cofr N (nmul N half (nadd N (creal (Zf 0)) (cimag (Zf 0))))). set (xM := cofr N (nmul N half (nsub N (creal (Zf 0)) (cimag (Zf 0))))).
  pose (P := fun (i : Z) (o : list (option (cplx T))) => zlen o = zlen out /\ (forall k, M < k -> znth o k = znth out k) /\
    znth o 0 = Some (Some x0) /\ znth o M = Some (Some xM) /\
    (forall k, 0 < k < i -> k < M -> znth o k = Some (Some (rbin BINS Zf k)) /\ znth o (M - k) = Some (Some (rbin BINS Zf (M - k)))) /\
    (forall k, i <= k <= M - i -> znth o k = Some (Some (Zf k)))).
  match goal with |- context [for_loop ?n ?i ?b ?s] => destruct (for_loop_inv P b n i s) as (o3 & E3 & P3) end.
  - unfold P. rewrite !zlen_zupd. splits.
    + exact L1.
    + intros k Hk. rewrite !znth_zupd_ne by lia. apply U1. lia.
    + rewrite znth_zupd_eq by (rewrite zlen_zupd; lia). reflexivity.
    + rewrite znth_zupd_ne by lia. rewrite znth_zupd_eq by lia. reflexivity.
    + intros k Hk. lia.
    + intros k Hk. rewrite !znth_zupd_ne by lia. apply V. lia.
  - intros j o Hj (Lo' & Uo & V0 & VM & VX & VZ).
    assert (HJ : 1 <= j /\ 2 * j <= M) by (pose proof (Z.div_mod M 2); pose proof (Z.mod_pos_bound M 2); lia).
    rewrite (geti_Some _ _ _ (VZ j ltac:(lia))), (geti_Some _ _ _ (VZ (M - j) ltac:(lia))).
    rewrite (get_Some _ _ _ (A_nth BINS j ltac:(lia))), (get_Some _ _ _ (B_nth BINS j ltac:(lia))),
      (get_Some _ _ _ (A_nth BINS (M - j) ltac:(lia))), (get_Some _ _ _ (B_nth BINS (M - j) ltac:(lia))). cbn [bind].
    rewrite set_in_range by lia. cbn [bind]. rewrite set_in_range by (rewrite zlen_zupd; lia). eexists. split; [reflexivity|].
    assert (XJ' : forall a, a = rbin BINS Zf (M - j) -> P (j + 1) (zupd (zupd o (M - j) (Some a)) j (Some (rbin BINS Zf j)))).
    { intros a ->. unfold P. rewrite !zlen_zupd. splits; auto.
      - intros k Hk. rewrite !znth_zupd_ne by lia. apply Uo. lia.
      - rewrite !znth_zupd_ne by lia. auto.
      - rewrite !znth_zupd_ne by lia. auto.
      - intros k Hk Hk'. destruct (Z.eq_dec k j) as [->|Hne].
        + split; [apply znth_zupd_eq; rewrite zlen_zupd; lia|]. destruct (Z.eq_dec (M - j) j) as [E|Hne'].
          * rewrite E. apply znth_zupd_eq. rewrite zlen_zupd. lia.
          * rewrite znth_zupd_ne by lia. apply znth_zupd_eq. lia.
        + rewrite !znth_zupd_ne by lia. apply VX; lia.
      - intros k Hk. rewrite !znth_zupd_ne by lia. apply VZ. lia. }
    apply XJ'. unfold rbin. fold M. replace (M - (M - j)) with j by lia. reflexivity.
  - exists o3. split; [exact E3|]. destruct P3 as (L3 & U3 & V30 & V3M & V3X & _).
    splits; auto. intros k Hk. rewrite Z2Nat.id in V3X by (apply Z.div_pos; lia).
    pose proof (Z.div_mod M 2 ltac:(lia)). pose proof (Z.mod_pos_bound M 2 ltac:(lia)).
    destruct (Z_lt_le_dec k (1 + M / 2)).
    + apply V3X; lia.
    + destruct (V3X (M - k)) as [_ H']; [lia|lia|]. replace (M - (M - k)) with k in H' by lia. exact H'.
Qed.
Lemma zlen_pairup (BINS : Z) (inp : list T) : BINS mod 2 = 0 -> zlen inp = BINS -> zlen (pairup inp) = BINS / 2.
Proof.
  intros E L. pose proof (Z_div_exact_full_2 BINS 2 ltac:(lia) E). unfold zlen in *. rewrite (pairup_len (Z.to_nat (BINS / 2)) inp); lia.
Qed.
Lemma zlen_rfactors BINS : 0 <= BINS / 2 -> zlen (rhct_factors N tr BINS) = BINS / 2.
Proof. intros. unfold rhct_factors, zlen. rewrite map_length, seq_length. lia. Qed.
End Gen.

Open Scope R_scope.
Lemma Cmod_cj (z : C) : Cmod (Cconj z) = Cmod z. Proof. unfold Cmod, Cconj. cbn [fst snd]. f_equal. ring. Qed.
(** ** rounding *)
Section Round.
Context (u e X h : R) (rnd : R -> R) (tr : trig R).
Hypothesis Hu : 0 <= u.
Hypothesis He : 0 <= e.
Hypothesis Hr : rounding u e rnd.
Hypothesis HX : 0 < X.
Hypothesis Hh : u + 2 * e / X <= h.
Notation F := (Fn rnd).
Notation near := (near X h).
Notation P := (P h).

Lemma near_cmul_r d ka W (a w c v : C) : (ka = 4)%nat -> Cmod (a - w)%C <= P ka - 1 -> Cmod w <= 1 -> near d W c v -> near (d + 7) W (cmul F c a) (v * w)%C.
Proof.
  intros -> Ha Hw N. pose proof (near_size X h _ _ _ _ N) as Sz. destruct N as (HW & Hv & Hc). pose proof (Cmod_ge_0 c). pose proof (Cmod_ge_0 a). pose proof (Cmod_ge_0 v). pose proof (Cmod_ge_0 w).
  pose proof (Cmod_of_sub a w) as Hs. assert (Sa : Cmod a <= P 4) by lra. pose proof (P_ge u e X h Hu He HX Hh 4). pose proof (P_ge u e X h Hu He HX Hh d).
  assert (SB : Cmod c * Cmod a <= P 4 * (P d * W)). { rewrite (Rmult_comm (P 4)). apply Rmult_le_compat; auto. }
  assert (W0 : 0 < W) by lra. assert (Q1 : W <= P d * W) by nra. assert (Q2 : P d * W <= P 4 * (P d * W)) by nra.
  pose proof (cmul_round u e X h rnd Hu He Hr HX Hh c a _ SB ltac:(lra)) as R1. unfold FftRound.near. splits; auto. { rewrite Cmod_mult. nra. }
  assert (R2 : Cmod (c * a - v * w)%C <= (P 4 * P d - 1) * W).
  { replace (c * a - v * w)%C with ((a - w) * c + w * (c - v))%C by (apply C_eq; cbn; ring).
    eapply Rle_trans; [apply Cmod_triangle|]. rewrite !Cmod_mult.
    assert (Cmod (a - w)%C * Cmod c <= (P 4 - 1) * (P d * W)) by (apply Rmult_le_compat; auto using Cmod_ge_0).
    assert (Cmod w * Cmod (c - v)%C <= 1 * ((P d - 1) * W)) by (apply Rmult_le_compat; auto using Cmod_ge_0). lra. }
  pose proof (Cmod_sub_le (cmul F c a) (c * a)%C (v * w)%C) as R3.
  replace (d + 7)%nat with (3 + (4 + d))%nat by lia. rewrite !P_add. lra.
Qed.
Lemma near_conj d W (c v : C) : near d W c v -> near d W (cconj F c) (Cconj v).
Proof.
  intros (HW & Hv & Hc). unfold FftRound.near. splits; auto. { rewrite Cmod_cj. auto. }
  replace (cconj F c - Cconj v)%C with (Cconj (c - v)%C) by (destruct c, v; apply C_eq; cbn; ring). rewrite Cmod_cj. auto.
Qed.
Lemma near_re d W (c v : C) : near d W c v -> near d W (fst c, 0) (fst v, 0).
Proof.
  assert (G : forall z : C, Cmod (fst z, 0) <= Cmod z). { intros z. change (fst z, 0) with (RtoC (fst z)). rewrite Cmod_R. apply Cmod_fst. }
  intros (HW & Hv & Hc). unfold FftRound.near. splits; auto. { pose proof (G v). lra. }
  replace ((fst c, 0) - (fst v, 0))%C with (fst (c - v)%C, 0) by (apply C_eq; cbn; ring). pose proof (G (c - v)%C). lra.
Qed.
Lemma near_im d W (c v : C) : near d W c v -> near d W (snd c, 0) (snd v, 0).
Proof.
  assert (G : forall z : C, Cmod (snd z, 0) <= Cmod z). { intros z. change (snd z, 0) with (RtoC (snd z)). rewrite Cmod_R. apply Cmod_snd. }
  intros (HW & Hv & Hc). unfold FftRound.near. splits; auto. { pose proof (G v). lra. }
  replace ((snd c, 0) - (snd v, 0))%C with (snd (c - v)%C, 0) by (apply C_eq; cbn; ring). pose proof (G (c - v)%C). lra.
Qed.

(** the tables A and B *)
Context (t : R) (BINS : Z).
Hypothesis R1 : rnd 1 = 1.
Hypothesis Rh : rnd (1 / 2) = 1 / 2.
Hypothesis Ht : t <= h.
Hypothesis Hue : u * (1 + t) + e <= h.
Hypothesis HT : forall n M, (0 <= n < M)%Z -> (M <= Z.max 31 BINS)%Z ->
  Rabs (tcos tr n M - cos (2 * PI * IZR n / IZR M)) <= t /\ Rabs (tsin tr n M - sin (2 * PI * IZR n / IZR M)) <= t.
Lemma t0 : 0 <= t.
Proof. destruct (HT 0 1) as [Q _]; [lia|lia|]. eapply Rle_trans; [apply Rabs_pos|exact Q]. Qed.
Lemma half_err (x y : R) : Rabs (x - y) <= h -> Rabs y <= 2 -> Rabs (rnd (1 / 2 * rnd x) - 1 / 2 * y) <= 5 / 2 * h + 2 * (h * h) + 1 / 2 * (h * (h * h)).
Proof.
  intros Hx Hy. pose proof (Hr x) as E1. pose proof (Hr (1 / 2 * rnd x)) as E2. assert (h0 : 0 <= h) by (eapply Rle_trans; [apply Rabs_pos|exact Hx]).
  pose proof t0 as T0. assert (ue : u + e <= h) by nra.
  assert (Sx : Rabs x <= 2 + h). { replace x with ((x - y) + y) by ring. eapply Rle_trans; [apply Rabs_triang|]. lra. }
  assert (u * Rabs x <= u * (2 + h)) by (apply Rmult_le_compat_l; auto). assert (uh : u * h <= h * h) by (apply Rmult_le_compat_r; lra).
  assert (D1 : Rabs (rnd x - y) <= 3 * h + h * h). { replace (rnd x - y) with ((rnd x - x) + (x - y)) by ring. eapply Rle_trans; [apply Rabs_triang|]. lra. }
  assert (D2 : Rabs (1 / 2 * rnd x - 1 / 2 * y) <= 1 / 2 * (3 * h + h * h)).
  { replace (1 / 2 * rnd x - 1 / 2 * y) with (1 / 2 * (rnd x - y)) by ring. rewrite Rabs_mult, (Rabs_pos_eq (1 / 2)) by lra. lra. }
  assert (Sz : Rabs (1 / 2 * rnd x) <= 1 + 1 / 2 * (3 * h + h * h)).
  { replace (1 / 2 * rnd x) with ((1 / 2 * rnd x - 1 / 2 * y) + 1 / 2 * y) by ring. eapply Rle_trans; [apply Rabs_triang|]. rewrite (Rabs_mult (1 / 2)), (Rabs_pos_eq (1 / 2)) by lra. lra. }
  assert (u * Rabs (1 / 2 * rnd x) <= u * (1 + 1 / 2 * (3 * h + h * h))) by (apply Rmult_le_compat_l; auto).
  assert (u * (h * h) <= h * (h * h)) by (apply Rmult_le_compat_r; nra).
  replace (rnd (1 / 2 * rnd x) - 1 / 2 * y) with ((rnd (1 / 2 * rnd x) - 1 / 2 * rnd x) + (1 / 2 * rnd x - 1 / 2 * y)) by ring. eapply Rle_trans; [apply Rabs_triang|]. lra.
Qed.
Lemma AB_near k : (0 <= k < BINS)%Z ->
  Cmod (Ak F tr BINS k - RtoC (1 / 2) * (1 - Ci * root (-1) BINS k))%C <= P 4 - 1 /\ Cmod (Bk F tr BINS k - RtoC (1 / 2) * (1 + Ci * root (-1) BINS k))%C <= P 4 - 1.
Proof.
  intros Hk. destruct (HT k BINS Hk ltac:(lia)) as [T1 T2]. pose proof t0 as T0.
  assert (Er : root (-1) BINS k = (cos (2 * PI * IZR k / IZR BINS), - sin (2 * PI * IZR k / IZR BINS))).
  { unfold root, cis. replace (IZR (-1) * 2 * PI * IZR k / IZR BINS) with (- (2 * PI * IZR k / IZR BINS)) by (unfold Rdiv; ring). rewrite cos_neg, sin_neg. reflexivity. }
  rewrite Er. set (th := 2 * PI * IZR k / IZR BINS) in *. pose proof (COS_bound th) as CB. pose proof (SIN_bound th) as SB. set (c := cos th) in *. set (s := sin th) in *.
  set (ct := tcos tr k BINS) in *. set (st := tsin tr k BINS) in *.
  assert (h0 : 0 <= h) by lra. set (g := 5 / 2 * h + 2 * (h * h) + 1 / 2 * (h * (h * h))).
  assert (0 <= h * h) by nra. assert (0 <= h * (h * h)) by nra. assert (0 <= h * (h * (h * h))) by nra.
  assert (G0 : 0 <= g) by (unfold g; nra).
  assert (GP : 3 / 2 * g <= P 4 - 1). { unfold FftRound.P, g. cbn [pow]. lra. }
  split; (eapply Rle_trans; [|exact GP]); (eapply Rle_trans; [|apply Cmod_diag; exact G0]).
  - match goal with |- Cmod ?z <= _ => replace z with (rnd (1 / 2 * rnd (1 - st)) - 1 / 2 * (1 - s), rnd (1 / 2 * rnd (0 - ct)) - 1 / 2 * (0 - c)) end.
    + apply Cmod_comp; apply half_err.
      * replace (1 - st - (1 - s)) with (- (st - s)) by ring. rewrite Rabs_Ropp. lra.
      * apply Rabs_le. lra.
      * replace (0 - ct - (0 - c)) with (- (ct - c)) by ring. rewrite Rabs_Ropp. lra.
      * apply Rabs_le. lra.
    + unfold Ak, cscale, csub, cofr, creal, cimag. cbn [nlit nmul nsub n0 n1 Fn fst snd]. rewrite Rh. fold ct st. set (r1 := rnd (1 / 2 * _)). match goal with |- context [rnd (1 / 2 * ?x)] => set (r2 := rnd (1 / 2 * x)) end. apply C_eq; cbn; field.
  - match goal with |- Cmod ?z <= _ => replace z with (rnd (1 / 2 * rnd (1 + st)) - 1 / 2 * (1 + s), rnd (1 / 2 * rnd (0 + ct)) - 1 / 2 * (0 + c)) end.
    + apply Cmod_comp; apply half_err.
      * replace (1 + st - (1 + s)) with (st - s) by ring. lra.
      * apply Rabs_le. lra.
      * replace (0 + ct - (0 + c)) with (ct - c) by ring. lra.
      * apply Rabs_le. lra.
    + unfold Bk, cscale, cadd, cofr, creal, cimag. cbn [nlit nmul nadd n0 n1 Fn fst snd]. rewrite Rh. fold ct st. set (r1 := rnd (1 / 2 * _)). match goal with |- context [rnd (1 / 2 * ?x)] => set (r2 := rnd (1 / 2 * x)) end. apply C_eq; cbn; field.
Qed.
Lemma AB_mod k : Cmod (RtoC (1 / 2) * (1 - Ci * root (-1) BINS k))%C <= 1 /\ Cmod (RtoC (1 / 2) * (1 + Ci * root (-1) BINS k))%C <= 1.
Proof.
  assert (Mi : Cmod (Ci * root (-1) BINS k)%C = 1). { rewrite Cmod_mult, Cmod_root. unfold Ci, Cmod. cbn [fst snd]. replace (0 ^ 2 + 1 ^ 2) with 1 by ring. rewrite sqrt_1. ring. }
  rewrite !Cmod_mult, Cmod_R, (Rabs_pos_eq (1 / 2)) by lra.
  split; [unfold Cminus|]; (match goal with |- _ * Cmod (?a + ?b)%C <= _ => pose proof (Cmod_triangle a b) as Q end); rewrite ?Cmod_opp, Mi in Q; change (RtoC 1) with (1, 0) in *; pose proof Cmod_1 as C1; change (RtoC 1) with (1, 0) in C1; rewrite C1 in Q; lra.
Qed.

(** everything together *)
Hypothesis Hrs2 : Rabs (trsqrt2 tr - / sqrt 2) <= t.
Context (inp : list R) (out : list (option C)) (m : nat).
Let M := (BINS / 2)%Z.
Hypothesis HB : (0 < BINS)%Z.
Hypothesis Ev2 : (BINS mod 2 = 0)%Z.
Hypothesis Hsm : smooth31 M.
Hypothesis Li : zlen inp = BINS.
Hypothesis Lo : (M + 1 <= zlen out)%Z.
Hypothesis Hm : (M <= 2 ^ Z.of_nat m)%Z.
Hypothesis Hin : forall n, Cmod (nth (2 * n) inp 0, nth (2 * n + 1) inp 0) <= X.
Let Xk k := DFT (-1) (Z.to_nat BINS) (fun n => RtoC (nth n inp 0%R)) (Z.to_nat k).
Lemma rhct_round : exists out' : list (option C), rhct F tr BINS out inp = Ok out' /\ zlen out' = zlen out /\ (forall k, (M < k)%Z -> znth out' k = znth out k) /\
  forall k, (0 <= k <= M)%Z -> exists v, znth out' k = Some (Some v) /\
    Cmod (v - (if orb (k =? 0)%Z (k =? M)%Z then RtoC (1 / 2) * Xk k else Xk k))%C <= ((1 + h) ^ (11 * m + 8) - 1) * (IZR BINS * X).
Proof.
  assert (EB : (BINS = 2 * M)%Z) by (unfold M; apply Z_div_exact_full_2; lia). assert (HM : (0 < M)%Z) by lia. pose proof t0 as T0. assert (h0 : 0 <= h) by lra.
  assert (Lp : zlen (pairup inp : list C) = M) by (apply (zlen_pairup BINS inp); auto).
  assert (Lz : zlen (rhct_factors F tr BINS) = M) by (apply zlen_rfactors; unfold M in *; lia).
  assert (PN : forall n, (n < Z.to_nat M)%nat -> nth n (pairup inp : list C) (RtoC 0) = (nth (2 * n) inp 0, nth (2 * n + 1) inp 0)).
  { intros n Hn. apply pairup_nth. unfold zlen in Li. lia. }
  destruct (dit_round u e X h rnd tr Hu He Hr HX Hh (Z.max 31 BINS)) with (SIGN := (-1)%Z) (NT := M) (inp := pairup inp : list C) (fuel := Z.to_nat M) (n := M) (s := 1%Z) (out := out) (o := 0%Z) (i := 0%Z) (z := rhct_factors F tr BINS : list C)
    as (o1 & E1 & L1 & U1 & V1); auto; try lia.
  - intros n K HnK HK. destruct (HT n K HnK HK). cbn. lra.
  - intros n K HnK HK. destruct (HT n K HnK HK). cbn. lra.
  - cbn. lra.
  - intros k Hk. rewrite Lp in Hk. replace k with (Z.of_nat (Z.to_nat k)) by lia. rewrite at_nth, PN by lia. apply Hin.
  - intros k w Hw. pose proof (znth_Some_range _ _ _ Hw) as Rk. assert (Rk' : (0 <= k < M)%Z) by (rewrite <- Lz; exact Rk).
    unfold rhct_factors in Hw. fold M in Hw. rewrite znth_nonneg in Hw by lia. rewrite nth_error_map, (nth_error_nth' _ 0%nat) in Hw by (rewrite seq_length; lia).
    rewrite seq_nth in Hw by lia. cbn [option_map Nat.add] in Hw. rewrite Z2Nat.id in Hw by lia. injection Hw as <-. cbn [nopp Fn].
    destruct (HT k M Rk' ltac:(lia)) as [T1 T2].
    assert (Er : root (-1) M k = (cos (2 * PI * IZR k / IZR M), - sin (2 * PI * IZR k / IZR M))).
    { unfold root, cis. replace (IZR (-1) * 2 * PI * IZR k / IZR M) with (- (2 * PI * IZR k / IZR M)) by (unfold Rdiv; ring). rewrite cos_neg, sin_neg. reflexivity. }
    rewrite Er. match goal with |- Cmod ?z <= _ => replace z with (tcos tr k M - cos (2 * PI * IZR k / IZR M), - (tsin tr k M - sin (2 * PI * IZR k / IZR M))) by (apply C_eq; cbn; ring) end.
    apply Rle_trans with (3 / 2 * h); [eapply Rle_trans; [apply (Cmod_comp _ _ h h); rewrite ?Rabs_Ropp; lra|apply Cmod_diag; auto]|].
    unfold FftRound.P. cbn [pow]. assert (0 <= h * h) by nra. assert (0 <= h * (h * h)) by nra. lra.
  - set (Zf := fun k : Z => DFT (-1) (Z.to_nat M) (fun n => (nth (2 * n) inp 0%R, nth (2 * n + 1) inp 0%R)) (Z.to_nat k)).
    set (Zt := fun k : Z => match znth o1 k with Some (Some v) => v | _ => RtoC 0 end).
    assert (VZ : forall k, (0 <= k < M)%Z -> znth o1 k = Some (Some (Zt k)) /\ near (11 * m) (IZR M * X) (Zt k) (Zf k)).
    { intros k Hk. destruct (V1 k Hk) as (v & Ev & Nv). rewrite Z.add_0_l in Ev. unfold Zt. rewrite Ev. split; auto.
      unfold Vr in Nv. eapply near_le; [exact Hu|exact He|exact HX|exact Hh| | |apply Rle_refl].
      - replace (Zf k) with (DFT (-1) (Z.to_nat M) (fun m0 => at_ (pairup inp : list C) (0 + Z.of_nat m0 * 1)) (Z.to_nat k)); [exact Nv|].
        apply DFT_ext. intros j Hj. rewrite Z.add_0_l, Z.mul_1_r, at_nth. apply PN. auto.
      - unfold dep. assert (Z.log2 (M ^ 11) <= Z.of_nat (11 * m))%Z; [|lia].
        replace (Z.of_nat (11 * m)) with (Z.log2 (2 ^ Z.of_nat (11 * m))) by (apply Z.log2_pow2; lia). apply Z.log2_le_mono.
        replace (Z.of_nat (11 * m)) with (Z.of_nat m * 11)%Z by lia. rewrite Z.pow_mul_r by lia. apply Z.pow_le_mono_l. lia. }
    destruct (rhct_gen F tr BINS out inp o1 Zt HM Lo E1 L1) as (out' & E & L & U & V0 & VM & VX).
    { intros k Hk. apply U1. lia. } { intros k Hk. apply VZ; auto. }
    exists out'. splits; auto. assert (BX : IZR BINS * X = IZR M * X + IZR M * X) by (rewrite EB, mult_IZR; ring). rewrite BX.
    assert (XM : forall k, Xk k = DFT (-1) (2 * Z.to_nat M) (fun n => RtoC (nth n inp 0%R)) (Z.to_nat k)).
    { intros k. unfold Xk. replace (Z.to_nat BINS) with (2 * Z.to_nat M)%nat by lia. reflexivity. }
    assert (Hlf : Rabs (nlit F (1 / 2) - 1 / 2) <= h) by (cbn [nlit Fn]; rewrite Rh, Rminus_eq_0, Rabs_R0; auto).
    destruct (VZ 0%Z ltac:(lia)) as [_ NZ]. 
    assert (EDGE : forall (c v : C), near (S (11 * m)) (IZR M * X + IZR M * X) c v -> Cmod (cofr F (nmul F (nlit F (1 / 2)) (fst c)) - ((1 / 2 * fst v)%R, 0))%C <= ((1 + h) ^ (11 * m + 8) - 1) * (IZR M * X + IZR M * X)).
    { intros c v N. apply near_re in N. apply (near_scale u e X h rnd Hu He Hr HX Hh _ _ (nlit F (1 / 2)) (1 / 2)) in N; auto; [|rewrite Rabs_pos_eq; lra].
      apply near_re in N. eapply (near_le u e X h Hu He HX Hh _ (11 * m + 8)) in N; [|lia|apply Rle_refl]. destruct N as (_ & _ & N). exact N. }
    intros k Hk. destruct (Z.eqb_spec k 0) as [->|K0]; [|destruct (Z.eqb_spec k M) as [->|KM]]; cbn [orb].
    + eexists. split; [exact V0|]. pose proof (near_add u e X h rnd Hu He Hr HX Hh _ _ _ _ _ _ _ (near_re _ _ _ _ NZ) (near_im _ _ _ _ NZ)) as N. apply EDGE in N.
      match goal with |- Cmod (_ - ?v)%C <= _ => replace v with (1 / 2 * fst (cadd Rn (fst (Zf 0%Z), 0) (snd (Zf 0%Z), 0)), 0); [exact N|] end.
      rewrite XM. change (Z.to_nat 0) with 0%nat. rewrite (bin_0 (Z.to_nat M) ltac:(lia) (fun n => nth n inp 0%R)). change (DFT (-1) (Z.to_nat M) _ 0) with (Zf 0%Z). set (z0 := Zf 0%Z). clearbody z0. apply C_eq; cbn; ring.
    + eexists. split; [exact VM|]. pose proof (near_sub u e X h rnd Hu He Hr HX Hh _ _ _ _ _ _ _ (near_re _ _ _ _ NZ) (near_im _ _ _ _ NZ)) as N. apply EDGE in N.
      match goal with |- Cmod (_ - ?v)%C <= _ => replace v with (1 / 2 * fst (csub Rn (fst (Zf 0%Z), 0) (snd (Zf 0%Z), 0)), 0); [exact N|] end.
      rewrite XM. rewrite (bin_M (Z.to_nat M) ltac:(lia) (fun n => nth n inp 0%R)). change (DFT (-1) (Z.to_nat M) _ 0) with (Zf 0%Z). set (z0 := Zf 0%Z). clearbody z0. apply C_eq; cbn; ring.
    + eexists. split; [apply VX; lia|]. destruct (VZ k ltac:(lia)) as [_ N1]. destruct (VZ (M - k)%Z ltac:(lia)) as [_ N2]. destruct (AB_near k ltac:(lia)) as [A1 A2]. destruct (AB_mod k) as [B1 B2].
      pose proof (near_cmul_r _ 4 _ _ _ _ _ eq_refl A1 B1 N1) as Q1. pose proof (near_cmul_r _ 4 _ _ _ _ _ eq_refl A2 B2 (near_conj _ _ _ _ N2)) as Q2.
      pose proof (near_add u e X h rnd Hu He Hr HX Hh _ _ _ _ _ _ _ Q1 Q2) as (_ & _ & Q). replace (S (11 * m + 7)) with (11 * m + 8)%nat in Q by lia.
      match type of Q with Cmod (_ - ?v)%C <= _ => replace v with (Xk k) in Q; [exact Q|] end.
      rewrite XM. rewrite <- (combine_bins (Z.to_nat M) ltac:(lia) (fun n => nth n inp 0%R)) by lia. rewrite Z2Nat.id by lia. replace (Z.of_nat (2 * Z.to_nat M)) with BINS by lia. unfold Zf.
      rewrite Z2Nat.inj_sub by lia. reflexivity.
Qed.
End Round.
