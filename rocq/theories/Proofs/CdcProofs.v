(* Proofs about the down-converter and the Hilbert transformer *)
From Coq Require Import Reals ZArith Lia Lra List.
From Coquelicot Require Import Coquelicot.
From Verif Require Import Model.Cdc Spec.Dft Spec.Fir Spec.ExactConst Proofs.BaseLemmas Proofs.ShiftProofs Proofs.FftAlg Proofs.Atan2Proofs Proofs.ConstProofs Proofs.WinProofs Proofs.FirProofs.
Import ListNotations.

Section Any.
Context {T : Type} (M : num T) (K : nat).
Hypothesis HK : (1 <= K)%nat.
Local Open Scope Z_scope.
Local Notation TAPS := (4 * Z.of_nat K + 1).
Lemma quarter_eq : quarter TAPS = Z.of_nat K.
Proof. unfold quarter. replace (TAPS - 1) with (Z.of_nat K * 4) by lia. apply Z.div_mul. lia. Qed.
Lemma half_eq : half TAPS = 2 * Z.of_nat K.
Proof. unfold half. replace (TAPS - 1) with (2 * Z.of_nat K * 2) by lia. apply Z.div_mul. lia. Qed.

(** the sample u with alternating sign, zero before the first *)
Definition alt (x : nat -> T) (u : Z) : T := if u <? 0 then n0 M else if Z.even u then x (Z.to_nat u) else nopp M (x (Z.to_nat u)).
Definition zext (x : nat -> T) (u : Z) : T := if u <? 0 then n0 M else x (Z.to_nat u).
Lemma alt_nat x (t : nat) : alt x (Z.of_nat t) = if negb (Nat.odd t) then x t else nopp M (x t).
Proof.
  unfold alt. destruct (Z.ltb_spec (Z.of_nat t) 0); [lia|]. rewrite Nat2Z.id, Nat.negb_odd. replace (Z.even (Z.of_nat t)) with (Nat.even t); auto.
  clear. induction t as [|t IH]; auto. rewrite Nat2Z.inj_succ, Nat.even_succ, Z.even_succ, <- Nat.negb_even, <- Z.negb_even, IH. reflexivity.
Qed.

Context (imco : list T) (reco : T).
Hypothesis HC : length imco = K.
Definition ico (i : Z) : T := nth (Z.to_nat i) imco (n0 M).
Lemma ico_get i : 0 <= i < Z.of_nat K -> get imco i = Ok (ico i).
Proof. intros H. apply get_Some. rewrite znth_nonneg by lia. unfold ico. apply nth_error_nth'. lia. Qed.

Definition acc (f : Z -> T) (n : nat) : T := fold_left (fun a i => nadd M a (f i)) (map (fun j => 1 + Z.of_nat j) (seq 0 n)) (f 0).

Lemma cdc_state (x : nat -> T * T) t :
  ostate_at (cdc_step M TAPS) (Ok (mkCdc (repeat (n0 M) K) (repeat (n0 M) (2 * K)) imco reco false)) x t =
  Ok (mkCdc (wind (alt (fun u => snd (x u))) (Z.of_nat t - Z.of_nat K) K) (wind (alt (fun u => fst (x u))) (Z.of_nat t - 2 * Z.of_nat K) (2 * K)) imco reco (Nat.odd t)) /\
  oout (cdc_step M TAPS) (Ok (mkCdc (repeat (n0 M) K) (repeat (n0 M) (2 * K)) imco reco false)) x t =
  let v0 := alt (fun u => fst (x u)) in let v1 := alt (fun u => snd (x u)) in let c := Z.of_nat t - Z.of_nat K in
  Ok (nmul M reco (v1 c), acc (fun i => nmul M (ico i) (nadd M (v0 (c - i)) (v0 (c + 1 + i)))) (K - 1)).
Proof.
  set (s0 := Ok _). set (v0 := alt (fun u => fst (x u))). set (v1 := alt (fun u => snd (x u))).
  assert (St : forall t, cdc_step M TAPS (mkCdc (wind v1 (Z.of_nat t - Z.of_nat K) K) (wind v0 (Z.of_nat t - 2 * Z.of_nat K) (2 * K)) imco reco (Nat.odd t)) (x t) =
    Ok (mkCdc (wind v1 (Z.of_nat (S t) - Z.of_nat K) K) (wind v0 (Z.of_nat (S t) - 2 * Z.of_nat K) (2 * K)) imco reco (Nat.odd (S t)),
       let c := Z.of_nat t - Z.of_nat K in (nmul M reco (v1 c), acc (fun i => nmul M (ico i) (nadd M (v0 (c - i)) (v0 (c + 1 + i)))) (K - 1)))).
  { clear t. intros t. unfold cdc_step. cbn [cd_real cd_imag cd_imco cd_reco cd_sign]. rewrite quarter_eq, half_eq. destruct (x t) as [a b] eqn:Ex.
    rewrite wind_get by lia. cbn [bind]. rewrite (wind_shift v1 _ K) by (auto; replace (Z.of_nat t - Z.of_nat K + Z.of_nat K) with (Z.of_nat t) by lia; unfold v1; rewrite alt_nat, Ex; reflexivity). cbn [bind].
    rewrite (wind_shift v0 _ (2 * K)) by (try lia; replace (Z.of_nat t - 2 * Z.of_nat K + Z.of_nat (2 * K)) with (Z.of_nat t) by lia; unfold v0; rewrite alt_nat, Ex; reflexivity). cbn [bind].
    rewrite ico_get by lia. cbn [bind]. rewrite !wind_get by lia. cbn [bind].
    rewrite (for_loop_fold _ _ _ (fun a i => nadd M a (nmul M (ico i) (nadd M (v0 (Z.of_nat t - Z.of_nat K - i)) (v0 (Z.of_nat t - Z.of_nat K + 1 + i)))))).
    - cbn [bind]. f_equal. f_equal; [f_equal; [f_equal; lia|f_equal; lia|rewrite Nat.odd_succ; apply Nat.negb_odd]|].
      cbv zeta. f_equal; [f_equal; f_equal; lia|]. unfold acc. f_equal; [f_equal; f_equal; lia|]. f_equal. f_equal; f_equal; lia.
    - intros j s Hj. rewrite ico_get by lia. cbn [bind]. rewrite !wind_get by lia. cbn [bind]. do 4 f_equal; f_equal; lia. }
  assert (E : forall t, ostate_at (cdc_step M TAPS) s0 x t = Ok (mkCdc (wind v1 (Z.of_nat t - Z.of_nat K) K) (wind v0 (Z.of_nat t - 2 * Z.of_nat K) (2 * K)) imco reco (Nat.odd t))).
  { clear t. induction t as [|t IH].
    - cbn [ostate_at]. unfold s0. do 2 f_equal; symmetry; apply wind_repeat; intros i Hi; unfold v0, v1, alt; rewrite (proj2 (Z.ltb_lt i 0)) by lia; reflexivity.
    - cbn [ostate_at]. rewrite IH. cbn [bind]. rewrite St. reflexivity. }
  split; [apply E|]. unfold oout. rewrite E. cbn [bind]. rewrite St. reflexivity.
Qed.

Lemma hilbert_state (x : nat -> T) t : let zx := zext x in let s0 := Ok (mkHilbert (repeat (n0 M) (4 * K + 1)) imco reco) in
  ostate_at (hilbert_step M TAPS) s0 x t = Ok (mkHilbert (wind zx (Z.of_nat t - TAPS) (4 * K + 1)) imco reco) /\
  oout (hilbert_step M TAPS) s0 x t = let c := Z.of_nat t - 1 - 2 * Z.of_nat K in
  Ok (nmul M reco (zx c), acc (fun i => nmul M (ico i) (nsub M (zx (c - (2 * i + 1))) (zx (c + (2 * i + 1))))) (K - 1)).
Proof.
  intros zx s0.
  assert (St : forall t, hilbert_step M TAPS (mkHilbert (wind zx (Z.of_nat t - TAPS) (4 * K + 1)) imco reco) (x t) =
    Ok (mkHilbert (wind zx (Z.of_nat (S t) - TAPS) (4 * K + 1)) imco reco, let c := Z.of_nat t - 1 - 2 * Z.of_nat K in
      (nmul M reco (zx c), acc (fun i => nmul M (ico i) (nsub M (zx (c - (2 * i + 1))) (zx (c + (2 * i + 1))))) (K - 1)))).
  { clear t. intros t. unfold hilbert_step. cbn [hb_real hb_imco hb_reco]. rewrite quarter_eq, half_eq.
    rewrite wind_get by lia. cbn [bind]. rewrite ico_get by lia. cbn [bind]. rewrite !wind_get by lia. cbn [bind].
    rewrite (for_loop_fold _ _ _ (fun a i => nadd M a (nmul M (ico i) (nsub M (zx (Z.of_nat t - 1 - 2 * Z.of_nat K - (2 * i + 1))) (zx (Z.of_nat t - 1 - 2 * Z.of_nat K + (2 * i + 1))))))).
    - cbn [bind]. rewrite (wind_shift zx _ (4 * K + 1)).
      + cbn [bind]. f_equal. f_equal; [f_equal; f_equal; lia|]. cbv zeta. f_equal; [f_equal; f_equal; lia|]. unfold acc. f_equal; [f_equal; f_equal; lia|]. f_equal. f_equal; f_equal; lia.
      + lia.
      + lia.
      + replace (Z.of_nat t - TAPS + Z.of_nat (4 * K + 1)) with (Z.of_nat t) by lia. unfold zx, zext. rewrite (proj2 (Z.ltb_ge (Z.of_nat t) 0)), Nat2Z.id by lia. reflexivity.
    - intros j s Hj. rewrite ico_get by lia. cbn [bind]. rewrite !wind_get by lia. cbn [bind]. do 4 f_equal; f_equal; lia. }
  assert (E : forall t, ostate_at (hilbert_step M TAPS) s0 x t = Ok (mkHilbert (wind zx (Z.of_nat t - TAPS) (4 * K + 1)) imco reco)).
  { clear t. induction t as [|t IH].
    - cbn [ostate_at]. unfold s0. do 2 f_equal. symmetry. apply wind_repeat. intros i Hi. unfold zx, zext. rewrite (proj2 (Z.ltb_lt i 0)) by lia. reflexivity.
    - cbn [ostate_at]. rewrite IH. cbn [bind]. rewrite St. reflexivity. }
  split; [apply E|]. unfold oout. rewrite E. cbn [bind]. rewrite St. reflexivity.
Qed.
End Any.

Open Scope R_scope.
Lemma acc_sum (M : num R) (f : Z -> R) n : nadd M = Rplus -> acc M f n = Rsumn (S n) (fun j => f (Z.of_nat j)).
Proof.
  intros E. unfold acc. rewrite E. induction n as [|n IH]; [cbn; ring|]. rewrite seq_S, map_app, fold_left_app, IH. cbn [map fold_left Nat.add].
  change (Rsumn (S (S n)) (fun j => f (Z.of_nat j))) with (Rsumn (S n) (fun j => f (Z.of_nat j)) + f (Z.of_nat (S n))). do 2 f_equal. lia.
Qed.
Lemma RtoC_sum n f : RtoC (Rsumn n f) = Csum n (fun j => RtoC (f j)).
Proof. induction n as [|n IH]; [reflexivity|]. cbn [Rsumn Csum]. rewrite RtoC_plus, IH. reflexivity. Qed.
Lemma Csum_two n f : Csum (2 * n) f = Csum n (fun i => (f (2 * i)%nat + f (2 * i + 1)%nat)%C).
Proof.
  induction n as [|n IH]; [reflexivity|]. replace (2 * S n)%nat with (S (S (2 * n))) by lia. cbn [Csum]. rewrite <- IH. replace (2 * n + 1)%nat with (S (2 * n)) by lia.
  match goal with |- ?a = ?b => change (@eq C a b) end. ring.
Qed.
(** a sum over -2K .. 2K in which the even terms but the middle one vanish *)
Lemma Csum_odd (K : nat) (G : Z -> C) : (forall d, Z.even d = true -> d <> 0%Z -> G d = 0%C) ->
  Csum (4 * K + 1) (fun j => G (Z.of_nat j - 2 * Z.of_nat K)%Z) = (G 0%Z + Csum K (fun i => G (2 * Z.of_nat i + 1)%Z + G (- (2 * Z.of_nat i + 1))%Z))%C.
Proof.
  intros Z. replace (4 * K + 1)%nat with (2 * K + S (2 * K))%nat by lia. rewrite Csum_add, Csum_S, <- (Csum_rev (2 * K)), !Csum_two.
  replace (Z.of_nat (2 * K + 0) - 2 * Z.of_nat K)%Z with 0%Z by lia. rewrite (Csum_plus K (fun i => G (2 * Z.of_nat i + 1)%Z)).
  assert (A : Csum K (fun i => (G (Z.of_nat (2 * K - 1 - 2 * i) - 2 * Z.of_nat K)%Z + G (Z.of_nat (2 * K - 1 - (2 * i + 1)) - 2 * Z.of_nat K)%Z)%C) = Csum K (fun i => G (- (2 * Z.of_nat i + 1))%Z)).
  { apply Csum_ext. intros k Hk. rewrite (Z (Z.of_nat (2 * K - 1 - (2 * k + 1)) - 2 * Z.of_nat K)%Z).
    - replace (Z.of_nat (2 * K - 1 - 2 * k) - 2 * Z.of_nat K)%Z with (- (2 * Z.of_nat k + 1))%Z by lia. ring.
    - apply Z.even_spec. exists (- (Z.of_nat k + 1))%Z. lia.
    - lia. }
  assert (B : Csum K (fun i => (G (Z.of_nat (2 * K + S (2 * i)) - 2 * Z.of_nat K)%Z + G (Z.of_nat (2 * K + S (2 * i + 1)) - 2 * Z.of_nat K)%Z)%C) = Csum K (fun i => G (2 * Z.of_nat i + 1)%Z)).
  { apply Csum_ext. intros k Hk. rewrite (Z (Z.of_nat (2 * K + S (2 * k + 1)) - 2 * Z.of_nat K)%Z).
    - replace (Z.of_nat (2 * K + S (2 * k)) - 2 * Z.of_nat K)%Z with (2 * Z.of_nat k + 1)%Z by lia. ring.
    - apply Z.even_spec. exists (Z.of_nat k + 1)%Z. lia.
    - lia. }
  rewrite A, B. match goal with |- ?a = ?b => change (@eq C a b) end. ring.
Qed.

Definition half_signal (in0 in1 : nat -> R) (n : Z) : C := (RtoC (causal (interleave in0 in1) n) * cis (- (PI / 2) * IZR n))%C.
Lemma interleave_even a b n : interleave a b (2 * n) = a n.
Proof. unfold interleave. rewrite Nat.even_mul. cbn [Nat.even orb]. rewrite Nat.div2_double. reflexivity. Qed.
Lemma interleave_odd a b n : interleave a b (2 * n + 1) = b n.
Proof. unfold interleave. rewrite Nat.add_1_r, Nat.even_succ, Nat.odd_mul. cbn [Nat.odd Nat.even negb andb]. rewrite Nat.div2_succ_double. reflexivity. Qed.
Lemma alt_sign (M : num R) (x : nat -> R) u : n0 M = 0 -> nopp M = Ropp -> alt M x u = causal x u * cos (PI * IZR u).
Proof.
  intros E0 E1. unfold alt, causal. rewrite E0, E1. destruct (Z.ltb_spec u 0) as [H|H]; [ring|]. destruct (Z.even u) eqn:E.
  - apply Z.even_spec in E. destruct E as [k ->]. replace (PI * IZR (2 * k)) with (0 + 2 * IZR k * PI) by (rewrite mult_IZR; ring). rewrite cos_turn, cos_0. ring.
  - assert (O : Z.odd u = true) by (rewrite <- Z.negb_even, E; reflexivity). apply Z.odd_spec in O. destruct O as [k ->].
    replace (PI * IZR (2 * k + 1)) with (PI + 2 * IZR k * PI) by (rewrite plus_IZR, mult_IZR; ring). rewrite cos_turn, cos_PI. ring.
Qed.
Lemma sin_PI_int u : sin (PI * IZR u) = 0. Proof. rewrite Rmult_comm. apply sin_eq_0_1. exists u. reflexivity. Qed.
Lemma half_even in0 in1 u : half_signal in0 in1 (2 * u) = RtoC (alt Rc in0 u).
Proof.
  unfold half_signal, cis. replace (- (PI / 2) * IZR (2 * u)) with (- (PI * IZR u)) by (rewrite mult_IZR; field). rewrite cos_neg, sin_neg, sin_PI_int, (alt_sign Rc) by reflexivity.
  assert (E : causal (interleave in0 in1) (2 * u) = causal in0 u).
  { unfold causal. destruct (Z.ltb_spec u 0), (Z.ltb_spec (2 * u) 0); try lia; auto. replace (Z.to_nat (2 * u)) with (2 * Z.to_nat u)%nat by lia. apply interleave_even. }
  rewrite E. unfold Cmult, RtoC. cbn. f_equal; ring.
Qed.
Lemma half_odd in0 in1 u : (Ci * half_signal in0 in1 (2 * u + 1))%C = RtoC (alt Rc in1 u).
Proof.
  unfold half_signal, cis. replace (- (PI / 2) * IZR (2 * u + 1)) with (- (PI * IZR u + PI / 2)) by (rewrite plus_IZR, mult_IZR; field).
  rewrite cos_neg, sin_neg, cos_plus, sin_plus, cos_PI2, sin_PI2, sin_PI_int, (alt_sign Rc) by reflexivity.
  assert (E : causal (interleave in0 in1) (2 * u + 1) = causal in1 u).
  { unfold causal. destruct (Z.ltb_spec u 0), (Z.ltb_spec (2 * u + 1) 0); try lia; auto. replace (Z.to_nat (2 * u + 1)) with (2 * Z.to_nat u + 1)%nat by lia. apply interleave_odd. }
  rewrite E. unfold Cmult, RtoC, Ci. cbn. f_equal; ring.
Qed.
Lemma cdc_fold (K t : nat) (h : Z -> R) (c : Z -> R) (reco : R) (in0 in1 : nat -> R) : (1 <= K)%nat ->
  h (2 * Z.of_nat K)%Z = reco -> (forall i, (0 <= i < Z.of_nat K)%Z -> h (2 * Z.of_nat K + (2 * i + 1))%Z = c i /\ h (2 * Z.of_nat K - (2 * i + 1))%Z = c i) ->
  (forall d, (0 <= d <= 4 * Z.of_nat K)%Z -> Z.even d = true -> d <> (2 * Z.of_nat K)%Z -> h d = 0) ->
  let u := (Z.of_nat t - Z.of_nat K)%Z in
  (Ci * cfir (4 * Z.of_nat K + 1) h (half_signal in0 in1) (2 * Z.of_nat t + 1))%C =
  (reco * alt Rc in1 u, Rsumn K (fun i => c (Z.of_nat i) * (alt Rc in0 (u - Z.of_nat i) + alt Rc in0 (u + 1 + Z.of_nat i)))).
Proof.
  intros HK H0 H1 H2 u. set (h' := fun d => if ((0 <=? d) && (d <=? 4 * Z.of_nat K))%Z then h d else 0).
  set (G := fun d : Z => (RtoC (h' (2 * Z.of_nat K + d)%Z) * half_signal in0 in1 (2 * u + 1 - d))%C).
  assert (E : cfir (4 * Z.of_nat K + 1) h (half_signal in0 in1) (2 * Z.of_nat t + 1) = Csum (4 * K + 1) (fun j => G (Z.of_nat j - 2 * Z.of_nat K)%Z)).
  { unfold cfir. replace (Z.to_nat (4 * Z.of_nat K + 1)) with (4 * K + 1)%nat by lia. apply Csum_ext. intros j Hj. unfold G, h', u.
    replace (2 * Z.of_nat K + (Z.of_nat j - 2 * Z.of_nat K))%Z with (Z.of_nat j) by lia. rewrite (proj2 (Z.leb_le 0 _)), (proj2 (Z.leb_le (Z.of_nat j) _)) by lia. cbn [andb]. do 2 f_equal. lia. }
  rewrite E, Csum_odd; [|intros d Hd Nd; unfold G, h'; destruct (Z.leb_spec 0 (2 * Z.of_nat K + d)), (Z.leb_spec (2 * Z.of_nat K + d) (4 * Z.of_nat K)); cbn [andb]; try ring;
    rewrite H2; [ring|lia|rewrite Z.even_add, Hd, Z.even_mul; reflexivity|lia]].
  assert (Hh : forall d, (0 <= d <= 4 * Z.of_nat K)%Z -> h' d = h d) by (intros d Hd; unfold h'; rewrite (proj2 (Z.leb_le 0 _)), (proj2 (Z.leb_le d _)) by lia; reflexivity).
  assert (S : Csum K (fun i => (G (2 * Z.of_nat i + 1)%Z + G (- (2 * Z.of_nat i + 1))%Z)%C) = RtoC (Rsumn K (fun i => c (Z.of_nat i) * (alt Rc in0 (u - Z.of_nat i) + alt Rc in0 (u + 1 + Z.of_nat i))))).
  { rewrite RtoC_sum. apply Csum_ext. intros i Hi. unfold G. destruct (H1 (Z.of_nat i)) as [A B]; [lia|]. rewrite !Hh by lia. rewrite A. replace (2 * Z.of_nat K + - (2 * Z.of_nat i + 1))%Z with (2 * Z.of_nat K - (2 * Z.of_nat i + 1))%Z by lia. rewrite B.
    replace (2 * u + 1 - (2 * Z.of_nat i + 1))%Z with (2 * (u - Z.of_nat i))%Z by lia. replace (2 * u + 1 - - (2 * Z.of_nat i + 1))%Z with (2 * (u + 1 + Z.of_nat i))%Z by lia.
    rewrite !half_even. rewrite RtoC_mult, RtoC_plus. ring. }
  rewrite S. unfold G. rewrite Z.add_0_r, Z.sub_0_r, Hh, H0 by lia.
  set (q := Rsumn K _). replace (Ci * (RtoC reco * half_signal in0 in1 (2 * u + 1) + RtoC q))%C with (RtoC reco * (Ci * half_signal in0 in1 (2 * u + 1)) + Ci * RtoC q)%C by ring.
  rewrite half_odd. unfold Cplus, Cmult, RtoC, Ci. cbn. f_equal; ring.
Qed.
Lemma hilbert_fold (K : nat) (h : Z -> R) (c : Z -> R) (x : Z -> R) (m : Z) : (1 <= K)%nat ->
  (forall i, (0 <= i < Z.of_nat K)%Z -> h (2 * Z.of_nat K + (2 * i + 1))%Z = c i /\ h (2 * Z.of_nat K - (2 * i + 1))%Z = - c i) ->
  (forall d, (0 <= d <= 4 * Z.of_nat K)%Z -> Z.even d = true -> h d = 0) ->
  rfir (4 * Z.of_nat K + 1) h x (m + 2 * Z.of_nat K) = Rsumn K (fun i => c (Z.of_nat i) * (x (m - (2 * Z.of_nat i + 1))%Z - x (m + (2 * Z.of_nat i + 1))%Z)).
Proof.
  intros HK H1 H2. apply RtoC_inj. rewrite RtoC_sum. set (h' := fun d => if ((0 <=? d) && (d <=? 4 * Z.of_nat K))%Z then h d else 0).
  set (G := fun d : Z => (RtoC (h' (2 * Z.of_nat K + d)%Z) * RtoC (x (m - d)%Z))%C).
  assert (E : RtoC (rfir (4 * Z.of_nat K + 1) h x (m + 2 * Z.of_nat K)) = Csum (4 * K + 1) (fun j => G (Z.of_nat j - 2 * Z.of_nat K)%Z)).
  { unfold rfir. rewrite RtoC_sum. replace (Z.to_nat (4 * Z.of_nat K + 1)) with (4 * K + 1)%nat by lia. apply Csum_ext. intros j Hj. unfold G, h'.
    replace (2 * Z.of_nat K + (Z.of_nat j - 2 * Z.of_nat K))%Z with (Z.of_nat j) by lia. rewrite (proj2 (Z.leb_le 0 _)), (proj2 (Z.leb_le (Z.of_nat j) _)) by lia. cbn [andb]. rewrite RtoC_mult. do 3 f_equal. lia. }
  assert (Hh : forall d, (0 <= d <= 4 * Z.of_nat K)%Z -> h' d = h d) by (intros d Hd; unfold h'; rewrite (proj2 (Z.leb_le 0 _)), (proj2 (Z.leb_le d _)) by lia; reflexivity).
  rewrite E, Csum_odd.
  - unfold G at 1. rewrite Hh, H2 by (try lia; rewrite Z.add_0_r, Z.even_mul; reflexivity). rewrite Cmult_0_l, Cplus_0_l. apply Csum_ext. intros i Hi. unfold G.
    destruct (H1 (Z.of_nat i)) as [A B]; [lia|]. rewrite !Hh by lia. rewrite A. replace (2 * Z.of_nat K + - (2 * Z.of_nat i + 1))%Z with (2 * Z.of_nat K - (2 * Z.of_nat i + 1))%Z by lia. rewrite B.
    rewrite Z.sub_opp_r. rewrite RtoC_mult, RtoC_minus, RtoC_opp. ring.
  - intros d Hd Nd. unfold G, h'. destruct (Z.leb_spec 0 (2 * Z.of_nat K + d)), (Z.leb_spec (2 * Z.of_nat K + d) (4 * Z.of_nat K)); cbn [andb]; try ring.
    rewrite H2; [ring|lia|rewrite Z.even_add, Hd, Z.even_mul; reflexivity].
Qed.
