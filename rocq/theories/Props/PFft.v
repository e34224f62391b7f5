(* C25-C30: complex numbers and Fourier transforms *)
From Coq Require Import Reals ZArith Znumtheory Lia Lra List.
From Coquelicot Require Import Complex.
From Flocq Require Import Core.
From Verif Require Import Proofs.BaseLemmas Spec.Dft Model.Complex Model.Fft
  Proofs.FftAlg Proofs.FftSplit Proofs.FftKernels Proofs.FftGen Proofs.FftProofs Proofs.FftInverse Proofs.FftReal.
Import ListNotations.
Open Scope Z_scope.

(** ** C25 *)
(** Every operator is the operation of the field of complex numbers (Coquelicot's C). *)
Theorem C25_complex_field :
  forall a b : C, (forall r : R, cscale Rn r a = Cmult (RtoC r) a) /\
  cadd Rn a b = Cplus a b /\ csub Rn a b = Cminus a b /\ copp Rn a = Copp a /\ cplus1 a = a /\
  cmul Rn a b = Cmult a b /\ cconj Rn a = Cconj a /\ cabs Rn a = Cmod a /\ cnorm Rn a = (Cmod a * Cmod a)%R /\
  (forall r : R, r <> 0%R -> cdivr Rn a r = Cdiv a (RtoC r)) /\
  (b <> RtoC 0 -> cdiv Rn a b = Cdiv a b /\ forall r : R, crdiv Rn r b = Cdiv (RtoC r) b).
Proof.
  intros a b.
  assert (M : forall c : C, cabs Rn c = Cmod c). { intros [x y]. unfold cabs, cnorm, Cmod. cbn. f_equal. ring. }
  splits; auto; try reflexivity.
  - intros r. destruct a. apply C_eq; cbn; ring.
  - destruct a as [x y]. unfold Cmod. rewrite sqrt_sqrt by (cbn; nra). cbn. ring.
  - intros r Hr. destruct a. apply C_eq; cbn; field; auto.
  - intros Hb. assert (N0 : (fst b * fst b + snd b * snd b <> 0)%R).
    { intros E. apply Hb. apply C_eq; cbn; nra. }
    destruct a as [x y], b as [u v]. cbn in N0. split; [|intros r]; apply C_eq; cbn; field; rewrite ?Rmult_1_r; try split; auto; nra.
Qed.
Print Assumptions C25_complex_field.

(** Consequences named in the property. *)
Theorem C25_division_inverts_multiplication :
  forall a b : C, b <> RtoC 0 -> cmul Rn (cdiv Rn a b) b = a /\ cdiv Rn (cmul Rn a b) b = a.
Proof.
  intros a b Hb. destruct (C25_complex_field a b) as (_ & _ & _ & _ & _ & E & _ & _ & _ & _ & D). destruct (D Hb) as [D1 _].
  rewrite D1, E. destruct (C25_complex_field (Cmult a b) b) as (_ & _ & _ & _ & _ & _ & _ & _ & _ & _ & D'). destruct (D' Hb) as [D2 _].
  rewrite D2. destruct (C25_complex_field (Cdiv a b) b) as (_ & _ & _ & _ & _ & E' & _). rewrite E'.
  split; [change (Cmult (Cdiv a b) b = a :> C)|change (Cdiv (Cmult a b) b = a :> C)]; field; auto.
Qed.
Print Assumptions C25_division_inverts_multiplication.

Theorem C25_norm_and_abs :
  forall a b : C, cnorm Rn (cmul Rn a b) = (cnorm Rn a * cnorm Rn b)%R /\ cabs Rn (cmul Rn a b) = (cabs Rn a * cabs Rn b)%R /\
  cmul Rn a (cconj Rn a) = cofr Rn (cnorm Rn a) /\ cconj Rn (cmul Rn a b) = cmul Rn (cconj Rn a) (cconj Rn b) /\
  (cabs Rn (cadd Rn a b) <= cabs Rn a + cabs Rn b)%R.
Proof.
  intros a b. assert (M : forall c : C, cabs Rn c = Cmod c). { intros [x y]. unfold cabs, cnorm, Cmod. cbn. f_equal. ring. }
  splits.
  - destruct a, b. cbn. ring.
  - rewrite !M. apply Cmod_mult.
  - destruct a. apply C_eq; cbn; ring.
  - destruct a, b. apply C_eq; cbn; ring.
  - rewrite !M. apply Cmod_triangle.
Qed.
Print Assumptions C25_norm_and_abs.

(** Compound assignments, for every arithmetic whose addition and multiplication commute (floats do). *)
Theorem C25_compound_assignments :
  forall (T : Type) (N : num T), (forall x y, nadd N x y = nadd N y x) -> (forall x y, nmul N x y = nmul N y x) ->
  forall (a b : cplx T) (r : T), cadd_eq N a b = cadd N a b /\ csub_eq N a b = csub N a b /\ cmul_eq N a b = cmul N a b /\
  cdiv_eq N a b = cdiv N a b /\ cscale_eq N a r = cscale N r a /\ cdivr_eq N a r = cdivr N a r.
Proof.
  intros T N HA HM [x y] [u v] r. unfold cadd_eq, cmul_eq, cadd, cmul. cbn [creal cimag fst snd]. splits; try reflexivity.
  - now rewrite (HA u), (HA v).
  - rewrite (HM u), (HM v). f_equal. rewrite HA. now rewrite (HM u), (HM v).
Qed.
Print Assumptions C25_compound_assignments.

(** == and != are complementary, for every arithmetic; for a correct comparison == is equality. *)
Theorem C25_equality :
  forall (T : Type) (N : num T) (a b : cplx T), cneb N a b = negb (ceqb N a b) /\
  ((forall x y, neqb N x y = true <-> x = y) -> ceqb N a b = true <-> a = b).
Proof.
  intros T N [x y] [u v]. unfold cneb, ceqb. cbn [creal cimag fst snd]. split.
  - now destruct (neqb N x u), (neqb N y v).
  - intros H. rewrite andb_true_iff, !H. split; [intros [-> ->]; auto|]. intros E. injection E. auto.
Qed.
Print Assumptions C25_equality.
Example C25_equality_real : forall x y : R, neqb Rn x y = true <-> x = y.
Proof. intros x y. cbn. unfold Req_bool. destruct (Rcompare_spec x y); split; try discriminate; try lra; auto. Qed.

(** polar(a, b) has modulus |a| and turns: products add angles; polar of (abs, arg) gives the number back
    whenever arg is an angle of it. *)
Theorem C25_polar :
  forall a b a' b' : R, cabs Rn (cpolar Rn cos sin a b) = Rabs a /\
  cmul Rn (cpolar Rn cos sin a b) (cpolar Rn cos sin a' b') = cpolar Rn cos sin (a * a')%R (b + b')%R /\
  forall (z : C) (at2 : R -> R -> R), (forall y x : R, (x * x + y * y <> 0)%R ->
     cos (at2 y x) = (x / sqrt (x * x + y * y))%R /\ sin (at2 y x) = (y / sqrt (x * x + y * y))%R) ->
  cpolar Rn cos sin (cabs Rn z) (carg at2 z) = z.
Proof.
  intros a b a' b'. splits.
  - unfold cabs, cnorm, cpolar. cbn. rewrite <- sqrt_Rsqr_abs. f_equal. pose proof (sin2_cos2 b). unfold Rsqr in *.
    replace (a * cos b * (a * cos b) + a * sin b * (a * sin b))%R with (a * a * (sin b * sin b + cos b * cos b))%R by ring. rewrite H. ring.
  - apply C_eq; cbn; rewrite ?cos_plus, ?sin_plus; ring.
  - intros [x y] at2 H. unfold cpolar, carg, cabs, cnorm. cbn. destruct (Req_dec (x * x + y * y) 0) as [E|E].
    + rewrite E, sqrt_0. apply C_eq; cbn; nra.
    + destruct (H y x E) as [-> ->]. assert (sqrt (x * x + y * y) <> 0)%R. { intros E'. apply sqrt_eq_0 in E'; nra. }
      apply C_eq; cbn; field; auto.
Qed.
Print Assumptions C25_polar.

(** ** C26 *)
(** For every 31-smooth size, both signs, every input and whatever the output array contains beforehand, the
    transform with exact arithmetic stores the discrete Fourier transform and touches nothing behind it. *)
Theorem C26_fft_is_dft :
  forall (BINS SIGN : Z) (out : list (option C)) (inp : list C), 0 < BINS -> smooth31 BINS -> SIGN = 1 \/ SIGN = -1 ->
  BINS <= zlen out -> BINS <= zlen inp ->
  exists out' : list (option C), fft Rn exact_trig BINS SIGN out inp = Ok out' /\ zlen out' = zlen out /\
    (forall m, BINS <= m -> znth out' m = znth out m) /\
    forall k, 0 <= k < BINS -> znth out' k = Some (Some (DFT SIGN (Z.to_nat BINS) (fun n => nth n inp (RtoC 0)) (Z.to_nat k))).
Proof. exact fft_exact. Qed.
Print Assumptions C26_fft_is_dft.

(** 2*2*3*8*31*29 points *)
Example C26_example : smooth31 86304.
Proof. change 86304 with (4 * (8 * (3 * (31 * 29)))). repeat apply smooth_mul; apply smooth_radix; cbn; auto 20. Qed.
(** four points of a unit impulse at 1 with positive sign: the fourth roots of unity *)
Example C26_example_value : DFT 1 4 (fun n => match n with 1%nat => RtoC 1 | _ => RtoC 0 end) 1 = (0%R, 1%R).
Proof.
  unfold DFT. cbn [Csum]. unfold cis. replace (1 * 2 * PI * (INR 1 * INR 1) / INR 4)%R with (PI / 2)%R by (cbn; field).
  rewrite cos_PI2, sin_PI2. apply C_eq; cbn; ring.
Qed.

(** ** C27 *)
(** Both transforms in either order multiply the input by BINS. *)
Theorem C27_roundtrip :
  forall (BINS SIGN : Z) (out out2 : list (option C)) (inp : list C), 0 < BINS -> smooth31 BINS -> SIGN = 1 \/ SIGN = -1 ->
  zlen out = BINS -> zlen out2 = BINS -> zlen inp = BINS ->
  exists mid res : list C, fft Rn exact_trig BINS SIGN out inp = Ok (map Some mid) /\
    fft Rn exact_trig BINS (- SIGN) out2 mid = Ok (map Some res) /\
    res = map (Cmult (RtoC (IZR BINS))) inp.
Proof.
  intros BINS SIGN out out2 inp HB Hsm HS Lo Lo2 Li.
  set (n := Z.to_nat BINS).
  assert (All : forall (l : list (option C)) (f : nat -> C), zlen l = BINS ->
      (forall k, 0 <= k < BINS -> znth l k = Some (Some (f (Z.to_nat k)))) -> l = map Some (map f (seq 0 n))).
  { intros l f L V. apply nth_error_ext'. intros k. destruct (Nat.lt_ge_cases k n) as [Hk|Hk].
    - specialize (V (Z.of_nat k) ltac:(lia)). rewrite znth_nth_error, Nat2Z.id in V. rewrite V.
      rewrite map_map, nth_error_map, (nth_error_nth' _ 0%nat), seq_nth by (rewrite ?seq_length; lia). reflexivity.
    - rewrite (proj2 (nth_error_None l k)) by (unfold zlen in L; lia). symmetry. apply nth_error_None. rewrite !map_length, seq_length. lia. }
  destruct (fft_exact BINS SIGN out inp) as (o1 & E1 & L1 & _ & V1); auto; try lia.
  set (f := DFT SIGN n (fun j => nth j inp (RtoC 0))).
  set (mid := map f (seq 0 n)).
  assert (Lm : zlen mid = BINS) by (unfold mid, zlen; rewrite map_length, seq_length; lia).
  destruct (fft_exact BINS (- SIGN) out2 mid) as (o2 & E2 & L2 & _ & V2); auto; try lia.
  rewrite (All o1 f) in E1 by (auto; lia). rewrite (All o2 (fun k => Cmult (RtoC (IZR BINS)) (nth k inp (RtoC 0)))) in E2.
  - exists mid, (map (fun k => Cmult (RtoC (IZR BINS)) (nth k inp (RtoC 0))) (seq 0 n)). splits; auto.
    assert (Ein : inp = map (fun k => nth k inp (RtoC 0)) (seq 0 n)).
    { apply (nth_ext _ _ (RtoC 0) (RtoC 0)); [rewrite map_length, seq_length; unfold zlen in Li; lia|].
      intros k Hk. rewrite (nth_indep (map _ _) _ (nth 0 inp (RtoC 0))) by (rewrite map_length, seq_length; unfold zlen in Li; lia).
      rewrite (map_nth (fun k => nth k inp (RtoC 0)) (seq 0 n) 0%nat k), seq_nth by (unfold zlen in Li; lia). reflexivity. }
    transitivity (map (Cmult (RtoC (IZR BINS))) (map (fun k => nth k inp (RtoC 0)) (seq 0 n))); [now rewrite map_map|now rewrite <- Ein].
  - lia.
  - intros k Hk. rewrite (V2 k Hk). do 2 f_equal. fold n.
    rewrite (DFT_ext _ _ _ f).
    + unfold f. rewrite DFT_inverse by (auto; lia). f_equal. unfold n. rewrite INR_IZR_INZ, Z2Nat.id by lia. reflexivity.
    + intros m Hm. unfold mid. rewrite (nth_indep _ _ (f 0%nat)) by (rewrite map_length, seq_length; lia).
      rewrite map_nth, seq_nth by lia. reflexivity.
Qed.
Print Assumptions C27_roundtrip.

(** Parseval: the squared magnitudes of the bins sum to BINS times those of the input. *)
Theorem C27_parseval :
  forall (BINS SIGN : Z) (out : list (option C)) (inp : list C), 0 < BINS -> smooth31 BINS -> SIGN = 1 \/ SIGN = -1 ->
  zlen out = BINS -> zlen inp = BINS ->
  exists bins : list C, fft Rn exact_trig BINS SIGN out inp = Ok (map Some bins) /\ zlen bins = BINS /\
    Csum (Z.to_nat BINS) (fun k => RtoC (cnorm Rn (nth k bins (RtoC 0)))) =
    Cmult (RtoC (IZR BINS)) (Csum (Z.to_nat BINS) (fun k => RtoC (cnorm Rn (nth k inp (RtoC 0))))).
Proof.
  intros BINS SIGN out inp HB Hsm HS Lo Li.
  destruct (C27_roundtrip BINS SIGN out out inp) as (mid & res & E1 & E2 & _); auto.
  exists mid. split; [auto|].
  destruct (fft_exact BINS SIGN out inp) as (o1 & E1' & L1 & _ & V1); auto; try lia.
  rewrite E1 in E1'. injection E1' as E1'. subst o1.
  assert (Lm : zlen mid = BINS). { change (@zlen (option C) (map Some mid) = @zlen (option C) out) in L1. unfold zlen in *. rewrite map_length in L1. lia. }
  split; [auto|]. rewrite <- (Z2Nat.id BINS) at 2 by lia. rewrite <- INR_IZR_INZ.
  pose proof (Parseval SIGN (Z.to_nat BINS) (fun n => nth n inp (RtoC 0)) HS ltac:(lia)) as P.
  etransitivity; [|exact P]. apply Csum_ext. intros k Hk.
  assert (E : nth k mid (RtoC 0) = DFT SIGN (Z.to_nat BINS) (fun n => nth n inp (RtoC 0)) k).
  { specialize (V1 (Z.of_nat k) ltac:(lia)). rewrite Nat2Z.id in V1. rewrite znth_nth_error in V1.
    change (@nth_error (option C) (map Some mid) k = Some (Some (DFT SIGN (Z.to_nat BINS) (fun n => nth n inp (RtoC 0)) k))) in V1.
    rewrite nth_error_map in V1. destruct (nth_error mid k) as [v|] eqn:Ev; [|discriminate]. cbn in V1. injection V1 as V1. rewrite <- V1. now apply nth_error_nth. }
  rewrite E. reflexivity.
Qed.
Print Assumptions C27_parseval.

(** ** C28 *)
(** For every arithmetic and every table of sines: arrays of exactly BINS cells suffice (every access of the
    model is checked), all BINS outputs get written, no uninitialised output cell is read, cells beyond BINS
    are left alone. *)
Theorem C28_fft_stays_inside :
  forall (T : Type) (N : num T) (tr : trig T) (BINS SIGN : Z) (out : list (option (cplx T))) (inp : list (cplx T)),
  0 < BINS -> smooth31 BINS -> BINS <= zlen inp -> BINS <= zlen out ->
  exists out', fft N tr BINS SIGN out inp = Ok out' /\ zlen out' = zlen out /\
    (forall m, BINS <= m -> znth out' m = znth out m) /\ forall k, 0 <= k < BINS -> exists v, znth out' k = Some (Some v).
Proof. exact @fft_safe. Qed.
Print Assumptions C28_fft_stays_inside.

(** run with integers: twelve uninitialised cells and a sentinel *)
Definition Zn : num Z := {| n0 := 0; n1 := 1; nadd := Z.add; nsub := Z.sub; nmul := Z.mul; ndiv := Z.div; nopp := Z.opp;
  nabs := Z.abs; nsqrt := Z.sqrt; nofZ := fun z => z; nlit := fun _ => 0; nltb := Z.ltb; nleb := Z.leb; neqb := Z.eqb |}.
Example C28_example :
  match fft Zn {| tcos := fun _ _ => 1; tsin := fun _ _ => 1; trsqrt2 := 1 |} 12 1 (repeat None 12 ++ [Some (7, 7)]) (repeat (1, 2) 12) with
  | Ok l => zlen l = 13 /\ znth l 12 = Some (Some (7, 7)) /\ forallb (fun c => match c with Some _ => true | None => false end) l = true
  | _ => False
  end.
Proof. vm_compute. auto. Qed.

(** ** C29 *)
(** split returns a supported radix dividing the size, or 1 when no supported radix (and so no prime up to 31)
    divides it; *)
Theorem C29_split :
  forall N, 0 < N ->
  (split N = 1 <-> forall p, prime p -> (p | N) -> 31 < p) /\
  (split N <> 1 -> In (split N) [2; 3; 4; 5; 7; 8; 11; 13; 17; 19; 23; 29; 31] /\ (split N | N)).
Proof.
  intros N HN. destruct (split_spec N HN) as [[E F]|[I D]].
  - split; [|congruence]. split; auto. intros _ p Hp Hd. destruct (Z_lt_le_dec 31 p); auto. exfalso.
    rewrite Forall_forall in F. apply (F p); auto. now apply small_prime.
  - pose proof (radices_bound _ I). split; [|auto]. split; [lia|]. intros H'. exfalso.
    destruct (prime_factor (split N) ltac:(lia)) as (p & Hp & Hd). pose proof (split_radix_smooth _ I p Hp Hd).
    specialize (H' p Hp (Z.divide_trans _ _ _ Hd D)). lia.
Qed.
Print Assumptions C29_split.

(** so that the template recursion is complete exactly for the 31-smooth sizes: the transform is defined for
    those and refers to a missing specialisation for all others. *)
Theorem C29_instantiates_iff_smooth :
  forall (T : Type) (N : num T) (tr : trig T) (BINS SIGN : Z) (out : list (option (cplx T))) (inp : list (cplx T)),
  0 < BINS -> zlen inp = BINS -> zlen out = BINS ->
  (smooth31 BINS <-> exists out', fft N tr BINS SIGN out inp = Ok out') /\ (~ smooth31 BINS <-> fft N tr BINS SIGN out inp = Undefined).
Proof.
  intros T N tr BINS SIGN out inp HB Li Lo.
  assert (A : smooth31 BINS -> exists out', fft N tr BINS SIGN out inp = Ok out').
  { intros H. destruct (fft_safe N tr BINS SIGN out inp HB H) as (o & E & _); [lia|lia|eauto]. }
  assert (B : ~ smooth31 BINS -> fft N tr BINS SIGN out inp = Undefined).
  { intros H. unfold fft. apply dit_not_smooth; auto; lia. }
  assert (Dec : smooth31 BINS \/ ~ smooth31 BINS).
  { unfold smooth31. destruct (Classical_Prop.classic (forall p, prime p -> (p | BINS) -> p <= 31)); auto. }
  splits; auto; split; auto.
  - intros [o E]. destruct Dec as [|D]; auto. rewrite (B D) in E. discriminate.
  - intros E. destruct Dec as [D|]; auto. destruct (A D) as [o E']. congruence.
Qed.
Print Assumptions C29_instantiates_iff_smooth.
Example C29_example : split 74 = 2 /\ split 37 = 1 /\ ~ smooth31 74 /\ split (2 ^ 30) = 8 /\ split (2 ^ 31 - 1) = 1.
Proof.
  splits; try reflexivity. intros H. assert (37 <= 31); [|lia]. apply H; [|exists 2; reflexivity].
  destruct (prime_dec 37) as [|Hn]; auto. exfalso. apply not_prime_divide in Hn as (n & Hn & q & D); [|lia].
  assert (H' : n = 2 \/ n = 3 \/ n = 4 \/ n = 5 \/ n = 6 \/ n >= 7) by lia. assert (q < 6 \/ n < 7) by nia. 
  destruct H' as [->|[->|[->|[->|[->|]]]]]; try lia. assert (q = 2 \/ q = 3 \/ q = 4 \/ q = 5) as [->|[->|[->| ->]]] by nia; lia.
Qed.

(** ** C30 *)
Theorem C30_real_to_half_complex :
  forall (BINS : Z) (out : list (option C)) (inp : list R),
  0 < BINS -> BINS mod 2 = 0 -> smooth31 (BINS / 2) -> zlen inp = BINS -> BINS / 2 + 1 <= zlen out ->
  let X k := DFT (-1) (Z.to_nat BINS) (fun n => RtoC (nth n inp 0%R)) (Z.to_nat k) in
  exists out' : list (option C), rhct Rn exact_trig BINS out inp = Ok out' /\ zlen out' = zlen out /\
    (forall m, BINS / 2 < m -> znth out' m = znth out m) /\
    (forall k, 0 < k < BINS / 2 -> znth out' k = Some (Some (X k))) /\
    znth out' 0 = Some (Some (Cmult (RtoC (1/2)) (X 0))) /\
    znth out' (BINS / 2) = Some (Some (Cmult (RtoC (1/2)) (X (BINS / 2)))).
Proof. exact rhct_exact. Qed.
Print Assumptions C30_real_to_half_complex.
Example C30_example : 0 < 124 /\ 124 mod 2 = 0 /\ smooth31 (124 / 2).
Proof. splits; try reflexivity. change (124 / 2) with (2 * 31). apply smooth_mul; apply smooth_radix; cbn; auto 20. Qed.
