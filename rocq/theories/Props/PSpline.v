(* Properties C63, C64: splines *)
From Coq Require Import Reals ZArith List Lra Lia.
From Flocq Require Import Core.
From Coquelicot Require Import Coquelicot.
From Verif Require Import Model.Spline Spec.Interp Proofs.BaseLemmas Proofs.SplineProofs Proofs.HermiteProofs Proofs.SplineSpec Proofs.SplineHom Proofs.SplineSafe.
Import ListNotations.
Open Scope R_scope.

(** the knot values: every STRIDE-th element of Y *)
Definition value (Y : list R) (STRIDE k : nat) : R := nth (k * STRIDE) Y 0.
Lemma yat_value {V} (Y : list V) (K STRIDE : nat) d : ((K - 1) * STRIDE < length Y)%nat -> (Z.of_nat ((K - 1) * STRIDE) <= INT_MAX)%Z ->
  forall i, (i < K)%nat -> yat Y (Z.of_nat STRIDE) (Z.of_nat i) = Ok (nth (i * STRIDE) Y d).
Proof.
  intros HL HI i Hi. unfold yat. assert (i * STRIDE <= (K - 1) * STRIDE)%nat by (apply Nat.mul_le_mono_r; lia).
  rewrite <- Nat2Z.inj_mul, ichk_ok by (unfold INT_MIN; lia). cbn [bind]. apply get_Some. rewrite znth_nth_error.
  apply nth_error_nth'. lia.
Qed.

(** C63: in the coordinate (x - x0) / dx the constructed object is the natural cubic spline through the
    values: it takes them at 0, 1, .., is twice continuously differentiable, cubic on every piece (the end
    pieces continue outwards), its second derivative vanishes at both ends; operator() returns it for every
    x whose knot index fits int *)
Theorem C63_natural : forall (K STRIDE : nat) (Y : list R) (x0 dx : R), (2 <= K)%nat ->
  ((K - 1) * STRIDE < length Y)%nat -> (Z.of_nat ((K - 1) * STRIDE) <= INT_MAX)%Z ->
  exists s F, spl_new Rn (oreal Rn) (Z.of_nat K) Y x0 dx (Z.of_nat STRIDE) = Ok s /\
    natural_spline K INR (value Y STRIDE) F /\
    forall x, (INT_MIN <= Ztrunc ((x - x0) / dx) <= INT_MAX)%Z ->
      spl_at Rn (oreal Rn) Rtoint (Z.of_nat K) s x = Ok (F ((x - x0) / dx)).
Proof.
  intros K STRIDE Y x0 dx HK HL HI. pose proof (yat_value Y K STRIDE 0 HL HI) as HY. fold (value Y STRIDE) in HY.
  destruct (new_ok K (value Y STRIDE) HK Y (Z.of_nat STRIDE) HY x0 dx) as (s & E & E0 & E1 & R). exists s, (NS K (value Y STRIDE)).
  split; [exact E|]. split; [apply NS_natural; auto|]. intros x Hx. rewrite <- E0, <- E1 in Hx |- *. apply at_ok; auto.
Qed.
Print Assumptions C63_natural.

(** C63: for dx > 0 the same in the coordinate x itself: the natural cubic spline with knots x0 + dx k *)
Theorem C63_natural_x : forall (K STRIDE : nat) (Y : list R) (x0 dx : R), (2 <= K)%nat -> 0 < dx ->
  ((K - 1) * STRIDE < length Y)%nat -> (Z.of_nat ((K - 1) * STRIDE) <= INT_MAX)%Z ->
  exists s F, spl_new Rn (oreal Rn) (Z.of_nat K) Y x0 dx (Z.of_nat STRIDE) = Ok s /\
    natural_spline K (fun k => x0 + dx * INR k) (value Y STRIDE) F /\
    forall x, (INT_MIN <= Ztrunc ((x - x0) / dx) <= INT_MAX)%Z -> spl_at Rn (oreal Rn) Rtoint (Z.of_nat K) s x = Ok (F x).
Proof.
  intros K STRIDE Y x0 dx HK Hd HL HI. destruct (C63_natural K STRIDE Y x0 dx HK HL HI) as (s & F & E & N & A).
  exists s, (fun x => F ((x - x0) / dx)). split; [exact E|]. split; [apply natural_affine; auto|]. exact A.
Qed.
Print Assumptions C63_natural_x.

(** C63: the knots: operator()(x0 + k dx) is Y[k*STRIDE], for dx of either sign *)
Theorem C63_knots : forall (K STRIDE : nat) (Y : list R) (x0 dx : R), (2 <= K)%nat -> dx <> 0 -> (Z.of_nat K <= INT_MAX)%Z ->
  ((K - 1) * STRIDE < length Y)%nat -> (Z.of_nat ((K - 1) * STRIDE) <= INT_MAX)%Z ->
  exists s, spl_new Rn (oreal Rn) (Z.of_nat K) Y x0 dx (Z.of_nat STRIDE) = Ok s /\
    forall k, (k < K)%nat -> spl_at Rn (oreal Rn) Rtoint (Z.of_nat K) s (x0 + INR k * dx) = Ok (nth (k * STRIDE) Y 0).
Proof.
  intros K STRIDE Y x0 dx HK Hd HI1 HL HI. destruct (C63_natural K STRIDE Y x0 dx HK HL HI) as (s & F & E & (N & _) & A).
  exists s. split; [exact E|]. intros k Hk. assert (T : (x0 + INR k * dx - x0) / dx = INR k) by (field; auto).
  rewrite A, T; [f_equal; apply N; auto|]. rewrite T, INR_IZR_INZ, Ztrunc_IZR. unfold INT_MIN, INT_MAX in *. lia.
Qed.
Print Assumptions C63_knots.

(** C63: values on a straight line give that line, inside and outside the knots *)
Theorem C63_linear : forall (K STRIDE : nat) (Y : list R) (x0 dx p q : R), (2 <= K)%nat -> dx <> 0 ->
  ((K - 1) * STRIDE < length Y)%nat -> (Z.of_nat ((K - 1) * STRIDE) <= INT_MAX)%Z ->
  (forall k, (k < K)%nat -> nth (k * STRIDE) Y 0 = p + q * (x0 + INR k * dx)) ->
  exists s, spl_new Rn (oreal Rn) (Z.of_nat K) Y x0 dx (Z.of_nat STRIDE) = Ok s /\
    forall x, (INT_MIN <= Ztrunc ((x - x0) / dx) <= INT_MAX)%Z ->
      spl_at Rn (oreal Rn) Rtoint (Z.of_nat K) s x = Ok (p + q * x).
Proof.
  intros K STRIDE Y x0 dx p q HK Hd HL HI HLin. pose proof (yat_value Y K STRIDE 0 HL HI) as HY. fold (value Y STRIDE) in HY.
  destruct (new_ok K (value Y STRIDE) HK Y (Z.of_nat STRIDE) HY x0 dx) as (s & E & E0 & E1 & R). exists s.
  split; [exact E|]. intros x Hx. rewrite <- E0, <- E1 in Hx. rewrite (at_ok K (value Y STRIDE) HK s x R Hx). f_equal. rewrite E0, E1.
  rewrite (NS_linear K (value Y STRIDE) HK (p + q * x0) (q * dx)); [field; auto|].
  intros k Hk. unfold value. rewrite HLin by auto. ring.
Qed.
Print Assumptions C63_linear.

(** C63: complex values: real and imaginary part are the natural splines of the real and imaginary parts *)
Theorem C63_complex : forall (K STRIDE : nat) (Y : list (cplx R)) (x0 dx : R), (2 <= K)%nat ->
  ((K - 1) * STRIDE < length Y)%nat -> (Z.of_nat ((K - 1) * STRIDE) <= INT_MAX)%Z ->
  exists s Fr Fi, spl_new Rn (ocplx Rn) (Z.of_nat K) Y x0 dx (Z.of_nat STRIDE) = Ok s /\
    natural_spline K INR (value (map creal Y) STRIDE) Fr /\ natural_spline K INR (value (map cimag Y) STRIDE) Fi /\
    forall x, (INT_MIN <= Ztrunc ((x - x0) / dx) <= INT_MAX)%Z ->
      spl_at Rn (ocplx Rn) Rtoint (Z.of_nat K) s x = Ok (Fr ((x - x0) / dx), Fi ((x - x0) / dx)).
Proof.
  intros K STRIDE Y x0 dx HK HL HI.
  destruct (C63_natural K STRIDE (map creal Y) x0 dx HK) as (sr & Fr & Er & Nr & Ar); [rewrite map_length; auto|auto|].
  destruct (C63_natural K STRIDE (map cimag Y) x0 dx HK) as (si & Fi & Ei & Ni & Ai); [rewrite map_length; auto|auto|].
  destruct (cplx_new Rn Rtoint _ _ _ _ _ _ _ Er Ei) as (s & E & A). exists s, Fr, Fi. split; [exact E|]. split; [exact Nr|]. split; [exact Ni|].
  intros x Hx. apply A; [apply Ar|apply Ai]; auto.
Qed.
Print Assumptions C63_complex.

(** C63: array safety, for any arithmetic (rounding, NaN, infinities, dx = 0): whenever the conversion of
    (x - x0) / dx to int is defined, a written coefficient is used *)
Theorem C63_safe : forall (T V : Type) (M : num T) (OV : ovs T V) (toint : T -> outcome Z) (K STRIDE : nat) (Y : list V) (x0 dx : T), (2 <= K)%nat ->
  ((K - 1) * STRIDE < length Y)%nat -> (Z.of_nat ((K - 1) * STRIDE) <= INT_MAX)%Z ->
  exists s, spl_new M OV (Z.of_nat K) Y x0 dx (Z.of_nat STRIDE) = Ok s /\
    forall x k, toint (ndiv M (nsub M x x0) dx) = Ok k -> exists v, spl_at M OV toint (Z.of_nat K) s x = Ok v.
Proof.
  intros T V M OV toint K STRIDE Y x0 dx HK HL HI.
  destruct (natural_safe M OV toint (Z.of_nat K) (Z.of_nat STRIDE) Y) with (x0 := x0) (dx := dx) as (s & E & _ & _ & A); [lia| |eauto].
  intros i Hi. destruct Y as [|d Y']; [cbn in HL; lia|]. exists (nth (Z.to_nat i * STRIDE) (d :: Y') d). rewrite <- (Z2Nat.id i) at 1 by lia.
  apply yat_value with (K := K); auto. lia.
Qed.
Print Assumptions C63_safe.

(** a concrete spline: values 0, 1, 0 at -1, 0, 1 *)
Example C63_ex : exists s, spl_new Rn (oreal Rn) 3 [0; 1; 0] (-1) 1 1 = Ok s /\
  spl_at Rn (oreal Rn) Rtoint 3 s 0 = Ok 1 /\ spl_at Rn (oreal Rn) Rtoint 3 s (1 / 2) = Ok (11 / 16).
Proof.
  eexists. split; [cbn; reflexivity|]. cbv [spl_at Rtoint nsub ndiv Rn oreal vreal ov_ops vadd vscale nadd nmul nofZ sp_x0 sp_dx sp_coef].
  replace ((0 - -1) / 1) with (IZR 1) by field. replace ((1 / 2 - -1) / 1) with (3 / 2) by field. rewrite Ztrunc_IZR.
  assert (Ztrunc (3 / 2) = 1%Z) as -> by (rewrite Ztrunc_floor by lra; apply Zfloor_imp; cbn; lra).
  lazy -[Rplus Rminus Rmult Rdiv IZR Rinv Ropp]. split; f_equal; field.
Qed.
(** outside the range of int the conversion is undefined *)
Example C63_range : exists s, spl_new Rn (oreal Rn) 3 [0; 1; 0] 0 1 1 = Ok s /\ spl_at Rn (oreal Rn) Rtoint 3 s 3000000000 = Undefined.
Proof.
  eexists. split; [cbn; reflexivity|]. cbv [spl_at Rtoint nsub ndiv Rn sp_x0 sp_dx].
  replace ((3000000000 - 0) / 1) with (IZR 3000000000) by field. rewrite Ztrunc_IZR. reflexivity.
Qed.

(** C64: for n >= 3 points with increasing X, eval(X, Y, x, n) is, for every x, the cubic Hermite spline:
    takes Y[k] at X[k], continuously differentiable, cubic on every piece (the end pieces continue
    outwards), with the finite difference tangents *)
Theorem C64_hermite : forall (n : nat) (X Y : list R), (3 <= n)%nat -> (n <= length X)%nat -> (n <= length Y)%nat ->
  (forall k, (k < n - 1)%nat -> nth k X 0 < nth (S k) X 0) ->
  exists F, hermite_spline n (fun k => nth k X 0) (fun k => nth k Y 0) F /\
    forall x, hx_at Rn (oreal Rn) X Y x (Z.of_nat n) = Ok (F x).
Proof.
  intros n X Y Hn LX LY I. exists (HS n (fun k => nth k X 0) (fun k => nth k Y 0)). split; [apply HS_hermite; auto|]. intros x.
  apply hx_at_ok; auto; intros i Hi; apply get_Some; rewrite znth_nth_error; apply nth_error_nth'; lia.
Qed.
Print Assumptions C64_hermite.
Theorem C64_hermite_linear : forall (n : nat) (X Y : list R) (p q : R), (3 <= n)%nat -> (n <= length X)%nat -> (n <= length Y)%nat ->
  (forall k, (k < n - 1)%nat -> nth k X 0 < nth (S k) X 0) ->
  (forall k, (k < n)%nat -> nth k Y 0 = p + q * nth k X 0) ->
  forall x, hx_at Rn (oreal Rn) X Y x (Z.of_nat n) = Ok (p + q * x).
Proof.
  intros n X Y p q Hn LX LY I L x. rewrite <- (HS_linear n (fun k => nth k X 0) (fun k => nth k Y 0) Hn I p q L x).
  apply hx_at_ok; auto; intros i Hi; apply get_Some; rewrite znth_nth_error; apply nth_error_nth'; lia.
Qed.
Print Assumptions C64_hermite_linear.

(** C64: eval(Y, x, n, x0, dx), in the coordinate (x - x0) / dx *)
Theorem C64_uniform : forall (n : nat) (Y : list R) (x0 dx : R), (3 <= n)%nat -> (n <= length Y)%nat ->
  exists F, hermite_spline n INR (fun k => nth k Y 0) F /\
    forall x, (INT_MIN <= Ztrunc ((x - x0) / dx) <= INT_MAX)%Z ->
      hu_at Rn (oreal Rn) Rtoint Y x (Z.of_nat n) x0 dx = Ok (F ((x - x0) / dx)).
Proof.
  intros n Y x0 dx Hn LY. exists (HS n INR (fun k => nth k Y 0)). split; [apply HS_hermite; auto; intros; apply lt_INR; lia|]. intros x Hx.
  apply hu_at_ok; auto. intros i Hi; apply get_Some; rewrite znth_nth_error; apply nth_error_nth'; lia.
Qed.
Print Assumptions C64_uniform.
(** C64: the same in the coordinate x for dx > 0: both overloads describe the same curve *)
Theorem C64_uniform_x : forall (n : nat) (Y : list R) (x0 dx : R), (3 <= n)%nat -> (n <= length Y)%nat -> 0 < dx ->
  exists F, hermite_spline n (fun k => x0 + dx * INR k) (fun k => nth k Y 0) F /\
    forall x, (INT_MIN <= Ztrunc ((x - x0) / dx) <= INT_MAX)%Z -> hu_at Rn (oreal Rn) Rtoint Y x (Z.of_nat n) x0 dx = Ok (F x).
Proof.
  intros n Y x0 dx Hn LY Hd. destruct (C64_uniform n Y x0 dx Hn LY) as (F & H & E). exists (fun x => F ((x - x0) / dx)).
  split; [apply hermite_affine; auto|exact E].
Qed.
Print Assumptions C64_uniform_x.
Theorem C64_uniform_linear : forall (n : nat) (Y : list R) (x0 dx p q : R), (3 <= n)%nat -> (n <= length Y)%nat -> dx <> 0 ->
  (forall k, (k < n)%nat -> nth k Y 0 = p + q * (x0 + INR k * dx)) ->
  forall x, (INT_MIN <= Ztrunc ((x - x0) / dx) <= INT_MAX)%Z -> hu_at Rn (oreal Rn) Rtoint Y x (Z.of_nat n) x0 dx = Ok (p + q * x).
Proof.
  intros n Y x0 dx p q Hn LY Hd L x Hx. rewrite (hu_at_ok n (fun k => nth k Y 0) Hn Y); auto.
  - f_equal. rewrite (HS_linear n INR (fun k => nth k Y 0) Hn ltac:(intros; apply lt_INR; lia) (p + q * x0) (q * dx)); [field; auto|].
    intros k Hk. rewrite L by auto. ring.
  - intros i Hi; apply get_Some; rewrite znth_nth_error; apply nth_error_nth'; lia.
Qed.
Print Assumptions C64_uniform_linear.

(** C64: complex values, by components *)
Theorem C64_complex : forall (n : nat) (X : list R) (Y : list (cplx R)), (3 <= n)%nat -> (n <= length X)%nat -> (n <= length Y)%nat ->
  (forall k, (k < n - 1)%nat -> nth k X 0 < nth (S k) X 0) ->
  exists Fr Fi, hermite_spline n (fun k => nth k X 0) (fun k => nth k (map creal Y) 0) Fr /\
    hermite_spline n (fun k => nth k X 0) (fun k => nth k (map cimag Y) 0) Fi /\
    forall x, hx_at Rn (ocplx Rn) X Y x (Z.of_nat n) = Ok (Fr x, Fi x).
Proof.
  intros n X Y Hn LX LY I. destruct (C64_hermite n X (map creal Y) Hn LX) as (Fr & Hr & Er); [rewrite map_length; auto|auto|].
  destruct (C64_hermite n X (map cimag Y) Hn LX) as (Fi & Hi & Ei); [rewrite map_length; auto|auto|].
  exists Fr, Fi. split; [exact Hr|]. split; [exact Hi|]. intros x. apply cplx_hx; auto.
Qed.
Print Assumptions C64_complex.

(** C64: no access outside X[0..n-1], Y[0..n-1] for n >= 3, any arithmetic, any contents of X (sorted or not) *)
Theorem C64_safe : forall (T V : Type) (M : num T) (OV : ovs T V) (toint : T -> outcome Z) (n : nat) (X : list T) (Y : list V),
  (3 <= n)%nat -> length X = n -> length Y = n ->
  (forall x, exists v, hx_at M OV X Y x (Z.of_nat n) = Ok v) /\
  (forall x x0 dx k, toint (ndiv M (nsub M x x0) dx) = Ok k -> exists v, hu_at M OV toint Y x (Z.of_nat n) x0 dx = Ok v).
Proof.
  intros T V M OV toint n X Y Hn LX LY. assert (H3 : (3 <= Z.of_nat n)%Z) by lia.
  assert (H1 : (Z.of_nat n <= zlen X)%Z) by (unfold zlen; lia). assert (H2 : (Z.of_nat n <= zlen Y)%Z) by (unfold zlen; lia).
  split; [intros x; apply hermite_safe; auto|]. intros. eapply hermite_uniform_safe; eauto.
Qed.
Print Assumptions C64_safe.

(** with n = 2 both overloads read past the end *)
Example C64_two_points_refuted :
  hx_at Rn (oreal Rn) [0; 1] [0; 1] (1 / 2) 2 = Undefined /\ hu_at Rn (oreal Rn) Rtoint [0; 1] (1 / 2) 2 0 1 = Undefined.
Proof.
  split.
  - assert (E : lower_bound Rn (Z.to_nat 2) [0; 1] 0 2 (1 / 2) = Ok 1%Z).
    { lazy -[Rlt_bool Rdiv IZR]. rewrite (Rlt_bool_false 1), (Rlt_bool_true 0) by lra. reflexivity. }
    unfold hx_at. rewrite E. reflexivity.
  - unfold hu_at, Rtoint. cbn [nsub ndiv Rn]. replace ((1 / 2 - 0) / 1) with (1 / 2) by field.
    assert (Ztrunc (1 / 2) = 0%Z) as -> by (rewrite Ztrunc_floor by lra; apply Zfloor_imp; cbn; lra). reflexivity.
Qed.
(** a concrete case: unequally spaced points *)
Example C64_ex : (forall k, (k < 3 - 1)%nat -> nth k [0; 1; 3] 0 < nth (S k) [0; 1; 3] 0) /\
  hx_at Rn (oreal Rn) [0; 1; 3] [0; 1; 5] 2 3 = Ok (23 / 8).
Proof.
  split; [intros [|[|k]] H; cbn; try lra; lia|].
  assert (E : lower_bound Rn (Z.to_nat 3) [0; 1; 3] 0 3 2 = Ok 2%Z).
  { lazy -[Rlt_bool IZR]. rewrite (Rlt_bool_true 1), (Rlt_bool_false 3) by lra. reflexivity. }
  unfold hx_at. rewrite E. cbn [bind]. lazy -[Rplus Rminus Rmult Rdiv IZR Rinv Ropp Q2R]. f_equal. lra.
Qed.
