(* Operations of the IEEE formats on finite numbers are those of the rounding model while nothing overflows *)
From Coq Require Import ZArith Reals Lia Lra.
From Flocq Require Import Core BinarySingleNaN.
From Verif Require Import Model.Num Model.NumIeee Spec.Rounding.
Open Scope R_scope.

Section Rep.
Context (prec emax : Z) {Hp : Prec_gt_0 prec} {Hpe : Prec_lt_emax prec emax}.
Notation bf := (binary_float prec emax).
Notation fexp := (SpecFloat.fexp prec emax).
Definition brnd : R -> R := round radix2 fexp ZnearestE.
Notation F := (Fn brnd). Notation B := (Bn prec emax).
Definition rep (b : bf) (x : R) : Prop := is_finite b = true /\ B2R b = x.
Definition small (x : R) : Prop := Rabs x < bpow radix2 emax.
Definition fits (x : R) : Prop := small (brnd x).

Lemma rep_add a b x y : rep a x -> rep b y -> fits (x + y) -> rep (nadd B a b) (nadd F x y).
Proof.
  intros [A <-] [C <-] H. pose proof (Bplus_correct prec emax _ _ mode_NE a b A C) as P. cbn [round_mode] in P. unfold fits, small, brnd in H.
  rewrite (Rlt_bool_true _ _ H) in P. destruct P as (P1 & P2 & _). split; auto.
Qed.
Lemma rep_sub a b x y : rep a x -> rep b y -> fits (x - y) -> rep (nsub B a b) (nsub F x y).
Proof.
  intros [A <-] [C <-] H. pose proof (Bminus_correct prec emax _ _ mode_NE a b A C) as P. cbn [round_mode] in P. unfold fits, small, brnd in H.
  rewrite (Rlt_bool_true _ _ H) in P. destruct P as (P1 & P2 & _). split; auto.
Qed.
Lemma rep_mul a b x y : rep a x -> rep b y -> fits (x * y) -> rep (nmul B a b) (nmul F x y).
Proof.
  intros [A <-] [C <-] H. pose proof (Bmult_correct prec emax _ _ mode_NE a b) as P. cbn [round_mode] in P. unfold fits, small, brnd in H.
  rewrite (Rlt_bool_true _ _ H) in P. destruct P as (P1 & P2 & _). split; auto. cbn [nmul Bn]. rewrite P2, A, C. reflexivity.
Qed.
Lemma rep_div a b x y : rep a x -> rep b y -> y <> 0 -> fits (x / y) -> rep (ndiv B a b) (ndiv F x y).
Proof.
  intros [A <-] [C <-] Z H. pose proof (Bdiv_correct prec emax _ _ mode_NE a b Z) as P. cbn [round_mode] in P. unfold fits, small, brnd in H.
  rewrite (Rlt_bool_true _ _ H) in P. destruct P as (P1 & P2 & _). split; auto. cbn [ndiv Bn]. rewrite P2, A. reflexivity.
Qed.
Lemma rep_opp a x : rep a x -> rep (nopp B a) (nopp F x).
Proof. intros [A <-]. split; cbn [nopp Bn Fn]; [rewrite is_finite_Bopp; auto|apply B2R_Bopp]. Qed.
Lemma rep_abs a x : rep a x -> rep (nabs B a) (nabs F x).
Proof. intros [A <-]. split; cbn [nabs Bn Fn]; [rewrite is_finite_Babs; auto|apply B2R_Babs]. Qed.
Lemma rep_sqrt a x : rep a x -> 0 <= x -> rep (nsqrt B a) (nsqrt F x).
Proof.
  intros [A <-] H. pose proof (Bsqrt_correct prec emax _ _ mode_NE a) as (P1 & P2 & _). split; cbn [nsqrt Bn Fn]; auto. rewrite P2. destruct a; auto; try discriminate A.
  destruct s; auto. exfalso. assert (B2R (B754_finite true m e e0) < 0) by (apply F2R_lt_0; reflexivity). lra.
Qed.
Lemma rep_0 : rep (n0 B) (n0 F). Proof. split; reflexivity. Qed.
Lemma rep_1 : rep (n1 B) (n1 F). Proof. split; [apply is_finite_Bone|apply Bone_correct]. Qed.
Lemma rep_ofZ z : fits (IZR z) -> rep (nofZ B z) (nofZ F z).
Proof.
  intros H. pose proof (binary_normalize_correct prec emax _ _ mode_NE z 0 false) as P. cbn [round_mode] in P.
  replace (F2R (Float radix2 z 0)) with (IZR z) in P by (unfold F2R; cbn; ring). cbv zeta in P. unfold fits, small, brnd in H. rewrite (Rlt_bool_true _ _ H) in P.
  destruct P as (P1 & P2 & _). split; auto.
Qed.
Lemma rep_lit x : fits x -> rep (nlit B x) (nlit F x).
Proof.
  intros H. set (m := ZnearestE (scaled_mantissa radix2 fexp x)). set (e := cexp radix2 fexp x).
  pose proof (binary_normalize_correct prec emax _ _ mode_NE m e (Rlt_bool x 0)) as P. cbn [round_mode] in P. cbv zeta in P.
  assert (E : F2R (Float radix2 m e) = brnd x) by reflexivity. rewrite E in P.
  assert (G : round radix2 fexp ZnearestE (brnd x) = brnd x).
  { apply round_generic; [apply valid_rnd_N|]. apply generic_format_round; [apply fexp_correct; auto|apply valid_rnd_N]. }
  rewrite G in P. unfold fits, small in H. rewrite (Rlt_bool_true _ _ H) in P. destruct P as (P1 & P2 & _). split; auto.
Qed.
Lemma rep_ltb a b x y : rep a x -> rep b y -> nltb B a b = nltb F x y.
Proof. intros [A <-] [C <-]. apply Bltb_correct; auto. Qed.
Lemma rep_leb a b x y : rep a x -> rep b y -> nleb B a b = nleb F x y.
Proof. intros [A <-] [C <-]. apply Bleb_correct; auto. Qed.
Lemma rep_eqb a b x y : rep a x -> rep b y -> neqb B a b = neqb F x y.
Proof. intros [A <-] [C <-]. apply Beqb_correct; auto. Qed.
End Rep.
