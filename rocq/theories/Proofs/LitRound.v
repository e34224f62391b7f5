(* The literals of the sources, rounded: values in the three formats, and rounding twice (lemmas written by a program) *)
From Coq Require Import Reals ZArith Lia Lra.
From Interval Require Import Tactic.
From Flocq Require Import Core.
From Verif Require Import Model.Const Model.UnitCircle Model.Atan2 Model.Exp Model.TestPrograms Model.Literals Props.PFftRound.
Open Scope R_scope.

Lemma round_is (emin p m k : Z) (x : R) : (0 < p)%Z -> (0 <= k)%Z -> (emin <= - k)%Z ->
  IZR (2 ^ (p - 1)) <= Rabs (x * IZR (2 ^ k)) < IZR (2 ^ p) -> Rabs (x * IZR (2 ^ k) - IZR m) < / 2 ->
  round radix2 (FLT_exp emin p) ZnearestE x = IZR m / IZR (2 ^ k).
Proof.
  intros Hp Hk He B D.
  assert (E : IZR (2 ^ k) = bpow radix2 k) by (rewrite <- IZR_Zpower; auto).
  assert (P : 0 < bpow radix2 k) by apply bpow_gt_0.
  assert (I : bpow radix2 (- k) = / bpow radix2 k) by apply bpow_opp.
  assert (C : cexp radix2 (FLT_exp emin p) x = (- k)%Z).
  { unfold cexp. rewrite (mag_unique radix2 x (p - k)).
    - unfold FLT_exp. lia.
    - change 2%Z with (radix_val radix2) in B. rewrite !IZR_Zpower in B by lia. rewrite Rabs_mult, (Rabs_pos_eq (bpow radix2 k)) in B by lra.
      replace (p - k - 1)%Z with (p - 1 + - k)%Z by lia. unfold Z.sub at 2. rewrite !bpow_plus, I. split.
      + apply (Rmult_le_reg_r (bpow radix2 k)); auto. rewrite Rmult_assoc, Rinv_l by lra. lra.
      + apply (Rmult_lt_reg_r (bpow radix2 k)); auto. rewrite Rmult_assoc, Rinv_l by lra. lra. }
  unfold round, scaled_mantissa. rewrite C, Z.opp_involutive, <- E. rewrite (Znearest_imp _ _ m) by exact D. unfold F2R. cbn [Fnum Fexp]. rewrite I, E. reflexivity.
Qed.
Ltac numerals := repeat match goal with |- context [(2 ^ ?k)%Z] => let v := eval vm_compute in (2 ^ k)%Z in progress change (2 ^ k)%Z with v end.
Ltac rabs := match goal with |- context [Rabs ?e] => first [rewrite (Rabs_pos_eq e) by lra | rewrite (Rabs_left e) by lra] end.
Ltac rd x := try unfold x; apply round_is; [reflexivity|lia|lia|
  change (64 - 1)%Z with 63%Z; change (53 - 1)%Z with 52%Z; change (24 - 1)%Z with 23%Z; numerals; rabs; lra|
  numerals; apply Rabs_def1; lra].
Ltac ri := apply round_is; [reflexivity|lia|lia|
  change (64 - 1)%Z with 63%Z; change (53 - 1)%Z with 52%Z; change (24 - 1)%Z with 23%Z; numerals; split; interval with (i_prec 120)|
  numerals; interval with (i_prec 120)].

Lemma l32_EighthPi_lit : rnd32 EighthPi_lit = (IZR 13176795 / IZR (2 ^ 25))%R. Proof. rd EighthPi_lit. Qed.
Lemma l64_EighthPi_lit : rnd64 EighthPi_lit = (IZR 7074237752028440 / IZR (2 ^ 54))%R. Proof. rd EighthPi_lit. Qed.
Lemma l80_EighthPi_lit : rnd80 EighthPi_lit = (IZR 14488038916154245685 / IZR (2 ^ 65))%R. Proof. rd EighthPi_lit. Qed.
Lemma t32_EighthPi_lit : rnd32 (rnd80 EighthPi_lit) = rnd32 EighthPi_lit. Proof. rewrite l80_EighthPi_lit, l32_EighthPi_lit. rd EighthPi_lit. Qed.
Lemma t64_EighthPi_lit : rnd64 (rnd80 EighthPi_lit) = rnd64 EighthPi_lit. Proof. rewrite l80_EighthPi_lit, l64_EighthPi_lit. rd EighthPi_lit. Qed.
Lemma l32_FourthPi_lit : rnd32 FourthPi_lit = (IZR 13176795 / IZR (2 ^ 24))%R. Proof. rd FourthPi_lit. Qed.
Lemma l64_FourthPi_lit : rnd64 FourthPi_lit = (IZR 7074237752028440 / IZR (2 ^ 53))%R. Proof. rd FourthPi_lit. Qed.
Lemma l80_FourthPi_lit : rnd80 FourthPi_lit = (IZR 14488038916154245685 / IZR (2 ^ 64))%R. Proof. rd FourthPi_lit. Qed.
Lemma t32_FourthPi_lit : rnd32 (rnd80 FourthPi_lit) = rnd32 FourthPi_lit. Proof. rewrite l80_FourthPi_lit, l32_FourthPi_lit. rd FourthPi_lit. Qed.
Lemma t64_FourthPi_lit : rnd64 (rnd80 FourthPi_lit) = rnd64 FourthPi_lit. Proof. rewrite l80_FourthPi_lit, l64_FourthPi_lit. rd FourthPi_lit. Qed.
Lemma l32_HalfPi_lit : rnd32 HalfPi_lit = (IZR 13176795 / IZR (2 ^ 23))%R. Proof. rd HalfPi_lit. Qed.
Lemma l64_HalfPi_lit : rnd64 HalfPi_lit = (IZR 7074237752028440 / IZR (2 ^ 52))%R. Proof. rd HalfPi_lit. Qed.
Lemma l80_HalfPi_lit : rnd80 HalfPi_lit = (IZR 14488038916154245685 / IZR (2 ^ 63))%R. Proof. rd HalfPi_lit. Qed.
Lemma t32_HalfPi_lit : rnd32 (rnd80 HalfPi_lit) = rnd32 HalfPi_lit. Proof. rewrite l80_HalfPi_lit, l32_HalfPi_lit. rd HalfPi_lit. Qed.
Lemma t64_HalfPi_lit : rnd64 (rnd80 HalfPi_lit) = rnd64 HalfPi_lit. Proof. rewrite l80_HalfPi_lit, l64_HalfPi_lit. rd HalfPi_lit. Qed.
Lemma l32_Pi_lit : rnd32 Pi_lit = (IZR 13176795 / IZR (2 ^ 22))%R. Proof. rd Pi_lit. Qed.
Lemma l64_Pi_lit : rnd64 Pi_lit = (IZR 7074237752028440 / IZR (2 ^ 51))%R. Proof. rd Pi_lit. Qed.
Lemma l80_Pi_lit : rnd80 Pi_lit = (IZR 14488038916154245685 / IZR (2 ^ 62))%R. Proof. rd Pi_lit. Qed.
Lemma t32_Pi_lit : rnd32 (rnd80 Pi_lit) = rnd32 Pi_lit. Proof. rewrite l80_Pi_lit, l32_Pi_lit. rd Pi_lit. Qed.
Lemma t64_Pi_lit : rnd64 (rnd80 Pi_lit) = rnd64 Pi_lit. Proof. rewrite l80_Pi_lit, l64_Pi_lit. rd Pi_lit. Qed.
Lemma l32_TwoPi_lit : rnd32 TwoPi_lit = (IZR 13176795 / IZR (2 ^ 21))%R. Proof. rd TwoPi_lit. Qed.
Lemma l64_TwoPi_lit : rnd64 TwoPi_lit = (IZR 7074237752028440 / IZR (2 ^ 50))%R. Proof. rd TwoPi_lit. Qed.
Lemma l80_TwoPi_lit : rnd80 TwoPi_lit = (IZR 14488038916154245685 / IZR (2 ^ 61))%R. Proof. rd TwoPi_lit. Qed.
Lemma t32_TwoPi_lit : rnd32 (rnd80 TwoPi_lit) = rnd32 TwoPi_lit. Proof. rewrite l80_TwoPi_lit, l32_TwoPi_lit. rd TwoPi_lit. Qed.
Lemma t64_TwoPi_lit : rnd64 (rnd80 TwoPi_lit) = rnd64 TwoPi_lit. Proof. rewrite l80_TwoPi_lit, l64_TwoPi_lit. rd TwoPi_lit. Qed.
Lemma l32_FourPi_lit : rnd32 FourPi_lit = (IZR 13176795 / IZR (2 ^ 20))%R. Proof. rd FourPi_lit. Qed.
Lemma l64_FourPi_lit : rnd64 FourPi_lit = (IZR 7074237752028440 / IZR (2 ^ 49))%R. Proof. rd FourPi_lit. Qed.
Lemma l80_FourPi_lit : rnd80 FourPi_lit = (IZR 14488038916154245685 / IZR (2 ^ 60))%R. Proof. rd FourPi_lit. Qed.
Lemma t32_FourPi_lit : rnd32 (rnd80 FourPi_lit) = rnd32 FourPi_lit. Proof. rewrite l80_FourPi_lit, l32_FourPi_lit. rd FourPi_lit. Qed.
Lemma t64_FourPi_lit : rnd64 (rnd80 FourPi_lit) = rnd64 FourPi_lit. Proof. rewrite l80_FourPi_lit, l64_FourPi_lit. rd FourPi_lit. Qed.
Lemma l32_SqrtPi_lit : rnd32 SqrtPi_lit = (IZR 14868421 / IZR (2 ^ 23))%R. Proof. rd SqrtPi_lit. Qed.
Lemma l64_SqrtPi_lit : rnd64 SqrtPi_lit = (IZR 7982422502469483 / IZR (2 ^ 52))%R. Proof. rd SqrtPi_lit. Qed.
Lemma l80_SqrtPi_lit : rnd80 SqrtPi_lit = (IZR 16348001285057500477 / IZR (2 ^ 63))%R. Proof. rd SqrtPi_lit. Qed.
Lemma t32_SqrtPi_lit : rnd32 (rnd80 SqrtPi_lit) = rnd32 SqrtPi_lit. Proof. rewrite l80_SqrtPi_lit, l32_SqrtPi_lit. rd SqrtPi_lit. Qed.
Lemma t64_SqrtPi_lit : rnd64 (rnd80 SqrtPi_lit) = rnd64 SqrtPi_lit. Proof. rewrite l80_SqrtPi_lit, l64_SqrtPi_lit. rd SqrtPi_lit. Qed.
Lemma l32_SqrtTwoPi_lit : rnd32 SqrtTwoPi_lit = (IZR 10513561 / IZR (2 ^ 22))%R. Proof. rd SqrtTwoPi_lit. Qed.
Lemma l64_SqrtTwoPi_lit : rnd64 SqrtTwoPi_lit = (IZR 5644425081792262 / IZR (2 ^ 51))%R. Proof. rd SqrtTwoPi_lit. Qed.
Lemma l80_SqrtTwoPi_lit : rnd80 SqrtTwoPi_lit = (IZR 11559782567510551731 / IZR (2 ^ 62))%R. Proof. rd SqrtTwoPi_lit. Qed.
Lemma t32_SqrtTwoPi_lit : rnd32 (rnd80 SqrtTwoPi_lit) = rnd32 SqrtTwoPi_lit. Proof. rewrite l80_SqrtTwoPi_lit, l32_SqrtTwoPi_lit. rd SqrtTwoPi_lit. Qed.
Lemma t64_SqrtTwoPi_lit : rnd64 (rnd80 SqrtTwoPi_lit) = rnd64 SqrtTwoPi_lit. Proof. rewrite l80_SqrtTwoPi_lit, l64_SqrtTwoPi_lit. rd SqrtTwoPi_lit. Qed.
Lemma l32_InvSqrtTwo_lit : rnd32 InvSqrtTwo_lit = (IZR 11863283 / IZR (2 ^ 24))%R. Proof. rd InvSqrtTwo_lit. Qed.
Lemma l64_InvSqrtTwo_lit : rnd64 InvSqrtTwo_lit = (IZR 6369051672525773 / IZR (2 ^ 53))%R. Proof. rd InvSqrtTwo_lit. Qed.
Lemma l80_InvSqrtTwo_lit : rnd80 InvSqrtTwo_lit = (IZR 13043817825332782212 / IZR (2 ^ 64))%R. Proof. rd InvSqrtTwo_lit. Qed.
Lemma t32_InvSqrtTwo_lit : rnd32 (rnd80 InvSqrtTwo_lit) = rnd32 InvSqrtTwo_lit. Proof. rewrite l80_InvSqrtTwo_lit, l32_InvSqrtTwo_lit. rd InvSqrtTwo_lit. Qed.
Lemma t64_InvSqrtTwo_lit : rnd64 (rnd80 InvSqrtTwo_lit) = rnd64 InvSqrtTwo_lit. Proof. rewrite l80_InvSqrtTwo_lit, l64_InvSqrtTwo_lit. rd InvSqrtTwo_lit. Qed.
Definition casc2 : R := 0.6435942529055826247354434374182098089242027424440076511561520093520.
Lemma l32_casc2 : rnd32 casc2 = (IZR 10797720 / IZR (2 ^ 24))%R. Proof. rd casc2. Qed.
Lemma l64_casc2 : rnd64 casc2 = (IZR 5796981675126749 / IZR (2 ^ 53))%R. Proof. rd casc2. Qed.
Lemma l80_casc2 : rnd80 casc2 = (IZR 11872218470659582654 / IZR (2 ^ 64))%R. Proof. rd casc2. Qed.
Lemma t32_casc2 : rnd32 (rnd80 casc2) = rnd32 casc2. Proof. rewrite l80_casc2, l32_casc2. rd casc2. Qed.
Lemma t64_casc2 : rnd64 (rnd80 casc2) = rnd64 casc2. Proof. rewrite l80_casc2, l64_casc2. rd casc2. Qed.
Definition casc3 : R := 0.5098245285339585980866134620415975171004662971729213347866667412748.
Lemma l32_casc3 : rnd32 casc3 = (IZR 8553436 / IZR (2 ^ 24))%R. Proof. rd casc3. Qed.
Lemma l64_casc3 : rnd64 casc3 = (IZR 4592091113459749 / IZR (2 ^ 53))%R. Proof. rd casc3. Qed.
Lemma l80_casc3 : rnd80 casc3 = (IZR 9404602600365566967 / IZR (2 ^ 64))%R. Proof. rd casc3. Qed.
Lemma t32_casc3 : rnd32 (rnd80 casc3) = rnd32 casc3. Proof. rewrite l80_casc3, l32_casc3. rd casc3. Qed.
Lemma t64_casc3 : rnd64 (rnd80 casc3) = rnd64 casc3. Proof. rewrite l80_casc3, l64_casc3. rd casc3. Qed.
Definition casc4 : R := 0.4349794420460822959023617403105260887838801269492020945122292703957.
Lemma l32_casc4 : rnd32 casc4 = (IZR 14595488 / IZR (2 ^ 25))%R. Proof. rd casc4. Qed.
Lemma l64_casc4 : rnd64 casc4 = (IZR 7835893012450250 / IZR (2 ^ 54))%R. Proof. rd casc4. Qed.
Lemma l80_casc4 : rnd80 casc4 = (IZR 16047908889498111902 / IZR (2 ^ 65))%R. Proof. rd casc4. Qed.
Lemma t32_casc4 : rnd32 (rnd80 casc4) = rnd32 casc4. Proof. rewrite l80_casc4, l32_casc4. rd casc4. Qed.
Lemma t64_casc4 : rnd64 (rnd80 casc4) = rnd64 casc4. Proof. rewrite l80_casc4, l64_casc4. rd casc4. Qed.
Definition casc5 : R := 0.3856142567346739149847213965799930737314794827929705449459805476567.
Lemma l32_casc5 : rnd32 casc5 = (IZR 12939067 / IZR (2 ^ 25))%R. Proof. rd casc5. Qed.
Lemma l64_casc5 : rnd64 casc5 = (IZR 6946608891756113 / IZR (2 ^ 54))%R. Proof. rd casc5. Qed.
Lemma l80_casc5 : rnd80 casc5 = (IZR 14226655010316519188 / IZR (2 ^ 65))%R. Proof. rd casc5. Qed.
Lemma t32_casc5 : rnd32 (rnd80 casc5) = rnd32 casc5. Proof. rewrite l80_casc5, l32_casc5. rd casc5. Qed.
Lemma t64_casc5 : rnd64 (rnd80 casc5) = rnd64 casc5. Proof. rewrite l80_casc5, l64_casc5. rd casc5. Qed.
Definition casc6 : R := 0.3499457790992384314823879950215014587750945565870355960474164484675.
Lemma l32_casc6 : rnd32 casc6 = (IZR 11742232 / IZR (2 ^ 25))%R. Proof. rd casc6. Qed.
Lemma l64_casc6 : rnd64 casc6 = (IZR 6304062721404832 / IZR (2 ^ 54))%R. Proof. rd casc6. Qed.
Lemma l80_casc6 : rnd80 casc6 = (IZR 12910720453437096816 / IZR (2 ^ 65))%R. Proof. rd casc6. Qed.
Lemma t32_casc6 : rnd32 (rnd80 casc6) = rnd32 casc6. Proof. rewrite l80_casc6, l32_casc6. rd casc6. Qed.
Lemma t64_casc6 : rnd64 (rnd80 casc6) = rnd64 casc6. Proof. rewrite l80_casc6, l64_casc6. rd casc6. Qed.
Definition casc7 : R := 0.3226290651410878970708971817580301448745259798477682170908870012270.
Lemma l32_casc7 : rnd32 casc7 = (IZR 10825635 / IZR (2 ^ 25))%R. Proof. rd casc7. Qed.
Lemma l64_casc7 : rnd64 casc7 = (IZR 5811968550193180 / IZR (2 ^ 54))%R. Proof. rd casc7. Qed.
Lemma l80_casc7 : rnd80 casc7 = (IZR 11902911590795632097 / IZR (2 ^ 65))%R. Proof. rd casc7. Qed.
Lemma t32_casc7 : rnd32 (rnd80 casc7) = rnd32 casc7. Proof. rewrite l80_casc7, l32_casc7. rd casc7. Qed.
Lemma t64_casc7 : rnd64 (rnd80 casc7) = rnd64 casc7. Proof. rewrite l80_casc7, l64_casc7. rd casc7. Qed.
Definition casc8 : R := 0.3008450309798346315492310951214492771360484456002599192820777432131.
Lemma l32_casc8 : rnd32 casc8 = (IZR 10094684 / IZR (2 ^ 25))%R. Proof. rd casc8. Qed.
Lemma l64_casc8 : rnd64 casc8 = (IZR 5419542277668194 / IZR (2 ^ 54))%R. Proof. rd casc8. Qed.
Lemma l80_casc8 : rnd80 casc8 = (IZR 11099222584664461900 / IZR (2 ^ 65))%R. Proof. rd casc8. Qed.
Lemma t32_casc8 : rnd32 (rnd80 casc8) = rnd32 casc8. Proof. rewrite l80_casc8, l32_casc8. rd casc8. Qed.
Lemma t64_casc8 : rnd64 (rnd80 casc8) = rnd64 casc8. Proof. rewrite l80_casc8, l64_casc8. rd casc8. Qed.
Definition casc9 : R := 0.2829482972069387977799123584440613415063420296903386876512703264517.
Lemma l32_casc9 : rnd32 casc9 = (IZR 9494169 / IZR (2 ^ 25))%R. Proof. rd casc9. Qed.
Lemma l64_casc9 : rnd64 casc9 = (IZR 5097143383465144 / IZR (2 ^ 54))%R. Proof. rd casc9. Qed.
Lemma l80_casc9 : rnd80 casc9 = (IZR 10438949649336614288 / IZR (2 ^ 65))%R. Proof. rd casc9. Qed.
Lemma t32_casc9 : rnd32 (rnd80 casc9) = rnd32 casc9. Proof. rewrite l80_casc9, l32_casc9. rd casc9. Qed.
Lemma t64_casc9 : rnd64 (rnd80 casc9) = rnd64 casc9. Proof. rewrite l80_casc9, l64_casc9. rd casc9. Qed.
Definition casc10 : R := 0.2679056970956257290860485974661891235831324413057223464282157983007.
Lemma l32_casc10 : rnd32 casc10 = (IZR 8989423 / IZR (2 ^ 25))%R. Proof. rd casc10. Qed.
Lemma l64_casc10 : rnd64 casc10 = (IZR 4826159990441172 / IZR (2 ^ 54))%R. Proof. rd casc10. Qed.
Lemma l80_casc10 : rnd80 casc10 = (IZR 9883975660423520305 / IZR (2 ^ 65))%R. Proof. rd casc10. Qed.
Lemma t32_casc10 : rnd32 (rnd80 casc10) = rnd32 casc10. Proof. rewrite l80_casc10, l32_casc10. rd casc10. Qed.
Lemma t64_casc10 : rnd64 (rnd80 casc10) = rnd64 casc10. Proof. rewrite l80_casc10, l64_casc10. rd casc10. Qed.
Definition casc11 : R := 0.2550315459702243937103098780342370981449477556708628034249027758407.
Lemma l32_casc11 : rnd32 casc11 = (IZR 8557439 / IZR (2 ^ 25))%R. Proof. rd casc11. Qed.
Lemma l64_casc11 : rnd64 casc11 = (IZR 4594239901596896 / IZR (2 ^ 54))%R. Proof. rd casc11. Qed.
Lemma l80_casc11 : rnd80 casc11 = (IZR 9409003318470443829 / IZR (2 ^ 65))%R. Proof. rd casc11. Qed.
Lemma t32_casc11 : rnd32 (rnd80 casc11) = rnd32 casc11. Proof. rewrite l80_casc11, l32_casc11. rd casc11. Qed.
Lemma t64_casc11 : rnd64 (rnd80 casc11) = rnd64 casc11. Proof. rewrite l80_casc11, l64_casc11. rd casc11. Qed.
Definition casc12 : R := 0.2438505574307659124524083486415529630644763241448445300317390218311.
Lemma l32_casc12 : rnd32 casc12 = (IZR 16364534 / IZR (2 ^ 26))%R. Proof. rd casc12. Qed.
Lemma l64_casc12 : rnd64 casc12 = (IZR 8785642236634281 / IZR (2 ^ 55))%R. Proof. rd casc12. Qed.
Lemma l80_casc12 : rnd80 casc12 = (IZR 17992995300627007042 / IZR (2 ^ 66))%R. Proof. rd casc12. Qed.
Lemma t32_casc12 : rnd32 (rnd80 casc12) = rnd32 casc12. Proof. rewrite l80_casc12, l32_casc12. rd casc12. Qed.
Lemma t64_casc12 : rnd64 (rnd80 casc12) = rnd64 casc12. Proof. rewrite l80_casc12, l64_casc12. rd casc12. Qed.
Definition casc13 : R := 0.2340215299532217691188557628487431016851279721568792383213019527102.
Lemma l32_casc13 : rnd32 casc13 = (IZR 15704919 / IZR (2 ^ 26))%R. Proof. rd casc13. Qed.
Lemma l64_casc13 : rnd64 casc13 = (IZR 8431514200752023 / IZR (2 ^ 55))%R. Proof. rd casc13. Qed.
Lemma l80_casc13 : rnd80 casc13 = (IZR 17267741083140143966 / IZR (2 ^ 66))%R. Proof. rd casc13. Qed.
Lemma t32_casc13 : rnd32 (rnd80 casc13) = rnd32 casc13. Proof. rewrite l80_casc13, l32_casc13. rd casc13. Qed.
Lemma t64_casc13 : rnd64 (rnd80 casc13) = rnd64 casc13. Proof. rewrite l80_casc13, l64_casc13. rd casc13. Qed.
Definition casc14 : R := 0.2252923404228812762935182605055552181633447787610798690912140601327.
Lemma l32_casc14 : rnd32 casc14 = (IZR 15119113 / IZR (2 ^ 26))%R. Proof. rd casc14. Qed.
Lemma l64_casc14 : rnd64 casc14 = (IZR 8117012003023320 / IZR (2 ^ 55))%R. Proof. rd casc14. Qed.
Lemma l80_casc14 : rnd80 casc14 = (IZR 16623640582191760165 / IZR (2 ^ 66))%R. Proof. rd casc14. Qed.
Lemma t32_casc14 : rnd32 (rnd80 casc14) = rnd32 casc14. Proof. rewrite l80_casc14, l32_casc14. rd casc14. Qed.
Lemma t64_casc14 : rnd64 (rnd80 casc14) = rnd64 casc14. Proof. rewrite l80_casc14, l64_casc14. rd casc14. Qed.
Definition casc15 : R := 0.2174721196397982365782144895603276387766971846333067133969338153904.
Lemma l32_casc15 : rnd32 casc15 = (IZR 14594307 / IZR (2 ^ 26))%R. Proof. rd casc15. Qed.
Lemma l64_casc15 : rnd64 casc15 = (IZR 7835258855786138 / IZR (2 ^ 55))%R. Proof. rd casc15. Qed.
Lemma l80_casc15 : rnd80 casc15 = (IZR 16046610136650010838 / IZR (2 ^ 66))%R. Proof. rd casc15. Qed.
Lemma t32_casc15 : rnd32 (rnd80 casc15) = rnd32 casc15. Proof. rewrite l80_casc15, l32_casc15. rd casc15. Qed.
Lemma t64_casc15 : rnd64 (rnd80 casc15) = rnd64 casc15. Proof. rewrite l80_casc15, l64_casc15. rd casc15. Qed.
Definition casc16 : R := 0.2104133608576552353576644943161359426249259240013118976757629219108.
Lemma l32_casc16 : rnd32 casc16 = (IZR 14120602 / IZR (2 ^ 26))%R. Proof. rd casc16. Qed.
Lemma l64_casc16 : rnd64 casc16 = (IZR 7580940268418479 / IZR (2 ^ 55))%R. Proof. rd casc16. Qed.
Lemma l80_casc16 : rnd80 casc16 = (IZR 15525765669721044199 / IZR (2 ^ 66))%R. Proof. rd casc16. Qed.
Lemma t32_casc16 : rnd32 (rnd80 casc16) = rnd32 casc16. Proof. rewrite l80_casc16, l32_casc16. rd casc16. Qed.
Lemma t64_casc16 : rnd64 (rnd80 casc16) = rnd64 casc16. Proof. rewrite l80_casc16, l64_casc16. rd casc16. Qed.
Lemma l32_db_scale : rnd32 db_scale = (IZR 9107815 / IZR (2 ^ 10))%R. Proof. rd db_scale. Qed.
Lemma l64_db_scale : rnd64 db_scale = (IZR 4889721167171369 / IZR (2 ^ 39))%R. Proof. rd db_scale. Qed.
Lemma l80_db_scale : rnd80 db_scale = (IZR 10014148950366963453 / IZR (2 ^ 50))%R. Proof. rd db_scale. Qed.
Lemma t32_db_scale : rnd32 (rnd80 db_scale) = rnd32 db_scale. Proof. rewrite l80_db_scale, l32_db_scale. rd db_scale. Qed.
Lemma t64_db_scale : rnd64 (rnd80 db_scale) = rnd64 db_scale. Proof. rewrite l80_db_scale, l64_db_scale. rd db_scale. Qed.
Lemma t_EighthPi_lit : rnd32 (rnd64 EighthPi_lit) = rnd32 EighthPi_lit. Proof. rewrite l64_EighthPi_lit, l32_EighthPi_lit. rd EighthPi_lit. Qed.
Lemma t_FourthPi_lit : rnd32 (rnd64 FourthPi_lit) = rnd32 FourthPi_lit. Proof. rewrite l64_FourthPi_lit, l32_FourthPi_lit. rd FourthPi_lit. Qed.
Lemma t_HalfPi_lit : rnd32 (rnd64 HalfPi_lit) = rnd32 HalfPi_lit. Proof. rewrite l64_HalfPi_lit, l32_HalfPi_lit. rd HalfPi_lit. Qed.
Lemma t_Pi_lit : rnd32 (rnd64 Pi_lit) = rnd32 Pi_lit. Proof. rewrite l64_Pi_lit, l32_Pi_lit. rd Pi_lit. Qed.
Lemma t_TwoPi_lit : rnd32 (rnd64 TwoPi_lit) = rnd32 TwoPi_lit. Proof. rewrite l64_TwoPi_lit, l32_TwoPi_lit. rd TwoPi_lit. Qed.
Lemma t_FourPi_lit : rnd32 (rnd64 FourPi_lit) = rnd32 FourPi_lit. Proof. rewrite l64_FourPi_lit, l32_FourPi_lit. rd FourPi_lit. Qed.
Lemma t_SqrtPi_lit : rnd32 (rnd64 SqrtPi_lit) = rnd32 SqrtPi_lit. Proof. rewrite l64_SqrtPi_lit, l32_SqrtPi_lit. rd SqrtPi_lit. Qed.
Lemma t_SqrtTwoPi_lit : rnd32 (rnd64 SqrtTwoPi_lit) = rnd32 SqrtTwoPi_lit. Proof. rewrite l64_SqrtTwoPi_lit, l32_SqrtTwoPi_lit. rd SqrtTwoPi_lit. Qed.
Lemma t_InvSqrtTwo_lit : rnd32 (rnd64 InvSqrtTwo_lit) = rnd32 InvSqrtTwo_lit. Proof. rewrite l64_InvSqrtTwo_lit, l32_InvSqrtTwo_lit. rd InvSqrtTwo_lit. Qed.
Lemma t_casc2 : rnd32 (rnd64 casc2) = rnd32 casc2. Proof. rewrite l64_casc2, l32_casc2. rd casc2. Qed.
Lemma t_casc3 : rnd32 (rnd64 casc3) = rnd32 casc3. Proof. rewrite l64_casc3, l32_casc3. rd casc3. Qed.
Lemma t_casc4 : rnd32 (rnd64 casc4) = rnd32 casc4. Proof. rewrite l64_casc4, l32_casc4. rd casc4. Qed.
Lemma t_casc5 : rnd32 (rnd64 casc5) = rnd32 casc5. Proof. rewrite l64_casc5, l32_casc5. rd casc5. Qed.
Lemma t_casc6 : rnd32 (rnd64 casc6) = rnd32 casc6. Proof. rewrite l64_casc6, l32_casc6. rd casc6. Qed.
Lemma t_casc7 : rnd32 (rnd64 casc7) = rnd32 casc7. Proof. rewrite l64_casc7, l32_casc7. rd casc7. Qed.
Lemma t_casc8 : rnd32 (rnd64 casc8) = rnd32 casc8. Proof. rewrite l64_casc8, l32_casc8. rd casc8. Qed.
Lemma t_casc9 : rnd32 (rnd64 casc9) = rnd32 casc9. Proof. rewrite l64_casc9, l32_casc9. rd casc9. Qed.
Lemma t_casc10 : rnd32 (rnd64 casc10) = rnd32 casc10. Proof. rewrite l64_casc10, l32_casc10. rd casc10. Qed.
Lemma t_casc11 : rnd32 (rnd64 casc11) = rnd32 casc11. Proof. rewrite l64_casc11, l32_casc11. rd casc11. Qed.
Lemma t_casc12 : rnd32 (rnd64 casc12) = rnd32 casc12. Proof. rewrite l64_casc12, l32_casc12. rd casc12. Qed.
Lemma t_casc13 : rnd32 (rnd64 casc13) = rnd32 casc13. Proof. rewrite l64_casc13, l32_casc13. rd casc13. Qed.
Lemma t_casc14 : rnd32 (rnd64 casc14) = rnd32 casc14. Proof. rewrite l64_casc14, l32_casc14. rd casc14. Qed.
Lemma t_casc15 : rnd32 (rnd64 casc15) = rnd32 casc15. Proof. rewrite l64_casc15, l32_casc15. rd casc15. Qed.
Lemma t_casc16 : rnd32 (rnd64 casc16) = rnd32 casc16. Proof. rewrite l64_casc16, l32_casc16. rd casc16. Qed.
Lemma t_db_scale : rnd32 (rnd64 db_scale) = rnd32 db_scale. Proof. rewrite l64_db_scale, l32_db_scale. rd db_scale. Qed.
Lemma c32_EighthPi_lit : rnd32 (PI / 8) = rnd32 EighthPi_lit. Proof. rewrite l32_EighthPi_lit. ri. Qed.
Lemma c64_EighthPi_lit : rnd64 (PI / 8) = rnd64 EighthPi_lit. Proof. rewrite l64_EighthPi_lit. ri. Qed.
Lemma c80_EighthPi_lit : rnd80 (PI / 8) = rnd80 EighthPi_lit. Proof. rewrite l80_EighthPi_lit. ri. Qed.
Lemma c32_FourthPi_lit : rnd32 (PI / 4) = rnd32 FourthPi_lit. Proof. rewrite l32_FourthPi_lit. ri. Qed.
Lemma c64_FourthPi_lit : rnd64 (PI / 4) = rnd64 FourthPi_lit. Proof. rewrite l64_FourthPi_lit. ri. Qed.
Lemma c80_FourthPi_lit : rnd80 (PI / 4) = rnd80 FourthPi_lit. Proof. rewrite l80_FourthPi_lit. ri. Qed.
Lemma c32_HalfPi_lit : rnd32 (PI / 2) = rnd32 HalfPi_lit. Proof. rewrite l32_HalfPi_lit. ri. Qed.
Lemma c64_HalfPi_lit : rnd64 (PI / 2) = rnd64 HalfPi_lit. Proof. rewrite l64_HalfPi_lit. ri. Qed.
Lemma c80_HalfPi_lit : rnd80 (PI / 2) = rnd80 HalfPi_lit. Proof. rewrite l80_HalfPi_lit. ri. Qed.
Lemma c32_Pi_lit : rnd32 (PI) = rnd32 Pi_lit. Proof. rewrite l32_Pi_lit. ri. Qed.
Lemma c64_Pi_lit : rnd64 (PI) = rnd64 Pi_lit. Proof. rewrite l64_Pi_lit. ri. Qed.
Lemma c80_Pi_lit : rnd80 (PI) = rnd80 Pi_lit. Proof. rewrite l80_Pi_lit. ri. Qed.
Lemma c32_TwoPi_lit : rnd32 (2 * PI) = rnd32 TwoPi_lit. Proof. rewrite l32_TwoPi_lit. ri. Qed.
Lemma c64_TwoPi_lit : rnd64 (2 * PI) = rnd64 TwoPi_lit. Proof. rewrite l64_TwoPi_lit. ri. Qed.
Lemma c80_TwoPi_lit : rnd80 (2 * PI) = rnd80 TwoPi_lit. Proof. rewrite l80_TwoPi_lit. ri. Qed.
Lemma c32_FourPi_lit : rnd32 (4 * PI) = rnd32 FourPi_lit. Proof. rewrite l32_FourPi_lit. ri. Qed.
Lemma c64_FourPi_lit : rnd64 (4 * PI) = rnd64 FourPi_lit. Proof. rewrite l64_FourPi_lit. ri. Qed.
Lemma c80_FourPi_lit : rnd80 (4 * PI) = rnd80 FourPi_lit. Proof. rewrite l80_FourPi_lit. ri. Qed.
Lemma c32_SqrtPi_lit : rnd32 (sqrt PI) = rnd32 SqrtPi_lit. Proof. rewrite l32_SqrtPi_lit. ri. Qed.
Lemma c64_SqrtPi_lit : rnd64 (sqrt PI) = rnd64 SqrtPi_lit. Proof. rewrite l64_SqrtPi_lit. ri. Qed.
Lemma c80_SqrtPi_lit : rnd80 (sqrt PI) = rnd80 SqrtPi_lit. Proof. rewrite l80_SqrtPi_lit. ri. Qed.
Lemma c32_SqrtTwoPi_lit : rnd32 (sqrt (2 * PI)) = rnd32 SqrtTwoPi_lit. Proof. rewrite l32_SqrtTwoPi_lit. ri. Qed.
Lemma c64_SqrtTwoPi_lit : rnd64 (sqrt (2 * PI)) = rnd64 SqrtTwoPi_lit. Proof. rewrite l64_SqrtTwoPi_lit. ri. Qed.
Lemma c80_SqrtTwoPi_lit : rnd80 (sqrt (2 * PI)) = rnd80 SqrtTwoPi_lit. Proof. rewrite l80_SqrtTwoPi_lit. ri. Qed.
Lemma c32_InvSqrtTwo_lit : rnd32 (sqrt 2 / 2) = rnd32 InvSqrtTwo_lit. Proof. rewrite l32_InvSqrtTwo_lit. ri. Qed.
Lemma c64_InvSqrtTwo_lit : rnd64 (sqrt 2 / 2) = rnd64 InvSqrtTwo_lit. Proof. rewrite l64_InvSqrtTwo_lit. ri. Qed.
Lemma c80_InvSqrtTwo_lit : rnd80 (sqrt 2 / 2) = rnd80 InvSqrtTwo_lit. Proof. rewrite l80_InvSqrtTwo_lit. ri. Qed.
Lemma l32_uc_a1 : rnd32 uc_a1 = (IZR 8388608 / IZR (2 ^ 23))%R. Proof. rd uc_a1. Qed.
Lemma l64_uc_a1 : rnd64 uc_a1 = (IZR 4503599627370496 / IZR (2 ^ 52))%R. Proof. rd uc_a1. Qed.
Lemma l80_uc_a1 : rnd80 uc_a1 = (IZR 9223372036854775808 / IZR (2 ^ 63))%R. Proof. rd uc_a1. Qed.
Lemma t32_uc_a1 : rnd32 (rnd80 uc_a1) = rnd32 uc_a1. Proof. rewrite l80_uc_a1, l32_uc_a1. rd uc_a1. Qed.
Lemma t64_uc_a1 : rnd64 (rnd80 uc_a1) = rnd64 uc_a1. Proof. rewrite l80_uc_a1, l64_uc_a1. rd uc_a1. Qed.
Lemma t_uc_a1 : rnd32 (rnd64 uc_a1) = rnd32 uc_a1. Proof. rewrite l64_uc_a1, l32_uc_a1. rd uc_a1. Qed.
Lemma l32_uc_a2 : rnd32 uc_a2 = (IZR (-8388608) / IZR (2 ^ 24))%R. Proof. rd uc_a2. Qed.
Lemma l64_uc_a2 : rnd64 uc_a2 = (IZR (-4503599627370496) / IZR (2 ^ 53))%R. Proof. rd uc_a2. Qed.
Lemma l80_uc_a2 : rnd80 uc_a2 = (IZR (-9223372036854775808) / IZR (2 ^ 64))%R. Proof. rd uc_a2. Qed.
Lemma t32_uc_a2 : rnd32 (rnd80 uc_a2) = rnd32 uc_a2. Proof. rewrite l80_uc_a2, l32_uc_a2. rd uc_a2. Qed.
Lemma t64_uc_a2 : rnd64 (rnd80 uc_a2) = rnd64 uc_a2. Proof. rewrite l80_uc_a2, l64_uc_a2. rd uc_a2. Qed.
Lemma t_uc_a2 : rnd32 (rnd64 uc_a2) = rnd32 uc_a2. Proof. rewrite l64_uc_a2, l32_uc_a2. rd uc_a2. Qed.
Lemma l32_uc_a3 : rnd32 uc_a3 = (IZR (-11184811) / IZR (2 ^ 26))%R. Proof. rd uc_a3. Qed.
Lemma l64_uc_a3 : rnd64 uc_a3 = (IZR (-6004799503160648) / IZR (2 ^ 55))%R. Proof. rd uc_a3. Qed.
Lemma l80_uc_a3 : rnd80 uc_a3 = (IZR (-12297829382473007894) / IZR (2 ^ 66))%R. Proof. rd uc_a3. Qed.
Lemma t32_uc_a3 : rnd32 (rnd80 uc_a3) = rnd32 uc_a3. Proof. rewrite l80_uc_a3, l32_uc_a3. rd uc_a3. Qed.
Lemma t64_uc_a3 : rnd64 (rnd80 uc_a3) = rnd64 uc_a3. Proof. rewrite l80_uc_a3, l64_uc_a3. rd uc_a3. Qed.
Lemma t_uc_a3 : rnd32 (rnd64 uc_a3) = rnd32 uc_a3. Proof. rewrite l64_uc_a3, l32_uc_a3. rd uc_a3. Qed.
Lemma l32_uc_a4 : rnd32 uc_a4 = (IZR 11184811 / IZR (2 ^ 28))%R. Proof. rd uc_a4. Qed.
Lemma l64_uc_a4 : rnd64 uc_a4 = (IZR 6004799503160651 / IZR (2 ^ 57))%R. Proof. rd uc_a4. Qed.
Lemma l80_uc_a4 : rnd80 uc_a4 = (IZR 12297829382473012645 / IZR (2 ^ 68))%R. Proof. rd uc_a4. Qed.
Lemma t32_uc_a4 : rnd32 (rnd80 uc_a4) = rnd32 uc_a4. Proof. rewrite l80_uc_a4, l32_uc_a4. rd uc_a4. Qed.
Lemma t64_uc_a4 : rnd64 (rnd80 uc_a4) = rnd64 uc_a4. Proof. rewrite l80_uc_a4, l64_uc_a4. rd uc_a4. Qed.
Lemma t_uc_a4 : rnd32 (rnd64 uc_a4) = rnd32 uc_a4. Proof. rewrite l64_uc_a4, l32_uc_a4. rd uc_a4. Qed.
Lemma l32_uc_a5 : rnd32 uc_a5 = (IZR 8947849 / IZR (2 ^ 30))%R. Proof. rd uc_a5. Qed.
Lemma l64_uc_a5 : rnd64 uc_a5 = (IZR 4803839602522064 / IZR (2 ^ 59))%R. Proof. rd uc_a5. Qed.
Lemma l80_uc_a5 : rnd80 uc_a5 = (IZR 9838263505965187495 / IZR (2 ^ 70))%R. Proof. rd uc_a5. Qed.
Lemma t32_uc_a5 : rnd32 (rnd80 uc_a5) = rnd32 uc_a5. Proof. rewrite l80_uc_a5, l32_uc_a5. rd uc_a5. Qed.
Lemma t64_uc_a5 : rnd64 (rnd80 uc_a5) = rnd64 uc_a5. Proof. rewrite l80_uc_a5, l64_uc_a5. rd uc_a5. Qed.
Lemma t_uc_a5 : rnd32 (rnd64 uc_a5) = rnd32 uc_a5. Proof. rewrite l64_uc_a5, l32_uc_a5. rd uc_a5. Qed.
Lemma l32_uc_a6 : rnd32 uc_a6 = (IZR (-11930465) / IZR (2 ^ 33))%R. Proof. rd uc_a6. Qed.
Lemma l64_uc_a6 : rnd64 uc_a6 = (IZR (-6405119470030737) / IZR (2 ^ 62))%R. Proof. rd uc_a6. Qed.
Lemma l80_uc_a6 : rnd80 uc_a6 = (IZR (-13117684674622950019) / IZR (2 ^ 73))%R. Proof. rd uc_a6. Qed.
Lemma t32_uc_a6 : rnd32 (rnd80 uc_a6) = rnd32 uc_a6. Proof. rewrite l80_uc_a6, l32_uc_a6. rd uc_a6. Qed.
Lemma t64_uc_a6 : rnd64 (rnd80 uc_a6) = rnd64 uc_a6. Proof. rewrite l80_uc_a6, l64_uc_a6. rd uc_a6. Qed.
Lemma t_uc_a6 : rnd32 (rnd64 uc_a6) = rnd32 uc_a6. Proof. rewrite l64_uc_a6, l32_uc_a6. rd uc_a6. Qed.
Lemma l32_uc_a7 : rnd32 uc_a7 = (IZR (-13634817) / IZR (2 ^ 36))%R. Proof. rd uc_a7. Qed.
Lemma l64_uc_a7 : rnd64 uc_a7 = (IZR (-7320136532877059) / IZR (2 ^ 65))%R. Proof. rd uc_a7. Qed.
Lemma l80_uc_a7 : rnd80 uc_a7 = (IZR (-14991639619332216679) / IZR (2 ^ 76))%R. Proof. rd uc_a7. Qed.
Lemma t32_uc_a7 : rnd32 (rnd80 uc_a7) = rnd32 uc_a7. Proof. rewrite l80_uc_a7, l32_uc_a7. rd uc_a7. Qed.
Lemma t64_uc_a7 : rnd64 (rnd80 uc_a7) = rnd64 uc_a7. Proof. rewrite l80_uc_a7, l64_uc_a7. rd uc_a7. Qed.
Lemma t_uc_a7 : rnd32 (rnd64 uc_a7) = rnd32 uc_a7. Proof. rewrite l64_uc_a7, l32_uc_a7. rd uc_a7. Qed.
Lemma l32_uc_a8 : rnd32 uc_a8 = (IZR 13634817 / IZR (2 ^ 39))%R. Proof. rd uc_a8. Qed.
Lemma l64_uc_a8 : rnd64 uc_a8 = (IZR 7320136533427445 / IZR (2 ^ 68))%R. Proof. rd uc_a8. Qed.
Lemma l80_uc_a8 : rnd80 uc_a8 = (IZR 14991639620459407801 / IZR (2 ^ 79))%R. Proof. rd uc_a8. Qed.
Lemma t32_uc_a8 : rnd32 (rnd80 uc_a8) = rnd32 uc_a8. Proof. rewrite l80_uc_a8, l32_uc_a8. rd uc_a8. Qed.
Lemma t64_uc_a8 : rnd64 (rnd80 uc_a8) = rnd64 uc_a8. Proof. rewrite l80_uc_a8, l64_uc_a8. rd uc_a8. Qed.
Lemma t_uc_a8 : rnd32 (rnd64 uc_a8) = rnd32 uc_a8. Proof. rewrite l64_uc_a8, l32_uc_a8. rd uc_a8. Qed.
Lemma l32_uc_a9 : rnd32 uc_a9 = (IZR 12119835 / IZR (2 ^ 42))%R. Proof. rd uc_a9. Qed.
Lemma l64_uc_a9 : rnd64 uc_a9 = (IZR 6506786710177953 / IZR (2 ^ 71))%R. Proof. rd uc_a9. Qed.
Lemma l80_uc_a9 : rnd80 uc_a9 = (IZR 13325899182444448744 / IZR (2 ^ 82))%R. Proof. rd uc_a9. Qed.
Lemma t32_uc_a9 : rnd32 (rnd80 uc_a9) = rnd32 uc_a9. Proof. rewrite l80_uc_a9, l32_uc_a9. rd uc_a9. Qed.
Lemma t64_uc_a9 : rnd64 (rnd80 uc_a9) = rnd64 uc_a9. Proof. rewrite l80_uc_a9, l64_uc_a9. rd uc_a9. Qed.
Lemma t_uc_a9 : rnd32 (rnd64 uc_a9) = rnd32 uc_a9. Proof. rewrite l64_uc_a9, l32_uc_a9. rd uc_a9. Qed.
Lemma l32_uc_a10 : rnd32 uc_a10 = (IZR (-9695868) / IZR (2 ^ 45))%R. Proof. rd uc_a10. Qed.
Lemma l64_uc_a10 : rnd64 uc_a10 = (IZR (-5205429473528774) / IZR (2 ^ 74))%R. Proof. rd uc_a10. Qed.
Lemma l80_uc_a10 : rnd80 uc_a10 = (IZR (-10660719561786928666) / IZR (2 ^ 85))%R. Proof. rd uc_a10. Qed.
Lemma t32_uc_a10 : rnd32 (rnd80 uc_a10) = rnd32 uc_a10. Proof. rewrite l80_uc_a10, l32_uc_a10. rd uc_a10. Qed.
Lemma t64_uc_a10 : rnd64 (rnd80 uc_a10) = rnd64 uc_a10. Proof. rewrite l80_uc_a10, l64_uc_a10. rd uc_a10. Qed.
Lemma t_uc_a10 : rnd32 (rnd64 uc_a10) = rnd32 uc_a10. Proof. rewrite l64_uc_a10, l32_uc_a10. rd uc_a10. Qed.
Lemma l32_uc_a11 : rnd32 uc_a11 = (IZR (-14102317) / IZR (2 ^ 49))%R. Proof. rd uc_a11. Qed.
Lemma l64_uc_a11 : rnd64 uc_a11 = (IZR (-7571123942793053) / IZR (2 ^ 78))%R. Proof. rd uc_a11. Qed.
Lemma l80_uc_a11 : rnd80 uc_a11 = (IZR (-15505661834840172993) / IZR (2 ^ 89))%R. Proof. rd uc_a11. Qed.
Lemma t32_uc_a11 : rnd32 (rnd80 uc_a11) = rnd32 uc_a11. Proof. rewrite l80_uc_a11, l32_uc_a11. rd uc_a11. Qed.
Lemma t64_uc_a11 : rnd64 (rnd80 uc_a11) = rnd64 uc_a11. Proof. rewrite l80_uc_a11, l64_uc_a11. rd uc_a11. Qed.
Lemma t_uc_a11 : rnd32 (rnd64 uc_a11) = rnd32 uc_a11. Proof. rewrite l64_uc_a11, l32_uc_a11. rd uc_a11. Qed.
Lemma l32_uc_a12 : rnd32 uc_a12 = (IZR 9401580 / IZR (2 ^ 52))%R. Proof. rd uc_a12. Qed.
Lemma l64_uc_a12 : rnd64 uc_a12 = (IZR 5047434750082821 / IZR (2 ^ 81))%R. Proof. rd uc_a12. Qed.
Lemma l80_uc_a12 : rnd80 uc_a12 = (IZR 10337146368169618166 / IZR (2 ^ 92))%R. Proof. rd uc_a12. Qed.
Lemma t32_uc_a12 : rnd32 (rnd80 uc_a12) = rnd32 uc_a12. Proof. rewrite l80_uc_a12, l32_uc_a12. rd uc_a12. Qed.
Lemma t64_uc_a12 : rnd64 (rnd80 uc_a12) = rnd64 uc_a12. Proof. rewrite l80_uc_a12, l64_uc_a12. rd uc_a12. Qed.
Lemma t_uc_a12 : rnd32 (rnd64 uc_a12) = rnd32 uc_a12. Proof. rewrite l64_uc_a12, l32_uc_a12. rd uc_a12. Qed.
Lemma l32_uc_a13 : rnd32 uc_a13 = (IZR 11454441 / IZR (2 ^ 56))%R. Proof. rd uc_a13. Qed.
Lemma l64_uc_a13 : rnd64 uc_a13 = (IZR 6149556183080141 / IZR (2 ^ 85))%R. Proof. rd uc_a13. Qed.
Lemma l80_uc_a13 : rnd80 uc_a13 = (IZR 12594291062948129617 / IZR (2 ^ 96))%R. Proof. rd uc_a13. Qed.
Lemma t32_uc_a13 : rnd32 (rnd80 uc_a13) = rnd32 uc_a13. Proof. rewrite l80_uc_a13, l32_uc_a13. rd uc_a13. Qed.
Lemma t64_uc_a13 : rnd64 (rnd80 uc_a13) = rnd64 uc_a13. Proof. rewrite l80_uc_a13, l64_uc_a13. rd uc_a13. Qed.
Lemma t_uc_a13 : rnd32 (rnd64 uc_a13) = rnd32 uc_a13. Proof. rewrite l64_uc_a13, l32_uc_a13. rd uc_a13. Qed.
Lemma l32_uc_a14 : rnd32 uc_a14 = (IZR (-13095501) / IZR (2 ^ 60))%R. Proof. rd uc_a14. Qed.
Lemma l64_uc_a14 : rnd64 uc_a14 = (IZR (-7030593573755547) / IZR (2 ^ 89))%R. Proof. rd uc_a14. Qed.
Lemma l80_uc_a14 : rnd80 uc_a14 = (IZR (-14398655639051359570) / IZR (2 ^ 100))%R. Proof. rd uc_a14. Qed.
Lemma t32_uc_a14 : rnd32 (rnd80 uc_a14) = rnd32 uc_a14. Proof. rewrite l80_uc_a14, l32_uc_a14. rd uc_a14. Qed.
Lemma t64_uc_a14 : rnd64 (rnd80 uc_a14) = rnd64 uc_a14. Proof. rewrite l80_uc_a14, l64_uc_a14. rd uc_a14. Qed.
Lemma t_uc_a14 : rnd32 (rnd64 uc_a14) = rnd32 uc_a14. Proof. rewrite l64_uc_a14, l32_uc_a14. rd uc_a14. Qed.
Lemma l32_at_P0 : rnd32 at_P0 = (IZR (-14681085) / IZR (2 ^ 24))%R. Proof. rd at_P0. Qed.
Lemma l64_at_P0 : rnd64 at_P0 = (IZR (-7881847526073748) / IZR (2 ^ 53))%R. Proof. rd at_P0. Qed.
Lemma l80_at_P0 : rnd80 at_P0 = (IZR (-16142023733399036346) / IZR (2 ^ 64))%R. Proof. rd at_P0. Qed.
Lemma t32_at_P0 : rnd32 (rnd80 at_P0) = rnd32 at_P0. Proof. rewrite l80_at_P0, l32_at_P0. rd at_P0. Qed.
Lemma t64_at_P0 : rnd64 (rnd80 at_P0) = rnd64 at_P0. Proof. rewrite l80_at_P0, l64_at_P0. rd at_P0. Qed.
Lemma t_at_P0 : rnd32 (rnd64 at_P0) = rnd32 at_P0. Proof. rewrite l64_at_P0, l32_at_P0. rd at_P0. Qed.
Lemma l32_at_P1 : rnd32 at_P1 = (IZR (-8471203) / IZR (2 ^ 19))%R. Proof. rd at_P1. Qed.
Lemma l64_at_P1 : rnd64 at_P1 = (IZR (-4547942403506298) / IZR (2 ^ 48))%R. Proof. rd at_P1. Qed.
Lemma l80_at_P1 : rnd80 at_P1 = (IZR (-9314186042380897487) / IZR (2 ^ 59))%R. Proof. rd at_P1. Qed.
Lemma t32_at_P1 : rnd32 (rnd80 at_P1) = rnd32 at_P1. Proof. rewrite l80_at_P1, l32_at_P1. rd at_P1. Qed.
Lemma t64_at_P1 : rnd64 (rnd80 at_P1) = rnd64 at_P1. Proof. rewrite l80_at_P1, l64_at_P1. rd at_P1. Qed.
Lemma t_at_P1 : rnd32 (rnd64 at_P1) = rnd32 at_P1. Proof. rewrite l64_at_P1, l32_at_P1. rd at_P1. Qed.
Lemma l32_at_P2 : rnd32 at_P2 = (IZR (-9831522) / IZR (2 ^ 17))%R. Proof. rd at_P2. Qed.
Lemma l64_at_P2 : rnd64 at_P2 = (IZR (-5278258023629427) / IZR (2 ^ 46))%R. Proof. rd at_P2. Qed.
Lemma l80_at_P2 : rnd80 at_P2 = (IZR (-10809872432393065752) / IZR (2 ^ 57))%R. Proof. rd at_P2. Qed.
Lemma t32_at_P2 : rnd32 (rnd80 at_P2) = rnd32 at_P2. Proof. rewrite l80_at_P2, l32_at_P2. rd at_P2. Qed.
Lemma t64_at_P2 : rnd64 (rnd80 at_P2) = rnd64 at_P2. Proof. rewrite l80_at_P2, l64_at_P2. rd at_P2. Qed.
Lemma t_at_P2 : rnd32 (rnd64 at_P2) = rnd32 at_P2. Proof. rewrite l64_at_P2, l32_at_P2. rd at_P2. Qed.
Lemma l32_at_P3 : rnd32 at_P3 = (IZR (-16107001) / IZR (2 ^ 17))%R. Proof. rd at_P3. Qed.
Lemma l64_at_P3 : rnd64 at_P3 = (IZR (-8647380534934053) / IZR (2 ^ 46))%R. Proof. rd at_P3. Qed.
Lemma l80_at_P3 : rnd80 at_P3 = (IZR (-17709835335544941270) / IZR (2 ^ 57))%R. Proof. rd at_P3. Qed.
Lemma t32_at_P3 : rnd32 (rnd80 at_P3) = rnd32 at_P3. Proof. rewrite l80_at_P3, l32_at_P3. rd at_P3. Qed.
Lemma t64_at_P3 : rnd64 (rnd80 at_P3) = rnd64 at_P3. Proof. rewrite l80_at_P3, l64_at_P3. rd at_P3. Qed.
Lemma t_at_P3 : rnd32 (rnd64 at_P3) = rnd32 at_P3. Proof. rewrite l64_at_P3, l32_at_P3. rd at_P3. Qed.
Lemma l32_at_P4 : rnd32 at_P4 = (IZR (-8500048) / IZR (2 ^ 17))%R. Proof. rd at_P4. Qed.
Lemma l64_at_P4 : rnd64 at_P4 = (IZR (-4563428474154126) / IZR (2 ^ 46))%R. Proof. rd at_P4. Qed.
Lemma l80_at_P4 : rnd80 at_P4 = (IZR (-9345901515067651071) / IZR (2 ^ 57))%R. Proof. rd at_P4. Qed.
Lemma t32_at_P4 : rnd32 (rnd80 at_P4) = rnd32 at_P4. Proof. rewrite l80_at_P4, l32_at_P4. rd at_P4. Qed.
Lemma t64_at_P4 : rnd64 (rnd80 at_P4) = rnd64 at_P4. Proof. rewrite l80_at_P4, l64_at_P4. rd at_P4. Qed.
Lemma t_at_P4 : rnd32 (rnd64 at_P4) = rnd32 at_P4. Proof. rewrite l64_at_P4, l32_at_P4. rd at_P4. Qed.
Lemma l32_at_Q0 : rnd32 at_Q0 = (IZR 13032995 / IZR (2 ^ 19))%R. Proof. rd at_Q0. Qed.
Lemma l64_at_Q0 : rnd64 at_Q0 = (IZR 6997035829190716 / IZR (2 ^ 48))%R. Proof. rd at_Q0. Qed.
Lemma l80_at_Q0 : rnd80 at_Q0 = (IZR 14329929378182586882 / IZR (2 ^ 59))%R. Proof. rd at_Q0. Qed.
Lemma t32_at_Q0 : rnd32 (rnd80 at_Q0) = rnd32 at_Q0. Proof. rewrite l80_at_Q0, l32_at_Q0. rd at_Q0. Qed.
Lemma t64_at_Q0 : rnd64 (rnd80 at_Q0) = rnd64 at_Q0. Proof. rewrite l80_at_Q0, l64_at_Q0. rd at_Q0. Qed.
Lemma t_at_Q0 : rnd32 (rnd64 at_Q0) = rnd32 at_Q0. Proof. rewrite l64_at_Q0, l32_at_Q0. rd at_Q0. Qed.
Lemma l32_at_Q1 : rnd32 at_Q1 = (IZR 10815210 / IZR (2 ^ 16))%R. Proof. rd at_Q1. Qed.
Lemma l64_at_Q1 : rnd64 at_Q1 = (IZR 5806371718625829 / IZR (2 ^ 45))%R. Proof. rd at_Q1. Qed.
Lemma l80_at_Q1 : rnd80 at_Q1 = (IZR 11891449279745698234 / IZR (2 ^ 56))%R. Proof. rd at_Q1. Qed.
Lemma t32_at_Q1 : rnd32 (rnd80 at_Q1) = rnd32 at_Q1. Proof. rewrite l80_at_Q1, l32_at_Q1. rd at_Q1. Qed.
Lemma t64_at_Q1 : rnd64 (rnd80 at_Q1) = rnd64 at_Q1. Proof. rewrite l80_at_Q1, l64_at_Q1. rd at_Q1. Qed.
Lemma t_at_Q1 : rnd32 (rnd64 at_Q1) = rnd32 at_Q1. Proof. rewrite l64_at_Q1, l32_at_Q1. rd at_Q1. Qed.
Lemma l32_at_Q2 : rnd32 at_Q2 = (IZR 14184647 / IZR (2 ^ 15))%R. Proof. rd at_Q2. Qed.
Lemma l64_at_Q2 : rnd64 at_Q2 = (IZR 7615324151266875 / IZR (2 ^ 44))%R. Proof. rd at_Q2. Qed.
Lemma l80_at_Q2 : rnd80 at_Q2 = (IZR 15596183861794559873 / IZR (2 ^ 55))%R. Proof. rd at_Q2. Qed.
Lemma t32_at_Q2 : rnd32 (rnd80 at_Q2) = rnd32 at_Q2. Proof. rewrite l80_at_Q2, l32_at_Q2. rd at_Q2. Qed.
Lemma t64_at_Q2 : rnd64 (rnd80 at_Q2) = rnd64 at_Q2. Proof. rewrite l80_at_Q2, l64_at_Q2. rd at_Q2. Qed.
Lemma t_at_Q2 : rnd32 (rnd64 at_Q2) = rnd32 at_Q2. Proof. rewrite l64_at_Q2, l32_at_Q2. rd at_Q2. Qed.
Lemma l32_at_Q3 : rnd32 at_Q3 = (IZR 15905273 / IZR (2 ^ 15))%R. Proof. rd at_Q3. Qed.
Lemma l64_at_Q3 : rnd64 at_Q3 = (IZR 8539078214568426 / IZR (2 ^ 44))%R. Proof. rd at_Q3. Qed.
Lemma l80_at_Q3 : rnd80 at_Q3 = (IZR 17488032183436136486 / IZR (2 ^ 55))%R. Proof. rd at_Q3. Qed.
Lemma t32_at_Q3 : rnd32 (rnd80 at_Q3) = rnd32 at_Q3. Proof. rewrite l80_at_Q3, l32_at_Q3. rd at_Q3. Qed.
Lemma t64_at_Q3 : rnd64 (rnd80 at_Q3) = rnd64 at_Q3. Proof. rewrite l80_at_Q3, l64_at_Q3. rd at_Q3. Qed.
Lemma t_at_Q3 : rnd32 (rnd64 at_Q3) = rnd32 at_Q3. Proof. rewrite l64_at_Q3, l32_at_Q3. rd at_Q3. Qed.
Lemma l32_at_Q4 : rnd32 at_Q4 = (IZR 12750072 / IZR (2 ^ 16))%R. Proof. rd at_Q4. Qed.
Lemma l64_at_Q4 : rnd64 at_Q4 = (IZR 6845142711231212 / IZR (2 ^ 45))%R. Proof. rd at_Q4. Qed.
Lemma l80_at_Q4 : rnd80 at_Q4 = (IZR 14018852272601522384 / IZR (2 ^ 56))%R. Proof. rd at_Q4. Qed.
Lemma t32_at_Q4 : rnd32 (rnd80 at_Q4) = rnd32 at_Q4. Proof. rewrite l80_at_Q4, l32_at_Q4. rd at_Q4. Qed.
Lemma t64_at_Q4 : rnd64 (rnd80 at_Q4) = rnd64 at_Q4. Proof. rewrite l80_at_Q4, l64_at_Q4. rd at_Q4. Qed.
Lemma t_at_Q4 : rnd32 (rnd64 at_Q4) = rnd32 at_Q4. Proof. rewrite l64_at_Q4, l32_at_Q4. rd at_Q4. Qed.
Lemma l32_at_MOREBITS : rnd32 at_MOREBITS = (IZR 9253170 / IZR (2 ^ 77))%R. Proof. rd at_MOREBITS. Qed.
Lemma l64_at_MOREBITS : rnd64 at_MOREBITS = (IZR 4967757600021511 / IZR (2 ^ 106))%R. Proof. rd at_MOREBITS. Qed.
Lemma l80_at_MOREBITS : rnd80 at_MOREBITS = (IZR 10173967564844054279 / IZR (2 ^ 117))%R. Proof. rd at_MOREBITS. Qed.
Lemma t32_at_MOREBITS : rnd32 (rnd80 at_MOREBITS) = rnd32 at_MOREBITS. Proof. rewrite l80_at_MOREBITS, l32_at_MOREBITS. rd at_MOREBITS. Qed.
Lemma t64_at_MOREBITS : rnd64 (rnd80 at_MOREBITS) = rnd64 at_MOREBITS. Proof. rewrite l80_at_MOREBITS, l64_at_MOREBITS. rd at_MOREBITS. Qed.
Lemma t_at_MOREBITS : rnd32 (rnd64 at_MOREBITS) = rnd32 at_MOREBITS. Proof. rewrite l64_at_MOREBITS, l32_at_MOREBITS. rd at_MOREBITS. Qed.
Lemma l32_ex_LOG210 : rnd32 ex_LOG210 = (IZR 13933176 / IZR (2 ^ 22))%R. Proof. rd ex_LOG210. Qed.
Lemma l64_ex_LOG210 : rnd64 ex_LOG210 = (IZR 7480317065143153 / IZR (2 ^ 51))%R. Proof. rd ex_LOG210. Qed.
Lemma l80_ex_LOG210 : rnd80 ex_LOG210 = (IZR 15319689349413178110 / IZR (2 ^ 62))%R. Proof. rd ex_LOG210. Qed.
Lemma t32_ex_LOG210 : rnd32 (rnd80 ex_LOG210) = rnd32 ex_LOG210. Proof. rewrite l80_ex_LOG210, l32_ex_LOG210. rd ex_LOG210. Qed.
Lemma t64_ex_LOG210 : rnd64 (rnd80 ex_LOG210) = rnd64 ex_LOG210. Proof. rewrite l80_ex_LOG210, l64_ex_LOG210. rd ex_LOG210. Qed.
Lemma t_ex_LOG210 : rnd32 (rnd64 ex_LOG210) = rnd32 ex_LOG210. Proof. rewrite l64_ex_LOG210, l32_ex_LOG210. rd ex_LOG210. Qed.
Lemma l32_ex_LG102A : rnd32 ex_LG102A = (IZR 10100736 / IZR (2 ^ 25))%R. Proof. rd ex_LG102A. Qed.
Lemma l64_ex_LG102A : rnd64 ex_LG102A = (IZR 5422791348191232 / IZR (2 ^ 54))%R. Proof. rd ex_LG102A. Qed.
Lemma l80_ex_LG102A : rnd80 ex_LG102A = (IZR 11105876681095643136 / IZR (2 ^ 65))%R. Proof. rd ex_LG102A. Qed.
Lemma t32_ex_LG102A : rnd32 (rnd80 ex_LG102A) = rnd32 ex_LG102A. Proof. rewrite l80_ex_LG102A, l32_ex_LG102A. rd ex_LG102A. Qed.
Lemma t64_ex_LG102A : rnd64 (rnd80 ex_LG102A) = rnd64 ex_LG102A. Proof. rewrite l80_ex_LG102A, l64_ex_LG102A. rd ex_LG102A. Qed.
Lemma t_ex_LG102A : rnd32 (rnd64 ex_LG102A) = rnd32 ex_LG102A. Proof. rewrite l64_ex_LG102A, l32_ex_LG102A. rd ex_LG102A. Qed.
Lemma l32_ex_LG102B : rnd32 ex_LG102B = (IZR 10126588 / IZR (2 ^ 41))%R. Proof. rd ex_LG102B. Qed.
Lemma l64_ex_LG102B : rnd64 ex_LG102B = (IZR 5436670434276114 / IZR (2 ^ 70))%R. Proof. rd ex_LG102B. Qed.
Lemma l80_ex_LG102B : rnd80 ex_LG102B = (IZR 11134301049397481353 / IZR (2 ^ 81))%R. Proof. rd ex_LG102B. Qed.
Lemma t32_ex_LG102B : rnd32 (rnd80 ex_LG102B) = rnd32 ex_LG102B. Proof. rewrite l80_ex_LG102B, l32_ex_LG102B. rd ex_LG102B. Qed.
Lemma t64_ex_LG102B : rnd64 (rnd80 ex_LG102B) = rnd64 ex_LG102B. Proof. rewrite l80_ex_LG102B, l64_ex_LG102B. rd ex_LG102B. Qed.
Lemma t_ex_LG102B : rnd32 (rnd64 ex_LG102B) = rnd32 ex_LG102B. Proof. rewrite l64_ex_LG102B, l32_ex_LG102B. rd ex_LG102B. Qed.
Lemma l32_ex_P0 : rnd32 ex_P0 = (IZR 11004848 / IZR (2 ^ 28))%R. Proof. rd ex_P0. Qed.
Lemma l64_ex_P0 : rnd64 ex_P0 = (IZR 5908182564482516 / IZR (2 ^ 57))%R. Proof. rd ex_P0. Qed.
Lemma l80_ex_P0 : rnd80 ex_P0 = (IZR 12099957892060191824 / IZR (2 ^ 68))%R. Proof. rd ex_P0. Qed.
Lemma t32_ex_P0 : rnd32 (rnd80 ex_P0) = rnd32 ex_P0. Proof. rewrite l80_ex_P0, l32_ex_P0. rd ex_P0. Qed.
Lemma t64_ex_P0 : rnd64 (rnd80 ex_P0) = rnd64 ex_P0. Proof. rewrite l80_ex_P0, l64_ex_P0. rd ex_P0. Qed.
Lemma t_ex_P0 : rnd32 (rnd64 ex_P0) = rnd32 ex_P0. Proof. rewrite l64_ex_P0, l32_ex_P0. rd ex_P0. Qed.
Lemma l32_ex_P1 : rnd32 ex_P1 = (IZR 12315812 / IZR (2 ^ 20))%R. Proof. rd ex_P1. Qed.
Lemma l64_ex_P1 : rnd64 ex_P1 = (IZR 6612001032067380 / IZR (2 ^ 49))%R. Proof. rd ex_P1. Qed.
Lemma l80_ex_P1 : rnd80 ex_P1 = (IZR 13541378113673994983 / IZR (2 ^ 60))%R. Proof. rd ex_P1. Qed.
Lemma t32_ex_P1 : rnd32 (rnd80 ex_P1) = rnd32 ex_P1. Proof. rewrite l80_ex_P1, l32_ex_P1. rd ex_P1. Qed.
Lemma t64_ex_P1 : rnd64 (rnd80 ex_P1) = rnd64 ex_P1. Proof. rewrite l80_ex_P1, l64_ex_P1. rd ex_P1. Qed.
Lemma t_ex_P1 : rnd32 (rnd64 ex_P1) = rnd32 ex_P1. Proof. rewrite l64_ex_P1, l32_ex_P1. rd ex_P1. Qed.
Lemma l32_ex_P2 : rnd32 ex_P2 = (IZR 13327312 / IZR (2 ^ 15))%R. Proof. rd ex_P2. Qed.
Lemma l64_ex_P2 : rnd64 ex_P2 = (IZR 7155046232050148 / IZR (2 ^ 44))%R. Proof. rd ex_P2. Qed.
Lemma l80_ex_P2 : rnd80 ex_P2 = (IZR 14653534683238703914 / IZR (2 ^ 55))%R. Proof. rd ex_P2. Qed.
Lemma t32_ex_P2 : rnd32 (rnd80 ex_P2) = rnd32 ex_P2. Proof. rewrite l80_ex_P2, l32_ex_P2. rd ex_P2. Qed.
Lemma t64_ex_P2 : rnd64 (rnd80 ex_P2) = rnd64 ex_P2. Proof. rewrite l80_ex_P2, l64_ex_P2. rd ex_P2. Qed.
Lemma t_ex_P2 : rnd32 (rnd64 ex_P2) = rnd32 ex_P2. Proof. rewrite l64_ex_P2, l32_ex_P2. rd ex_P2. Qed.
Lemma l32_ex_P3 : rnd32 ex_P3 = (IZR 9806796 / IZR (2 ^ 12))%R. Proof. rd ex_P3. Qed.
Lemma l64_ex_P3 : rnd64 ex_P3 = (IZR 5264983748463105 / IZR (2 ^ 41))%R. Proof. rd ex_P3. Qed.
Lemma l80_ex_P3 : rnd80 ex_P3 = (IZR 10782686716852438693 / IZR (2 ^ 52))%R. Proof. rd ex_P3. Qed.
Lemma t32_ex_P3 : rnd32 (rnd80 ex_P3) = rnd32 ex_P3. Proof. rewrite l80_ex_P3, l32_ex_P3. rd ex_P3. Qed.
Lemma t64_ex_P3 : rnd64 (rnd80 ex_P3) = rnd64 ex_P3. Proof. rewrite l80_ex_P3, l64_ex_P3. rd ex_P3. Qed.
Lemma t_ex_P3 : rnd32 (rnd64 ex_P3) = rnd32 ex_P3. Proof. rewrite l64_ex_P3, l32_ex_P3. rd ex_P3. Qed.
Lemma l32_ex_Q0 : rnd32 ex_Q0 = (IZR 11153390 / IZR (2 ^ 17))%R. Proof. rd ex_Q0. Qed.
Lemma l64_ex_Q0 : rnd64 ex_Q0 = (IZR 5987930901432840 / IZR (2 ^ 46))%R. Proof. rd ex_Q0. Qed.
Lemma l80_ex_Q0 : rnd80 ex_Q0 = (IZR 12263282486134455512 / IZR (2 ^ 57))%R. Proof. rd ex_Q0. Qed.
Lemma t32_ex_Q0 : rnd32 (rnd80 ex_Q0) = rnd32 ex_Q0. Proof. rewrite l80_ex_Q0, l32_ex_Q0. rd ex_Q0. Qed.
Lemma t64_ex_Q0 : rnd64 (rnd80 ex_Q0) = rnd64 ex_Q0. Proof. rewrite l80_ex_Q0, l64_ex_Q0. rd ex_Q0. Qed.
Lemma t_ex_Q0 : rnd32 (rnd64 ex_Q0) = rnd32 ex_Q0. Proof. rewrite l64_ex_Q0, l32_ex_Q0. rd ex_Q0. Qed.
Lemma l32_ex_Q1 : rnd32 ex_Q1 = (IZR 10420983 / IZR (2 ^ 13))%R. Proof. rd ex_Q1. Qed.
Lemma l64_ex_Q1 : rnd64 ex_Q1 = (IZR 5594722912860034 / IZR (2 ^ 42))%R. Proof. rd ex_Q1. Qed.
Lemma l80_ex_Q1 : rnd80 ex_Q1 = (IZR 11457992525537349290 / IZR (2 ^ 53))%R. Proof. rd ex_Q1. Qed.
Lemma t32_ex_Q1 : rnd32 (rnd80 ex_Q1) = rnd32 ex_Q1. Proof. rewrite l80_ex_Q1, l32_ex_Q1. rd ex_Q1. Qed.
Lemma t64_ex_Q1 : rnd64 (rnd80 ex_Q1) = rnd64 ex_Q1. Proof. rewrite l80_ex_Q1, l64_ex_Q1. rd ex_Q1. Qed.
Lemma t_ex_Q1 : rnd32 (rnd64 ex_Q1) = rnd32 ex_Q1. Proof. rewrite l64_ex_Q1, l32_ex_Q1. rd ex_Q1. Qed.
Lemma l32_ex_Q2 : rnd32 ex_Q2 = (IZR 8518075 / IZR (2 ^ 12))%R. Proof. rd ex_Q2. Qed.
Lemma l64_ex_Q2 : rnd64 ex_Q2 = (IZR 4573106778535650 / IZR (2 ^ 41))%R. Proof. rd ex_Q2. Qed.
Lemma l80_ex_Q2 : rnd80 ex_Q2 = (IZR 9365722682441010613 / IZR (2 ^ 52))%R. Proof. rd ex_Q2. Qed.
Lemma t32_ex_Q2 : rnd32 (rnd80 ex_Q2) = rnd32 ex_Q2. Proof. rewrite l80_ex_Q2, l32_ex_Q2. rd ex_Q2. Qed.
Lemma t64_ex_Q2 : rnd64 (rnd80 ex_Q2) = rnd64 ex_Q2. Proof. rewrite l80_ex_Q2, l64_ex_Q2. rd ex_Q2. Qed.
Lemma t_ex_Q2 : rnd32 (rnd64 ex_Q2) = rnd32 ex_Q2. Proof. rewrite l64_ex_Q2, l32_ex_Q2. rd ex_Q2. Qed.
Definition lit066 : R := 0.66.
Lemma l32_lit066 : rnd32 lit066 = (IZR 11072963 / IZR (2 ^ 24))%R. Proof. rd lit066. Qed.
Lemma l64_lit066 : rnd64 lit066 = (IZR 5944751508129055 / IZR (2 ^ 53))%R. Proof. rd lit066. Qed.
Lemma l80_lit066 : rnd80 lit066 = (IZR 12174851088648304067 / IZR (2 ^ 64))%R. Proof. rd lit066. Qed.
Lemma t32_lit066 : rnd32 (rnd80 lit066) = rnd32 lit066. Proof. rewrite l80_lit066, l32_lit066. rd lit066. Qed.
Lemma t64_lit066 : rnd64 (rnd80 lit066) = rnd64 lit066. Proof. rewrite l80_lit066, l64_lit066. rd lit066. Qed.
Lemma t_lit066 : rnd32 (rnd64 lit066) = rnd32 lit066. Proof. rewrite l64_lit066, l32_lit066. rd lit066. Qed.
Definition lit241 : R := 2.41421356237309504880.
Lemma l32_lit241 : rnd32 lit241 = (IZR 10125946 / IZR (2 ^ 22))%R. Proof. rd lit241. Qed.
Lemma l64_lit241 : rnd64 lit241 = (IZR 5436325649948134 / IZR (2 ^ 51))%R. Proof. rd lit241. Qed.
Lemma l80_lit241 : rnd80 lit241 = (IZR 11133594931093779010 / IZR (2 ^ 62))%R. Proof. rd lit241. Qed.
Lemma t32_lit241 : rnd32 (rnd80 lit241) = rnd32 lit241. Proof. rewrite l80_lit241, l32_lit241. rd lit241. Qed.
Lemma t64_lit241 : rnd64 (rnd80 lit241) = rnd64 lit241. Proof. rewrite l80_lit241, l64_lit241. rd lit241. Qed.
Lemma t_lit241 : rnd32 (rnd64 lit241) = rnd32 lit241. Proof. rewrite l64_lit241, l32_lit241. rd lit241. Qed.
Definition lit05 : R := 0.5.
Lemma l32_lit05 : rnd32 lit05 = (IZR 8388608 / IZR (2 ^ 24))%R. Proof. rd lit05. Qed.
Lemma l64_lit05 : rnd64 lit05 = (IZR 4503599627370496 / IZR (2 ^ 53))%R. Proof. rd lit05. Qed.
Lemma l80_lit05 : rnd80 lit05 = (IZR 9223372036854775808 / IZR (2 ^ 64))%R. Proof. rd lit05. Qed.
Lemma t32_lit05 : rnd32 (rnd80 lit05) = rnd32 lit05. Proof. rewrite l80_lit05, l32_lit05. rd lit05. Qed.
Lemma t64_lit05 : rnd64 (rnd80 lit05) = rnd64 lit05. Proof. rewrite l80_lit05, l64_lit05. rd lit05. Qed.
Lemma t_lit05 : rnd32 (rnd64 lit05) = rnd32 lit05. Proof. rewrite l64_lit05, l32_lit05. rd lit05. Qed.
Definition lit1 : R := 1.0.
Lemma l32_lit1 : rnd32 lit1 = (IZR 8388608 / IZR (2 ^ 23))%R. Proof. rd lit1. Qed.
Lemma l64_lit1 : rnd64 lit1 = (IZR 4503599627370496 / IZR (2 ^ 52))%R. Proof. rd lit1. Qed.
Lemma l80_lit1 : rnd80 lit1 = (IZR 9223372036854775808 / IZR (2 ^ 63))%R. Proof. rd lit1. Qed.
Lemma t32_lit1 : rnd32 (rnd80 lit1) = rnd32 lit1. Proof. rewrite l80_lit1, l32_lit1. rd lit1. Qed.
Lemma t64_lit1 : rnd64 (rnd80 lit1) = rnd64 lit1. Proof. rewrite l80_lit1, l64_lit1. rd lit1. Qed.
Lemma t_lit1 : rnd32 (rnd64 lit1) = rnd32 lit1. Proof. rewrite l64_lit1, l32_lit1. rd lit1. Qed.
Definition lit054 : R := 0.54.
Lemma l32_lit054 : rnd32 lit054 = (IZR 9059697 / IZR (2 ^ 24))%R. Proof. rd lit054. Qed.
Lemma l64_lit054 : rnd64 lit054 = (IZR 4863887597560136 / IZR (2 ^ 53))%R. Proof. rd lit054. Qed.
Lemma l80_lit054 : rnd80 lit054 = (IZR 9961241799803157873 / IZR (2 ^ 64))%R. Proof. rd lit054. Qed.
Lemma t32_lit054 : rnd32 (rnd80 lit054) = rnd32 lit054. Proof. rewrite l80_lit054, l32_lit054. rd lit054. Qed.
Lemma t64_lit054 : rnd64 (rnd80 lit054) = rnd64 lit054. Proof. rewrite l80_lit054, l64_lit054. rd lit054. Qed.
Lemma t_lit054 : rnd32 (rnd64 lit054) = rnd32 lit054. Proof. rewrite l64_lit054, l32_lit054. rd lit054. Qed.
Definition lit046 : R := 0.46.
Lemma l32_lit046 : rnd32 lit046 = (IZR 15435039 / IZR (2 ^ 25))%R. Proof. rd lit046. Qed.
Lemma l64_lit046 : rnd64 lit046 = (IZR 8286623314361713 / IZR (2 ^ 54))%R. Proof. rd lit046. Qed.
Lemma l80_lit046 : rnd80 lit046 = (IZR 16971004547812787487 / IZR (2 ^ 65))%R. Proof. rd lit046. Qed.
Lemma t32_lit046 : rnd32 (rnd80 lit046) = rnd32 lit046. Proof. rewrite l80_lit046, l32_lit046. rd lit046. Qed.
Lemma t64_lit046 : rnd64 (rnd80 lit046) = rnd64 lit046. Proof. rewrite l80_lit046, l64_lit046. rd lit046. Qed.
Lemma t_lit046 : rnd32 (rnd64 lit046) = rnd32 lit046. Proof. rewrite l64_lit046, l32_lit046. rd lit046. Qed.
Definition lit0001 : R := 0.001.
Lemma l32_lit0001 : rnd32 lit0001 = (IZR 8589935 / IZR (2 ^ 33))%R. Proof. rd lit0001. Qed.
Lemma l64_lit0001 : rnd64 lit0001 = (IZR 4611686018427388 / IZR (2 ^ 62))%R. Proof. rd lit0001. Qed.
Lemma l80_lit0001 : rnd80 lit0001 = (IZR 9444732965739290427 / IZR (2 ^ 73))%R. Proof. rd lit0001. Qed.
Lemma t32_lit0001 : rnd32 (rnd80 lit0001) = rnd32 lit0001. Proof. rewrite l80_lit0001, l32_lit0001. rd lit0001. Qed.
Lemma t64_lit0001 : rnd64 (rnd80 lit0001) = rnd64 lit0001. Proof. rewrite l80_lit0001, l64_lit0001. rd lit0001. Qed.
Lemma t_lit0001 : rnd32 (rnd64 lit0001) = rnd32 lit0001. Proof. rewrite l64_lit0001, l32_lit0001. rd lit0001. Qed.

(** one lemma per format *)
Lemma rr64 x : rnd64 (rnd64 x) = rnd64 x.
Proof. apply round_generic; [apply valid_rnd_N|]. apply generic_format_round; [apply FLT_exp_valid; reflexivity|apply valid_rnd_N]. Qed.
Section Twice.
Context (long : R -> bool).
Lemma w32_EighthPi_lit : (if long EighthPi_lit then rnd32 (rnd80 EighthPi_lit) else rnd32 (rnd64 EighthPi_lit)) = rnd32 EighthPi_lit. Proof. destruct (long _); [apply t32_EighthPi_lit|apply t_EighthPi_lit]. Qed.
Lemma w64_EighthPi_lit : (if long EighthPi_lit then rnd64 (rnd80 EighthPi_lit) else rnd64 (rnd64 EighthPi_lit)) = rnd64 EighthPi_lit. Proof. destruct (long _); [apply t64_EighthPi_lit|apply rr64]. Qed.
Lemma w32_FourthPi_lit : (if long FourthPi_lit then rnd32 (rnd80 FourthPi_lit) else rnd32 (rnd64 FourthPi_lit)) = rnd32 FourthPi_lit. Proof. destruct (long _); [apply t32_FourthPi_lit|apply t_FourthPi_lit]. Qed.
Lemma w64_FourthPi_lit : (if long FourthPi_lit then rnd64 (rnd80 FourthPi_lit) else rnd64 (rnd64 FourthPi_lit)) = rnd64 FourthPi_lit. Proof. destruct (long _); [apply t64_FourthPi_lit|apply rr64]. Qed.
Lemma w32_HalfPi_lit : (if long HalfPi_lit then rnd32 (rnd80 HalfPi_lit) else rnd32 (rnd64 HalfPi_lit)) = rnd32 HalfPi_lit. Proof. destruct (long _); [apply t32_HalfPi_lit|apply t_HalfPi_lit]. Qed.
Lemma w64_HalfPi_lit : (if long HalfPi_lit then rnd64 (rnd80 HalfPi_lit) else rnd64 (rnd64 HalfPi_lit)) = rnd64 HalfPi_lit. Proof. destruct (long _); [apply t64_HalfPi_lit|apply rr64]. Qed.
Lemma w32_Pi_lit : (if long Pi_lit then rnd32 (rnd80 Pi_lit) else rnd32 (rnd64 Pi_lit)) = rnd32 Pi_lit. Proof. destruct (long _); [apply t32_Pi_lit|apply t_Pi_lit]. Qed.
Lemma w64_Pi_lit : (if long Pi_lit then rnd64 (rnd80 Pi_lit) else rnd64 (rnd64 Pi_lit)) = rnd64 Pi_lit. Proof. destruct (long _); [apply t64_Pi_lit|apply rr64]. Qed.
Lemma w32_TwoPi_lit : (if long TwoPi_lit then rnd32 (rnd80 TwoPi_lit) else rnd32 (rnd64 TwoPi_lit)) = rnd32 TwoPi_lit. Proof. destruct (long _); [apply t32_TwoPi_lit|apply t_TwoPi_lit]. Qed.
Lemma w64_TwoPi_lit : (if long TwoPi_lit then rnd64 (rnd80 TwoPi_lit) else rnd64 (rnd64 TwoPi_lit)) = rnd64 TwoPi_lit. Proof. destruct (long _); [apply t64_TwoPi_lit|apply rr64]. Qed.
Lemma w32_FourPi_lit : (if long FourPi_lit then rnd32 (rnd80 FourPi_lit) else rnd32 (rnd64 FourPi_lit)) = rnd32 FourPi_lit. Proof. destruct (long _); [apply t32_FourPi_lit|apply t_FourPi_lit]. Qed.
Lemma w64_FourPi_lit : (if long FourPi_lit then rnd64 (rnd80 FourPi_lit) else rnd64 (rnd64 FourPi_lit)) = rnd64 FourPi_lit. Proof. destruct (long _); [apply t64_FourPi_lit|apply rr64]. Qed.
Lemma w32_SqrtPi_lit : (if long SqrtPi_lit then rnd32 (rnd80 SqrtPi_lit) else rnd32 (rnd64 SqrtPi_lit)) = rnd32 SqrtPi_lit. Proof. destruct (long _); [apply t32_SqrtPi_lit|apply t_SqrtPi_lit]. Qed.
Lemma w64_SqrtPi_lit : (if long SqrtPi_lit then rnd64 (rnd80 SqrtPi_lit) else rnd64 (rnd64 SqrtPi_lit)) = rnd64 SqrtPi_lit. Proof. destruct (long _); [apply t64_SqrtPi_lit|apply rr64]. Qed.
Lemma w32_SqrtTwoPi_lit : (if long SqrtTwoPi_lit then rnd32 (rnd80 SqrtTwoPi_lit) else rnd32 (rnd64 SqrtTwoPi_lit)) = rnd32 SqrtTwoPi_lit. Proof. destruct (long _); [apply t32_SqrtTwoPi_lit|apply t_SqrtTwoPi_lit]. Qed.
Lemma w64_SqrtTwoPi_lit : (if long SqrtTwoPi_lit then rnd64 (rnd80 SqrtTwoPi_lit) else rnd64 (rnd64 SqrtTwoPi_lit)) = rnd64 SqrtTwoPi_lit. Proof. destruct (long _); [apply t64_SqrtTwoPi_lit|apply rr64]. Qed.
Lemma w32_InvSqrtTwo_lit : (if long InvSqrtTwo_lit then rnd32 (rnd80 InvSqrtTwo_lit) else rnd32 (rnd64 InvSqrtTwo_lit)) = rnd32 InvSqrtTwo_lit. Proof. destruct (long _); [apply t32_InvSqrtTwo_lit|apply t_InvSqrtTwo_lit]. Qed.
Lemma w64_InvSqrtTwo_lit : (if long InvSqrtTwo_lit then rnd64 (rnd80 InvSqrtTwo_lit) else rnd64 (rnd64 InvSqrtTwo_lit)) = rnd64 InvSqrtTwo_lit. Proof. destruct (long _); [apply t64_InvSqrtTwo_lit|apply rr64]. Qed.
Lemma w32_casc2 : (if long casc2 then rnd32 (rnd80 casc2) else rnd32 (rnd64 casc2)) = rnd32 casc2. Proof. destruct (long _); [apply t32_casc2|apply t_casc2]. Qed.
Lemma w64_casc2 : (if long casc2 then rnd64 (rnd80 casc2) else rnd64 (rnd64 casc2)) = rnd64 casc2. Proof. destruct (long _); [apply t64_casc2|apply rr64]. Qed.
Lemma w32_casc3 : (if long casc3 then rnd32 (rnd80 casc3) else rnd32 (rnd64 casc3)) = rnd32 casc3. Proof. destruct (long _); [apply t32_casc3|apply t_casc3]. Qed.
Lemma w64_casc3 : (if long casc3 then rnd64 (rnd80 casc3) else rnd64 (rnd64 casc3)) = rnd64 casc3. Proof. destruct (long _); [apply t64_casc3|apply rr64]. Qed.
Lemma w32_casc4 : (if long casc4 then rnd32 (rnd80 casc4) else rnd32 (rnd64 casc4)) = rnd32 casc4. Proof. destruct (long _); [apply t32_casc4|apply t_casc4]. Qed.
Lemma w64_casc4 : (if long casc4 then rnd64 (rnd80 casc4) else rnd64 (rnd64 casc4)) = rnd64 casc4. Proof. destruct (long _); [apply t64_casc4|apply rr64]. Qed.
Lemma w32_casc5 : (if long casc5 then rnd32 (rnd80 casc5) else rnd32 (rnd64 casc5)) = rnd32 casc5. Proof. destruct (long _); [apply t32_casc5|apply t_casc5]. Qed.
Lemma w64_casc5 : (if long casc5 then rnd64 (rnd80 casc5) else rnd64 (rnd64 casc5)) = rnd64 casc5. Proof. destruct (long _); [apply t64_casc5|apply rr64]. Qed.
Lemma w32_casc6 : (if long casc6 then rnd32 (rnd80 casc6) else rnd32 (rnd64 casc6)) = rnd32 casc6. Proof. destruct (long _); [apply t32_casc6|apply t_casc6]. Qed.
Lemma w64_casc6 : (if long casc6 then rnd64 (rnd80 casc6) else rnd64 (rnd64 casc6)) = rnd64 casc6. Proof. destruct (long _); [apply t64_casc6|apply rr64]. Qed.
Lemma w32_casc7 : (if long casc7 then rnd32 (rnd80 casc7) else rnd32 (rnd64 casc7)) = rnd32 casc7. Proof. destruct (long _); [apply t32_casc7|apply t_casc7]. Qed.
Lemma w64_casc7 : (if long casc7 then rnd64 (rnd80 casc7) else rnd64 (rnd64 casc7)) = rnd64 casc7. Proof. destruct (long _); [apply t64_casc7|apply rr64]. Qed.
Lemma w32_casc8 : (if long casc8 then rnd32 (rnd80 casc8) else rnd32 (rnd64 casc8)) = rnd32 casc8. Proof. destruct (long _); [apply t32_casc8|apply t_casc8]. Qed.
Lemma w64_casc8 : (if long casc8 then rnd64 (rnd80 casc8) else rnd64 (rnd64 casc8)) = rnd64 casc8. Proof. destruct (long _); [apply t64_casc8|apply rr64]. Qed.
Lemma w32_casc9 : (if long casc9 then rnd32 (rnd80 casc9) else rnd32 (rnd64 casc9)) = rnd32 casc9. Proof. destruct (long _); [apply t32_casc9|apply t_casc9]. Qed.
Lemma w64_casc9 : (if long casc9 then rnd64 (rnd80 casc9) else rnd64 (rnd64 casc9)) = rnd64 casc9. Proof. destruct (long _); [apply t64_casc9|apply rr64]. Qed.
Lemma w32_casc10 : (if long casc10 then rnd32 (rnd80 casc10) else rnd32 (rnd64 casc10)) = rnd32 casc10. Proof. destruct (long _); [apply t32_casc10|apply t_casc10]. Qed.
Lemma w64_casc10 : (if long casc10 then rnd64 (rnd80 casc10) else rnd64 (rnd64 casc10)) = rnd64 casc10. Proof. destruct (long _); [apply t64_casc10|apply rr64]. Qed.
Lemma w32_casc11 : (if long casc11 then rnd32 (rnd80 casc11) else rnd32 (rnd64 casc11)) = rnd32 casc11. Proof. destruct (long _); [apply t32_casc11|apply t_casc11]. Qed.
Lemma w64_casc11 : (if long casc11 then rnd64 (rnd80 casc11) else rnd64 (rnd64 casc11)) = rnd64 casc11. Proof. destruct (long _); [apply t64_casc11|apply rr64]. Qed.
Lemma w32_casc12 : (if long casc12 then rnd32 (rnd80 casc12) else rnd32 (rnd64 casc12)) = rnd32 casc12. Proof. destruct (long _); [apply t32_casc12|apply t_casc12]. Qed.
Lemma w64_casc12 : (if long casc12 then rnd64 (rnd80 casc12) else rnd64 (rnd64 casc12)) = rnd64 casc12. Proof. destruct (long _); [apply t64_casc12|apply rr64]. Qed.
Lemma w32_casc13 : (if long casc13 then rnd32 (rnd80 casc13) else rnd32 (rnd64 casc13)) = rnd32 casc13. Proof. destruct (long _); [apply t32_casc13|apply t_casc13]. Qed.
Lemma w64_casc13 : (if long casc13 then rnd64 (rnd80 casc13) else rnd64 (rnd64 casc13)) = rnd64 casc13. Proof. destruct (long _); [apply t64_casc13|apply rr64]. Qed.
Lemma w32_casc14 : (if long casc14 then rnd32 (rnd80 casc14) else rnd32 (rnd64 casc14)) = rnd32 casc14. Proof. destruct (long _); [apply t32_casc14|apply t_casc14]. Qed.
Lemma w64_casc14 : (if long casc14 then rnd64 (rnd80 casc14) else rnd64 (rnd64 casc14)) = rnd64 casc14. Proof. destruct (long _); [apply t64_casc14|apply rr64]. Qed.
Lemma w32_casc15 : (if long casc15 then rnd32 (rnd80 casc15) else rnd32 (rnd64 casc15)) = rnd32 casc15. Proof. destruct (long _); [apply t32_casc15|apply t_casc15]. Qed.
Lemma w64_casc15 : (if long casc15 then rnd64 (rnd80 casc15) else rnd64 (rnd64 casc15)) = rnd64 casc15. Proof. destruct (long _); [apply t64_casc15|apply rr64]. Qed.
Lemma w32_casc16 : (if long casc16 then rnd32 (rnd80 casc16) else rnd32 (rnd64 casc16)) = rnd32 casc16. Proof. destruct (long _); [apply t32_casc16|apply t_casc16]. Qed.
Lemma w64_casc16 : (if long casc16 then rnd64 (rnd80 casc16) else rnd64 (rnd64 casc16)) = rnd64 casc16. Proof. destruct (long _); [apply t64_casc16|apply rr64]. Qed.
Lemma w32_db_scale : (if long db_scale then rnd32 (rnd80 db_scale) else rnd32 (rnd64 db_scale)) = rnd32 db_scale. Proof. destruct (long _); [apply t32_db_scale|apply t_db_scale]. Qed.
Lemma w64_db_scale : (if long db_scale then rnd64 (rnd80 db_scale) else rnd64 (rnd64 db_scale)) = rnd64 db_scale. Proof. destruct (long _); [apply t64_db_scale|apply rr64]. Qed.
Lemma w32_uc_a1 : (if long uc_a1 then rnd32 (rnd80 uc_a1) else rnd32 (rnd64 uc_a1)) = rnd32 uc_a1. Proof. destruct (long _); [apply t32_uc_a1|apply t_uc_a1]. Qed.
Lemma w64_uc_a1 : (if long uc_a1 then rnd64 (rnd80 uc_a1) else rnd64 (rnd64 uc_a1)) = rnd64 uc_a1. Proof. destruct (long _); [apply t64_uc_a1|apply rr64]. Qed.
Lemma w32_uc_a2 : (if long uc_a2 then rnd32 (rnd80 uc_a2) else rnd32 (rnd64 uc_a2)) = rnd32 uc_a2. Proof. destruct (long _); [apply t32_uc_a2|apply t_uc_a2]. Qed.
Lemma w64_uc_a2 : (if long uc_a2 then rnd64 (rnd80 uc_a2) else rnd64 (rnd64 uc_a2)) = rnd64 uc_a2. Proof. destruct (long _); [apply t64_uc_a2|apply rr64]. Qed.
Lemma w32_uc_a3 : (if long uc_a3 then rnd32 (rnd80 uc_a3) else rnd32 (rnd64 uc_a3)) = rnd32 uc_a3. Proof. destruct (long _); [apply t32_uc_a3|apply t_uc_a3]. Qed.
Lemma w64_uc_a3 : (if long uc_a3 then rnd64 (rnd80 uc_a3) else rnd64 (rnd64 uc_a3)) = rnd64 uc_a3. Proof. destruct (long _); [apply t64_uc_a3|apply rr64]. Qed.
Lemma w32_uc_a4 : (if long uc_a4 then rnd32 (rnd80 uc_a4) else rnd32 (rnd64 uc_a4)) = rnd32 uc_a4. Proof. destruct (long _); [apply t32_uc_a4|apply t_uc_a4]. Qed.
Lemma w64_uc_a4 : (if long uc_a4 then rnd64 (rnd80 uc_a4) else rnd64 (rnd64 uc_a4)) = rnd64 uc_a4. Proof. destruct (long _); [apply t64_uc_a4|apply rr64]. Qed.
Lemma w32_uc_a5 : (if long uc_a5 then rnd32 (rnd80 uc_a5) else rnd32 (rnd64 uc_a5)) = rnd32 uc_a5. Proof. destruct (long _); [apply t32_uc_a5|apply t_uc_a5]. Qed.
Lemma w64_uc_a5 : (if long uc_a5 then rnd64 (rnd80 uc_a5) else rnd64 (rnd64 uc_a5)) = rnd64 uc_a5. Proof. destruct (long _); [apply t64_uc_a5|apply rr64]. Qed.
Lemma w32_uc_a6 : (if long uc_a6 then rnd32 (rnd80 uc_a6) else rnd32 (rnd64 uc_a6)) = rnd32 uc_a6. Proof. destruct (long _); [apply t32_uc_a6|apply t_uc_a6]. Qed.
Lemma w64_uc_a6 : (if long uc_a6 then rnd64 (rnd80 uc_a6) else rnd64 (rnd64 uc_a6)) = rnd64 uc_a6. Proof. destruct (long _); [apply t64_uc_a6|apply rr64]. Qed.
Lemma w32_uc_a7 : (if long uc_a7 then rnd32 (rnd80 uc_a7) else rnd32 (rnd64 uc_a7)) = rnd32 uc_a7. Proof. destruct (long _); [apply t32_uc_a7|apply t_uc_a7]. Qed.
Lemma w64_uc_a7 : (if long uc_a7 then rnd64 (rnd80 uc_a7) else rnd64 (rnd64 uc_a7)) = rnd64 uc_a7. Proof. destruct (long _); [apply t64_uc_a7|apply rr64]. Qed.
Lemma w32_uc_a8 : (if long uc_a8 then rnd32 (rnd80 uc_a8) else rnd32 (rnd64 uc_a8)) = rnd32 uc_a8. Proof. destruct (long _); [apply t32_uc_a8|apply t_uc_a8]. Qed.
Lemma w64_uc_a8 : (if long uc_a8 then rnd64 (rnd80 uc_a8) else rnd64 (rnd64 uc_a8)) = rnd64 uc_a8. Proof. destruct (long _); [apply t64_uc_a8|apply rr64]. Qed.
Lemma w32_uc_a9 : (if long uc_a9 then rnd32 (rnd80 uc_a9) else rnd32 (rnd64 uc_a9)) = rnd32 uc_a9. Proof. destruct (long _); [apply t32_uc_a9|apply t_uc_a9]. Qed.
Lemma w64_uc_a9 : (if long uc_a9 then rnd64 (rnd80 uc_a9) else rnd64 (rnd64 uc_a9)) = rnd64 uc_a9. Proof. destruct (long _); [apply t64_uc_a9|apply rr64]. Qed.
Lemma w32_uc_a10 : (if long uc_a10 then rnd32 (rnd80 uc_a10) else rnd32 (rnd64 uc_a10)) = rnd32 uc_a10. Proof. destruct (long _); [apply t32_uc_a10|apply t_uc_a10]. Qed.
Lemma w64_uc_a10 : (if long uc_a10 then rnd64 (rnd80 uc_a10) else rnd64 (rnd64 uc_a10)) = rnd64 uc_a10. Proof. destruct (long _); [apply t64_uc_a10|apply rr64]. Qed.
Lemma w32_uc_a11 : (if long uc_a11 then rnd32 (rnd80 uc_a11) else rnd32 (rnd64 uc_a11)) = rnd32 uc_a11. Proof. destruct (long _); [apply t32_uc_a11|apply t_uc_a11]. Qed.
Lemma w64_uc_a11 : (if long uc_a11 then rnd64 (rnd80 uc_a11) else rnd64 (rnd64 uc_a11)) = rnd64 uc_a11. Proof. destruct (long _); [apply t64_uc_a11|apply rr64]. Qed.
Lemma w32_uc_a12 : (if long uc_a12 then rnd32 (rnd80 uc_a12) else rnd32 (rnd64 uc_a12)) = rnd32 uc_a12. Proof. destruct (long _); [apply t32_uc_a12|apply t_uc_a12]. Qed.
Lemma w64_uc_a12 : (if long uc_a12 then rnd64 (rnd80 uc_a12) else rnd64 (rnd64 uc_a12)) = rnd64 uc_a12. Proof. destruct (long _); [apply t64_uc_a12|apply rr64]. Qed.
Lemma w32_uc_a13 : (if long uc_a13 then rnd32 (rnd80 uc_a13) else rnd32 (rnd64 uc_a13)) = rnd32 uc_a13. Proof. destruct (long _); [apply t32_uc_a13|apply t_uc_a13]. Qed.
Lemma w64_uc_a13 : (if long uc_a13 then rnd64 (rnd80 uc_a13) else rnd64 (rnd64 uc_a13)) = rnd64 uc_a13. Proof. destruct (long _); [apply t64_uc_a13|apply rr64]. Qed.
Lemma w32_uc_a14 : (if long uc_a14 then rnd32 (rnd80 uc_a14) else rnd32 (rnd64 uc_a14)) = rnd32 uc_a14. Proof. destruct (long _); [apply t32_uc_a14|apply t_uc_a14]. Qed.
Lemma w64_uc_a14 : (if long uc_a14 then rnd64 (rnd80 uc_a14) else rnd64 (rnd64 uc_a14)) = rnd64 uc_a14. Proof. destruct (long _); [apply t64_uc_a14|apply rr64]. Qed.
Lemma w32_at_P0 : (if long at_P0 then rnd32 (rnd80 at_P0) else rnd32 (rnd64 at_P0)) = rnd32 at_P0. Proof. destruct (long _); [apply t32_at_P0|apply t_at_P0]. Qed.
Lemma w64_at_P0 : (if long at_P0 then rnd64 (rnd80 at_P0) else rnd64 (rnd64 at_P0)) = rnd64 at_P0. Proof. destruct (long _); [apply t64_at_P0|apply rr64]. Qed.
Lemma w32_at_P1 : (if long at_P1 then rnd32 (rnd80 at_P1) else rnd32 (rnd64 at_P1)) = rnd32 at_P1. Proof. destruct (long _); [apply t32_at_P1|apply t_at_P1]. Qed.
Lemma w64_at_P1 : (if long at_P1 then rnd64 (rnd80 at_P1) else rnd64 (rnd64 at_P1)) = rnd64 at_P1. Proof. destruct (long _); [apply t64_at_P1|apply rr64]. Qed.
Lemma w32_at_P2 : (if long at_P2 then rnd32 (rnd80 at_P2) else rnd32 (rnd64 at_P2)) = rnd32 at_P2. Proof. destruct (long _); [apply t32_at_P2|apply t_at_P2]. Qed.
Lemma w64_at_P2 : (if long at_P2 then rnd64 (rnd80 at_P2) else rnd64 (rnd64 at_P2)) = rnd64 at_P2. Proof. destruct (long _); [apply t64_at_P2|apply rr64]. Qed.
Lemma w32_at_P3 : (if long at_P3 then rnd32 (rnd80 at_P3) else rnd32 (rnd64 at_P3)) = rnd32 at_P3. Proof. destruct (long _); [apply t32_at_P3|apply t_at_P3]. Qed.
Lemma w64_at_P3 : (if long at_P3 then rnd64 (rnd80 at_P3) else rnd64 (rnd64 at_P3)) = rnd64 at_P3. Proof. destruct (long _); [apply t64_at_P3|apply rr64]. Qed.
Lemma w32_at_P4 : (if long at_P4 then rnd32 (rnd80 at_P4) else rnd32 (rnd64 at_P4)) = rnd32 at_P4. Proof. destruct (long _); [apply t32_at_P4|apply t_at_P4]. Qed.
Lemma w64_at_P4 : (if long at_P4 then rnd64 (rnd80 at_P4) else rnd64 (rnd64 at_P4)) = rnd64 at_P4. Proof. destruct (long _); [apply t64_at_P4|apply rr64]. Qed.
Lemma w32_at_Q0 : (if long at_Q0 then rnd32 (rnd80 at_Q0) else rnd32 (rnd64 at_Q0)) = rnd32 at_Q0. Proof. destruct (long _); [apply t32_at_Q0|apply t_at_Q0]. Qed.
Lemma w64_at_Q0 : (if long at_Q0 then rnd64 (rnd80 at_Q0) else rnd64 (rnd64 at_Q0)) = rnd64 at_Q0. Proof. destruct (long _); [apply t64_at_Q0|apply rr64]. Qed.
Lemma w32_at_Q1 : (if long at_Q1 then rnd32 (rnd80 at_Q1) else rnd32 (rnd64 at_Q1)) = rnd32 at_Q1. Proof. destruct (long _); [apply t32_at_Q1|apply t_at_Q1]. Qed.
Lemma w64_at_Q1 : (if long at_Q1 then rnd64 (rnd80 at_Q1) else rnd64 (rnd64 at_Q1)) = rnd64 at_Q1. Proof. destruct (long _); [apply t64_at_Q1|apply rr64]. Qed.
Lemma w32_at_Q2 : (if long at_Q2 then rnd32 (rnd80 at_Q2) else rnd32 (rnd64 at_Q2)) = rnd32 at_Q2. Proof. destruct (long _); [apply t32_at_Q2|apply t_at_Q2]. Qed.
Lemma w64_at_Q2 : (if long at_Q2 then rnd64 (rnd80 at_Q2) else rnd64 (rnd64 at_Q2)) = rnd64 at_Q2. Proof. destruct (long _); [apply t64_at_Q2|apply rr64]. Qed.
Lemma w32_at_Q3 : (if long at_Q3 then rnd32 (rnd80 at_Q3) else rnd32 (rnd64 at_Q3)) = rnd32 at_Q3. Proof. destruct (long _); [apply t32_at_Q3|apply t_at_Q3]. Qed.
Lemma w64_at_Q3 : (if long at_Q3 then rnd64 (rnd80 at_Q3) else rnd64 (rnd64 at_Q3)) = rnd64 at_Q3. Proof. destruct (long _); [apply t64_at_Q3|apply rr64]. Qed.
Lemma w32_at_Q4 : (if long at_Q4 then rnd32 (rnd80 at_Q4) else rnd32 (rnd64 at_Q4)) = rnd32 at_Q4. Proof. destruct (long _); [apply t32_at_Q4|apply t_at_Q4]. Qed.
Lemma w64_at_Q4 : (if long at_Q4 then rnd64 (rnd80 at_Q4) else rnd64 (rnd64 at_Q4)) = rnd64 at_Q4. Proof. destruct (long _); [apply t64_at_Q4|apply rr64]. Qed.
Lemma w32_at_MOREBITS : (if long at_MOREBITS then rnd32 (rnd80 at_MOREBITS) else rnd32 (rnd64 at_MOREBITS)) = rnd32 at_MOREBITS. Proof. destruct (long _); [apply t32_at_MOREBITS|apply t_at_MOREBITS]. Qed.
Lemma w64_at_MOREBITS : (if long at_MOREBITS then rnd64 (rnd80 at_MOREBITS) else rnd64 (rnd64 at_MOREBITS)) = rnd64 at_MOREBITS. Proof. destruct (long _); [apply t64_at_MOREBITS|apply rr64]. Qed.
Lemma w32_ex_LOG210 : (if long ex_LOG210 then rnd32 (rnd80 ex_LOG210) else rnd32 (rnd64 ex_LOG210)) = rnd32 ex_LOG210. Proof. destruct (long _); [apply t32_ex_LOG210|apply t_ex_LOG210]. Qed.
Lemma w64_ex_LOG210 : (if long ex_LOG210 then rnd64 (rnd80 ex_LOG210) else rnd64 (rnd64 ex_LOG210)) = rnd64 ex_LOG210. Proof. destruct (long _); [apply t64_ex_LOG210|apply rr64]. Qed.
Lemma w32_ex_LG102A : (if long ex_LG102A then rnd32 (rnd80 ex_LG102A) else rnd32 (rnd64 ex_LG102A)) = rnd32 ex_LG102A. Proof. destruct (long _); [apply t32_ex_LG102A|apply t_ex_LG102A]. Qed.
Lemma w64_ex_LG102A : (if long ex_LG102A then rnd64 (rnd80 ex_LG102A) else rnd64 (rnd64 ex_LG102A)) = rnd64 ex_LG102A. Proof. destruct (long _); [apply t64_ex_LG102A|apply rr64]. Qed.
Lemma w32_ex_LG102B : (if long ex_LG102B then rnd32 (rnd80 ex_LG102B) else rnd32 (rnd64 ex_LG102B)) = rnd32 ex_LG102B. Proof. destruct (long _); [apply t32_ex_LG102B|apply t_ex_LG102B]. Qed.
Lemma w64_ex_LG102B : (if long ex_LG102B then rnd64 (rnd80 ex_LG102B) else rnd64 (rnd64 ex_LG102B)) = rnd64 ex_LG102B. Proof. destruct (long _); [apply t64_ex_LG102B|apply rr64]. Qed.
Lemma w32_ex_P0 : (if long ex_P0 then rnd32 (rnd80 ex_P0) else rnd32 (rnd64 ex_P0)) = rnd32 ex_P0. Proof. destruct (long _); [apply t32_ex_P0|apply t_ex_P0]. Qed.
Lemma w64_ex_P0 : (if long ex_P0 then rnd64 (rnd80 ex_P0) else rnd64 (rnd64 ex_P0)) = rnd64 ex_P0. Proof. destruct (long _); [apply t64_ex_P0|apply rr64]. Qed.
Lemma w32_ex_P1 : (if long ex_P1 then rnd32 (rnd80 ex_P1) else rnd32 (rnd64 ex_P1)) = rnd32 ex_P1. Proof. destruct (long _); [apply t32_ex_P1|apply t_ex_P1]. Qed.
Lemma w64_ex_P1 : (if long ex_P1 then rnd64 (rnd80 ex_P1) else rnd64 (rnd64 ex_P1)) = rnd64 ex_P1. Proof. destruct (long _); [apply t64_ex_P1|apply rr64]. Qed.
Lemma w32_ex_P2 : (if long ex_P2 then rnd32 (rnd80 ex_P2) else rnd32 (rnd64 ex_P2)) = rnd32 ex_P2. Proof. destruct (long _); [apply t32_ex_P2|apply t_ex_P2]. Qed.
Lemma w64_ex_P2 : (if long ex_P2 then rnd64 (rnd80 ex_P2) else rnd64 (rnd64 ex_P2)) = rnd64 ex_P2. Proof. destruct (long _); [apply t64_ex_P2|apply rr64]. Qed.
Lemma w32_ex_P3 : (if long ex_P3 then rnd32 (rnd80 ex_P3) else rnd32 (rnd64 ex_P3)) = rnd32 ex_P3. Proof. destruct (long _); [apply t32_ex_P3|apply t_ex_P3]. Qed.
Lemma w64_ex_P3 : (if long ex_P3 then rnd64 (rnd80 ex_P3) else rnd64 (rnd64 ex_P3)) = rnd64 ex_P3. Proof. destruct (long _); [apply t64_ex_P3|apply rr64]. Qed.
Lemma w32_ex_Q0 : (if long ex_Q0 then rnd32 (rnd80 ex_Q0) else rnd32 (rnd64 ex_Q0)) = rnd32 ex_Q0. Proof. destruct (long _); [apply t32_ex_Q0|apply t_ex_Q0]. Qed.
Lemma w64_ex_Q0 : (if long ex_Q0 then rnd64 (rnd80 ex_Q0) else rnd64 (rnd64 ex_Q0)) = rnd64 ex_Q0. Proof. destruct (long _); [apply t64_ex_Q0|apply rr64]. Qed.
Lemma w32_ex_Q1 : (if long ex_Q1 then rnd32 (rnd80 ex_Q1) else rnd32 (rnd64 ex_Q1)) = rnd32 ex_Q1. Proof. destruct (long _); [apply t32_ex_Q1|apply t_ex_Q1]. Qed.
Lemma w64_ex_Q1 : (if long ex_Q1 then rnd64 (rnd80 ex_Q1) else rnd64 (rnd64 ex_Q1)) = rnd64 ex_Q1. Proof. destruct (long _); [apply t64_ex_Q1|apply rr64]. Qed.
Lemma w32_ex_Q2 : (if long ex_Q2 then rnd32 (rnd80 ex_Q2) else rnd32 (rnd64 ex_Q2)) = rnd32 ex_Q2. Proof. destruct (long _); [apply t32_ex_Q2|apply t_ex_Q2]. Qed.
Lemma w64_ex_Q2 : (if long ex_Q2 then rnd64 (rnd80 ex_Q2) else rnd64 (rnd64 ex_Q2)) = rnd64 ex_Q2. Proof. destruct (long _); [apply t64_ex_Q2|apply rr64]. Qed.
Lemma w32_lit066 : (if long lit066 then rnd32 (rnd80 lit066) else rnd32 (rnd64 lit066)) = rnd32 lit066. Proof. destruct (long _); [apply t32_lit066|apply t_lit066]. Qed.
Lemma w64_lit066 : (if long lit066 then rnd64 (rnd80 lit066) else rnd64 (rnd64 lit066)) = rnd64 lit066. Proof. destruct (long _); [apply t64_lit066|apply rr64]. Qed.
Lemma w32_lit241 : (if long lit241 then rnd32 (rnd80 lit241) else rnd32 (rnd64 lit241)) = rnd32 lit241. Proof. destruct (long _); [apply t32_lit241|apply t_lit241]. Qed.
Lemma w64_lit241 : (if long lit241 then rnd64 (rnd80 lit241) else rnd64 (rnd64 lit241)) = rnd64 lit241. Proof. destruct (long _); [apply t64_lit241|apply rr64]. Qed.
Lemma w32_lit05 : (if long lit05 then rnd32 (rnd80 lit05) else rnd32 (rnd64 lit05)) = rnd32 lit05. Proof. destruct (long _); [apply t32_lit05|apply t_lit05]. Qed.
Lemma w64_lit05 : (if long lit05 then rnd64 (rnd80 lit05) else rnd64 (rnd64 lit05)) = rnd64 lit05. Proof. destruct (long _); [apply t64_lit05|apply rr64]. Qed.
Lemma w32_lit1 : (if long lit1 then rnd32 (rnd80 lit1) else rnd32 (rnd64 lit1)) = rnd32 lit1. Proof. destruct (long _); [apply t32_lit1|apply t_lit1]. Qed.
Lemma w64_lit1 : (if long lit1 then rnd64 (rnd80 lit1) else rnd64 (rnd64 lit1)) = rnd64 lit1. Proof. destruct (long _); [apply t64_lit1|apply rr64]. Qed.
Lemma w32_lit054 : (if long lit054 then rnd32 (rnd80 lit054) else rnd32 (rnd64 lit054)) = rnd32 lit054. Proof. destruct (long _); [apply t32_lit054|apply t_lit054]. Qed.
Lemma w64_lit054 : (if long lit054 then rnd64 (rnd80 lit054) else rnd64 (rnd64 lit054)) = rnd64 lit054. Proof. destruct (long _); [apply t64_lit054|apply rr64]. Qed.
Lemma w32_lit046 : (if long lit046 then rnd32 (rnd80 lit046) else rnd32 (rnd64 lit046)) = rnd32 lit046. Proof. destruct (long _); [apply t32_lit046|apply t_lit046]. Qed.
Lemma w64_lit046 : (if long lit046 then rnd64 (rnd80 lit046) else rnd64 (rnd64 lit046)) = rnd64 lit046. Proof. destruct (long _); [apply t64_lit046|apply rr64]. Qed.
Lemma w32_lit0001 : (if long lit0001 then rnd32 (rnd80 lit0001) else rnd32 (rnd64 lit0001)) = rnd32 lit0001. Proof. destruct (long _); [apply t32_lit0001|apply t_lit0001]. Qed.
Lemma w64_lit0001 : (if long lit0001 then rnd64 (rnd80 lit0001) else rnd64 (rnd64 lit0001)) = rnd64 lit0001. Proof. destruct (long _); [apply t64_lit0001|apply rr64]. Qed.
End Twice.

Ltac lits32 := change 0.66 with lit066; change 2.41421356237309504880 with lit241; change 0.5 with lit05; rewrite ?w32_EighthPi_lit, ?w32_FourthPi_lit, ?w32_HalfPi_lit, ?w32_Pi_lit, ?w32_TwoPi_lit, ?w32_FourPi_lit, ?w32_SqrtPi_lit, ?w32_SqrtTwoPi_lit, ?w32_InvSqrtTwo_lit, ?w32_db_scale, ?w32_uc_a1, ?w32_uc_a2, ?w32_uc_a3, ?w32_uc_a4, ?w32_uc_a5, ?w32_uc_a6, ?w32_uc_a7, ?w32_uc_a8, ?w32_uc_a9, ?w32_uc_a10, ?w32_uc_a11, ?w32_uc_a12, ?w32_uc_a13, ?w32_uc_a14, ?w32_at_P0, ?w32_at_P1, ?w32_at_P2, ?w32_at_P3, ?w32_at_P4, ?w32_at_Q0, ?w32_at_Q1, ?w32_at_Q2, ?w32_at_Q3, ?w32_at_Q4, ?w32_at_MOREBITS, ?w32_ex_LOG210, ?w32_ex_LG102A, ?w32_ex_LG102B, ?w32_ex_P0, ?w32_ex_P1, ?w32_ex_P2, ?w32_ex_P3, ?w32_ex_Q0, ?w32_ex_Q1, ?w32_ex_Q2, ?w32_lit066, ?w32_lit241, ?w32_lit05, ?w32_lit1, ?w32_lit054, ?w32_lit046, ?w32_lit0001.
Ltac lits64 := change 0.66 with lit066; change 2.41421356237309504880 with lit241; change 0.5 with lit05; rewrite ?w64_EighthPi_lit, ?w64_FourthPi_lit, ?w64_HalfPi_lit, ?w64_Pi_lit, ?w64_TwoPi_lit, ?w64_FourPi_lit, ?w64_SqrtPi_lit, ?w64_SqrtTwoPi_lit, ?w64_InvSqrtTwo_lit, ?w64_db_scale, ?w64_uc_a1, ?w64_uc_a2, ?w64_uc_a3, ?w64_uc_a4, ?w64_uc_a5, ?w64_uc_a6, ?w64_uc_a7, ?w64_uc_a8, ?w64_uc_a9, ?w64_uc_a10, ?w64_uc_a11, ?w64_uc_a12, ?w64_uc_a13, ?w64_uc_a14, ?w64_at_P0, ?w64_at_P1, ?w64_at_P2, ?w64_at_P3, ?w64_at_P4, ?w64_at_Q0, ?w64_at_Q1, ?w64_at_Q2, ?w64_at_Q3, ?w64_at_Q4, ?w64_at_MOREBITS, ?w64_ex_LOG210, ?w64_ex_LG102A, ?w64_ex_LG102B, ?w64_ex_P0, ?w64_ex_P1, ?w64_ex_P2, ?w64_ex_P3, ?w64_ex_Q0, ?w64_ex_Q1, ?w64_ex_Q2, ?w64_lit066, ?w64_lit241, ?w64_lit05, ?w64_lit1, ?w64_lit054, ?w64_lit046, ?w64_lit0001.
Ltac open_num := cbv beta delta [n0 n1 nadd nsub nmul ndiv nopp nabs nsqrt nofZ nlit nltb nleb neqb Cn Fn] iota.
Section Inst.
Context (long : R -> bool).
Local Notation C32 := (Cn long rnd32). Local Notation C64 := (Cn long rnd64).
Lemma cosk32 x : cosine_kernel C32 x = cosine_kernel (Fn rnd32) x. Proof. unfold cosine_kernel. open_num. lits32. reflexivity. Qed.
Lemma cosk64 x : cosine_kernel C64 x = cosine_kernel (Fn rnd64) x. Proof. unfold cosine_kernel. open_num. lits64. reflexivity. Qed.
Lemma sink32 x xx : sine_kernel C32 x xx = sine_kernel (Fn rnd32) x xx. Proof. unfold sine_kernel. open_num. lits32. reflexivity. Qed.
Lemma sink64 x xx : sine_kernel C64 x xx = sine_kernel (Fn rnd64) x xx. Proof. unfold sine_kernel. open_num. lits64. reflexivity. Qed.
Lemma rad32 n N : uc_rad C32 n N = uc_rad (Fn rnd32) n N. Proof. unfold uc_rad, TwoPi. open_num. lits32. reflexivity. Qed.
Lemma rad64 n N : uc_rad C64 n N = uc_rad (Fn rnd64) n N. Proof. unfold uc_rad, TwoPi. open_num. lits64. reflexivity. Qed.
End Inst.
