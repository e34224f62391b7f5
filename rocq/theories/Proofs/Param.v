(* Parametricity: a model instantiated with two number types gives related results if the operations respect the relation *)
From Coq Require Import Reals ZArith Lia List Bool.
From Verif Require Import Model.Num Model.Complex Model.Base Proofs.BaseLemmas Model.Fft Proofs.FftRound.
Import ListNotations.
Open Scope Z_scope.

Definition orel {A B} (P : A -> B -> Prop) (x : outcome A) (y : outcome B) : Prop :=
  match x, y with Ok a, Ok b => P a b | AssertFail, AssertFail => True | Undefined, Undefined => True | NoFuel, NoFuel => True | _, _ => False end.
Definition oprel {A B} (P : A -> B -> Prop) (x : option A) (y : option B) : Prop := match x, y with Some a, Some b => P a b | None, None => True | _, _ => False end.

Lemma orel_bind {A B A' B'} (P : A -> B -> Prop) (Q : A' -> B' -> Prop) x y f g : orel P x y -> (forall a b, P a b -> orel Q (f a) (g b)) -> orel Q (bind x f) (bind y g).
Proof. destruct x, y; cbn; intros H F; auto; contradiction. Qed.
Lemma Forall2_nth_error {A B} (P : A -> B -> Prop) l m : Forall2 P l m -> forall n, oprel P (nth_error l n) (nth_error m n).
Proof. induction 1; intros [|n]; cbn; auto. Qed.
Lemma znth_rel {A B} (P : A -> B -> Prop) l m i : Forall2 P l m -> oprel P (znth l i) (znth m i).
Proof. intros H. unfold znth. destruct (i <? 0); [exact I|]. apply Forall2_nth_error; auto. Qed.
Lemma get_rel {A B} (P : A -> B -> Prop) l m i : Forall2 P l m -> orel P (get l i) (get m i).
Proof. intros H. unfold get. pose proof (znth_rel P l m i H). destruct (znth l i), (znth m i); cbn in *; auto. Qed.
Lemma geti_rel {A B} (P : A -> B -> Prop) l m i : Forall2 (oprel P) l m -> orel P (geti l i) (geti m i).
Proof. intros H. unfold geti. pose proof (znth_rel _ l m i H). destruct (znth l i) as [[]|], (znth m i) as [[]|]; cbn in *; auto. Qed.
Lemma upd_rel {A B} (P : A -> B -> Prop) l m a b : Forall2 P l m -> P a b -> forall n, Forall2 P (upd l n a) (upd m n b).
Proof. induction 1; intros Q [|n]; cbn; auto. Qed.
Lemma set_rel {A B} (P : A -> B -> Prop) l m i a b : Forall2 P l m -> P a b -> orel (Forall2 P) (set l i a) (set m i b).
Proof.
  intros H Q. unfold set, zlen. rewrite (Forall2_len _ _ _ H). destruct ((0 <=? i) && (i <? Z.of_nat (length m)))%bool; cbn; auto. apply upd_rel; auto.
Qed.
Lemma for_loop_rel {A B} (P : A -> B -> Prop) n : forall i f g a b, P a b -> (forall j a b, P a b -> orel P (f j a) (g j b)) -> orel P (for_loop n i f a) (for_loop n i g b).
Proof. induction n; intros i f g a b H F; cbn [for_loop]; [exact H|]. eapply orel_bind; [apply F; exact H|]. intros. apply IHn; auto. Qed.
Lemma fold_rel {A B X Y} (P : A -> B -> Prop) (Q : X -> Y -> Prop) f g l m : Forall2 Q l m -> (forall a b x y, P a b -> Q x y -> P (f a x) (g b y)) -> forall a b, P a b -> P (fold_left f l a) (fold_left g m b).
Proof. induction 1; intros F a b H'; cbn; auto. Qed.
Lemma combine_rel {A B X Y} (P : A -> B -> Prop) (Q : X -> Y -> Prop) l m : Forall2 P l m -> forall x y, Forall2 Q x y -> Forall2 (fun p q => P (fst p) (fst q) /\ Q (snd p) (snd q)) (combine l x) (combine m y).
Proof. induction 1; intros ? ? [|]; cbn; constructor; auto. Qed.
Lemma map_rel {A B X Y} (P : A -> B -> Prop) (Q : X -> Y -> Prop) f g l m : Forall2 P l m -> (forall a b, P a b -> Q (f a) (g b)) -> Forall2 Q (map f l) (map g m).
Proof. induction 1; intros F; cbn; constructor; auto. Qed.
Lemma map_rel_same {A X Y} (Q : X -> Y -> Prop) (f : A -> X) g l : (forall a, In a l -> Q (f a) (g a)) -> Forall2 Q (map f l) (map g l).
Proof. induction l; intros F; cbn; constructor; auto. apply F. left; auto. apply IHl. intros. apply F. right; auto. Qed.
Lemma firstn_rel {A B} (P : A -> B -> Prop) l m : Forall2 P l m -> forall n, Forall2 P (firstn n l) (firstn n m).
Proof. induction 1; intros [|n]; cbn; auto. Qed.
Lemma Forall2_diag {A} (P : A -> Prop) l : (forall x, In x l -> P x) -> Forall2 (fun x y => x = y /\ P x) l l.
Proof. induction l; intros; constructor; auto; [split; auto; apply H; left; auto|apply IHl; intros; apply H; right; auto]. Qed.

Section Fft.
Context {T1 T2 : Type} (N1 : num T1) (N2 : num T2) (tr1 : trig T1) (tr2 : trig T2) (Rel : T1 -> T2 -> Prop) (Mx : Z).
Hypothesis Hadd : forall a b x y, Rel a x -> Rel b y -> Rel (nadd N1 a b) (nadd N2 x y).
Hypothesis Hsub : forall a b x y, Rel a x -> Rel b y -> Rel (nsub N1 a b) (nsub N2 x y).
Hypothesis Hmul : forall a b x y, Rel a x -> Rel b y -> Rel (nmul N1 a b) (nmul N2 x y).
Hypothesis H0 : Rel (n0 N1) (n0 N2).
Hypothesis Hcos : forall n M, 0 <= n < M -> M <= Mx -> Rel (tcos tr1 n M) (tcos tr2 n M).
Hypothesis Hsin : forall n M, 0 <= n < M -> M <= Mx -> Rel (tsin tr1 n M) (tsin tr2 n M).
Hypothesis Hrs : Rel (trsqrt2 tr1) (trsqrt2 tr2).
Hypothesis HM : 31 <= Mx.
Notation C1 := (cplx T1). Notation C2 := (cplx T2).
Definition crel (a : C1) (b : C2) : Prop := Rel (fst a) (fst b) /\ Rel (snd a) (snd b).
Notation lrel := (Forall2 crel).

Lemma cadd_rel a b x y : crel a x -> crel b y -> crel (cadd N1 a b) (cadd N2 x y). Proof. intros [] []. split; cbn; auto. Qed.
Lemma csub_rel a b x y : crel a x -> crel b y -> crel (csub N1 a b) (csub N2 x y). Proof. intros [] []. split; cbn; auto. Qed.
Lemma cmul_rel a b x y : crel a x -> crel b y -> crel (cmul N1 a b) (cmul N2 x y). Proof. intros [] []. split; cbn; auto. Qed.
Lemma cscale_rel a b x y : Rel a x -> crel b y -> crel (cscale N1 a b) (cscale N2 x y). Proof. intros ? []. split; cbn; auto. Qed.
Lemma twiddle_rel a b x y : crel a x -> crel b y -> crel (twiddle N1 a b) (twiddle N2 x y). Proof. intros [] []. split; cbn; auto. Qed.
Lemma fiddle_rel a b x y : crel a x -> crel b y -> crel (fiddle N1 a b) (fiddle N2 x y). Proof. intros [] []. split; cbn; auto. Qed.
Lemma rsqrt2_rel a x : crel a x -> crel (rsqrt2 N1 tr1 a) (rsqrt2 N2 tr2 x). Proof. apply cscale_rel; auto. Qed.
Hint Resolve cadd_rel csub_rel cmul_rel twiddle_rel fiddle_rel rsqrt2_rel : prm.

Lemma crow_rel p idx a x : p <= Mx -> (forall i, In i idx -> 0 <= i < p) -> lrel a x -> crel (crow N1 tr1 p idx a) (crow N2 tr2 p idx x).
Proof.
  intros Hp Hi H. unfold crow. pose proof (combine_rel _ _ _ _ (Forall2_diag (fun i => 0 <= i < p) idx Hi) _ _ H) as Q. destruct Q as [|[i a1] [j x1] l m [[E D1] D2] Q]; [split; auto|].
  cbn [fst snd] in *. subst j. eapply fold_rel; [exact Q| |].
  - intros c z [i' v] [j' w] Hc [[E' K1] K2]. cbn [fst snd] in *. subst j'. apply cadd_rel; auto. apply cscale_rel; auto.
  - apply cscale_rel; auto.
Qed.
Lemma srow_rel p idx a x : p <= Mx -> (forall i, In i idx -> - p < i < p) -> (0 <= nth 0 idx 0) -> lrel a x -> crel (srow N1 tr1 p idx a) (srow N2 tr2 p idx x).
Proof.
  intros Hp Hi H1 H. unfold srow. 
  assert (F0 : forall i c z, combine idx a = (i, c) :: z -> 0 <= i). { intros i c z E. destruct idx; [discriminate|]. destruct a; [discriminate|]. cbn in E, H1. congruence. }
  pose proof (combine_rel _ _ _ _ (Forall2_diag (fun i => - p < i < p) idx Hi) _ _ H) as Q. destruct Q as [|[i a1] [j x1] l m [[E D1] D2] Q]; [split; auto|].
  cbn [fst snd] in *. subst j. specialize (F0 _ _ _ eq_refl). eapply fold_rel; [exact Q| |].
  - intros c z [i' v] [j' w] Hc [[E' K1] K2]. cbn [fst snd] in *. subst j'. destruct (Z.ltb_spec i' 0); [apply csub_rel|apply cadd_rel]; auto; apply cscale_rel; auto; apply Hsin; lia.
  - apply cscale_rel; auto. apply Hsin; lia.
Qed.

Definition srow_heads (tab : list (list Z * list Z)) : bool := forallb (fun r => 0 <=? nth 0 (snd r) 0) tab.
Lemma odd_heads p tab : odd_table p = Some tab -> srow_heads tab = true.
Proof.
  unfold odd_table. intros H.
  repeat match type of H with
  | (if (?x =? ?y)%Z then _ else _) = _ => destruct (Z.eqb_spec x y) as [->|]; [injection H as <-; vm_compute; reflexivity|]
  end. discriminate.
Qed.
Lemma kernel_odd_rel p tab ins x : odd_table p = Some tab -> lrel ins x -> lrel (kernel_odd N1 tr1 p tab ins) (kernel_odd N2 tr2 p tab x).
Proof.
  intros Ht H. destruct (odd_range p tab Ht) as [TR P31]. pose proof (odd_heads p tab Ht) as TH. unfold kernel_odd. destruct H as [|c z l m Hc H]; [constructor|].
  set (pa := firstn (length tab) (combine l (rev l))). set (pb := firstn (length tab) (combine m (rev m))).
  assert (PP : Forall2 (fun p q => crel (fst p) (fst q) /\ crel (snd p) (snd q)) pa pb) by (apply firstn_rel, combine_rel; auto; apply Forall2_rev; auto).
  assert (A : lrel (map (fun '(x, y) => cadd N1 x y) pa) (map (fun '(x, y) => cadd N2 x y) pb)) by (eapply map_rel; [exact PP|]; intros [] [] []; apply cadd_rel; auto).
  assert (Tw : lrel (map (fun '(x, y) => twiddle N1 x y) pa) (map (fun '(x, y) => twiddle N2 x y) pb)) by (eapply map_rel; [exact PP|]; intros [] [] []; apply twiddle_rel; auto).
  set (a1 := map _ pa) in A. set (a2 := map _ pb) in A. set (t1 := map _ pa) in Tw. set (t2 := map _ pb) in Tw.
  assert (CS : Forall2 (fun p q => crel (fst p) (fst q) /\ crel (snd p) (snd q)) (map (fun '(ci, si) => (crow N1 tr1 p ci a1, srow N1 tr1 p si t1)) tab) (map (fun '(ci, si) => (crow N2 tr2 p ci a2, srow N2 tr2 p si t2)) tab)).
  { apply map_rel_same. intros [ci si] Hin. unfold table_range in TR. rewrite forallb_forall in TR. specialize (TR _ Hin). unfold srow_heads in TH. rewrite forallb_forall in TH. specialize (TH _ Hin). cbn [fst snd] in *.
    apply andb_prop in TR. destruct TR as [R1 R2]. rewrite forallb_forall in R1, R2. split; [apply crow_rel|apply srow_rel]; auto; try lia.
    - intros i Hi. specialize (R1 i Hi). lia.
    - intros i Hi. specialize (R2 i Hi). lia. }
  constructor.
  - eapply fold_rel; [exact A| |exact Hc]. intros; apply cadd_rel; auto.
  - apply Forall2_app; [|apply Forall2_rev]; (eapply map_rel; [exact CS|]; intros [] [] [K1 K2]; cbn [fst snd] in *; auto with prm).
Qed.

Lemma kernel_rel R ins x : lrel ins x -> orel lrel (kernel N1 tr1 R ins) (kernel N2 tr2 R x).
Proof.
  intros H. assert (OD : forall i1 i2, lrel i1 i2 -> orel lrel (match odd_table R with Some tab => Ok (kernel_odd N1 tr1 R tab i1) | None => Undefined end) (match odd_table R with Some tab => Ok (kernel_odd N2 tr2 R tab i2) | None => Undefined end)).
  { intros i1 i2 HI. destruct (odd_table R) eqn:E; cbn; auto. apply kernel_odd_rel; auto. }
  pose proof (OD _ _ H) as OD'. unfold kernel.
  destruct H as [|? ? ? ? h0 H]; [exact OD'|]. destruct H as [|? ? ? ? h1 H]; [exact OD'|]. destruct H as [|? ? ? ? h2 H].
  { destruct (R =? 2); cbn; auto. unfold kernel2. repeat constructor; cbn; apply Hadd || apply Hsub; try apply h0; apply h1. }
  destruct H as [|? ? ? ? h3 H]; [exact OD'|]. destruct H as [|? ? ? ? h4 H].
  { destruct (R =? 4); cbn; auto. unfold kernel4. do 4 (apply Forall2_cons; [auto 10 with prm|]). constructor. }
  do 3 (destruct H as [|? ? ? ? ? H]; [exact OD'|]). destruct H as [|? ? ? ? ? H]; [|exact OD'].
  destruct (R =? 8); cbn; auto. unfold kernel8. do 8 (apply Forall2_cons; [auto 20 with prm|]). constructor.
Qed.
Lemma dft_rel SIGN R ins x : lrel ins x -> orel lrel (dft N1 tr1 SIGN R ins) (dft N2 tr2 SIGN R x).
Proof.
  intros H. unfold dft. eapply orel_bind; [apply kernel_rel; exact H|]. intros a b Q. destruct (SIGN =? 1); cbn; auto. destruct Q; cbn; auto. constructor; auto. apply Forall2_rev; auto.
Qed.
Lemma gets_rel a b : lrel a b -> forall n i s, orel lrel (gets a i s n) (gets b i s n).
Proof. intros H. induction n; intros i s; cbn [gets]; [constructor|]. eapply orel_bind; [apply get_rel; exact H|]. intros. eapply orel_bind; [apply IHn|]. intros. cbn. auto. Qed.
Lemma sets_rel v w : lrel v w -> forall a b o s, Forall2 (oprel crel) a b -> orel (Forall2 (oprel crel)) (sets a o s v) (sets b o s w).
Proof. induction 1; intros a b o s Q; cbn [sets]; auto. eapply orel_bind; [apply set_rel; [exact Q|]; cbn; auto|]. intros. apply IHForall2; auto. Qed.
Lemma twiddled_rel a b z y : Forall2 (oprel crel) a b -> lrel z y -> forall n k s l l1, orel lrel (twiddled N1 a z k s l l1 n) (twiddled N2 b y k s l l1 n).
Proof.
  intros HA HZ. induction n; intros k s l l1; cbn [twiddled]; [constructor|]. eapply orel_bind; [apply get_rel; exact HZ|]. intros w w' Hw. eapply orel_bind; [apply geti_rel; exact HA|]. intros x x' Hx.
  eapply orel_bind; [apply IHn|]. intros. cbn. constructor; auto. apply cmul_rel; auto.
Qed.
Lemma dit_rel SIGN inp1 inp2 z1 z2 : lrel inp1 inp2 -> lrel z1 z2 -> forall fuel R B s a b o i, Forall2 (oprel crel) a b ->
  orel (Forall2 (oprel crel)) (dit N1 tr1 fuel SIGN R B s a o inp1 i z1) (dit N2 tr2 fuel SIGN R B s b o inp2 i z2).
Proof.
  intros HI HZ. induction fuel as [|fuel IH]; intros R B s a b o i H; cbn [dit]; [exact I|]. destruct ((R =? 1) && (B =? 1))%bool.
  { eapply orel_bind; [apply get_rel; exact HI|]. intros. apply set_rel; auto. }
  destruct (R =? 1); [exact I|]. destruct (B =? R).
  { eapply orel_bind; [apply gets_rel; exact HI|]. intros. eapply orel_bind; [apply dft_rel; eassumption|]. intros. apply sets_rel; auto. }
  eapply orel_bind.
  - apply (for_loop_rel (Forall2 (oprel crel))); auto.
  - intros. apply (for_loop_rel (Forall2 (oprel crel))); auto. intros k c d Q. eapply orel_bind; [apply geti_rel; exact Q|]. intros. eapply orel_bind; [apply twiddled_rel; eassumption|]. intros.
    eapply orel_bind; [apply dft_rel; constructor; eassumption|]. intros. apply sets_rel; auto.
Qed.
Lemma factors_rel BINS SIGN : BINS <= Mx -> Rel (nofZ N1 SIGN) (nofZ N2 SIGN) -> lrel (fft_factors N1 tr1 BINS SIGN) (fft_factors N2 tr2 BINS SIGN).
Proof.
  intros HB HS. unfold fft_factors. apply map_rel_same. intros n Hn. apply in_seq in Hn. split; cbn; [|apply Hmul]; auto; apply Hcos || apply Hsin; lia.
Qed.
Lemma fft_rel BINS SIGN o1 o2 i1 i2 : BINS <= Mx -> Rel (nofZ N1 SIGN) (nofZ N2 SIGN) -> Forall2 (oprel crel) o1 o2 -> lrel i1 i2 ->
  orel (Forall2 (oprel crel)) (fft N1 tr1 BINS SIGN o1 i1) (fft N2 tr2 BINS SIGN o2 i2).
Proof. intros. unfold fft. apply dit_rel; auto. apply factors_rel; auto. Qed.

(** RealToHalfComplexTransform *)
Hypothesis Hopp : forall a x, Rel a x -> Rel (nopp N1 a) (nopp N2 x).
Hypothesis H1 : Rel (n1 N1) (n1 N2).
Hypothesis Hhalf : Rel (nlit N1 (1/2)%R) (nlit N2 (1/2)%R).
Lemma cconj_rel a x : crel a x -> crel (cconj N1 a) (cconj N2 x). Proof. intros []. split; cbn; auto. Qed.
Lemma cofr_rel a x : Rel a x -> crel (cofr N1 a) (cofr N2 x). Proof. intros. split; cbn; auto. Qed.
Lemma pairup_rel : forall l1 l2, Forall2 Rel l1 l2 -> lrel (pairup l1) (pairup l2).
Proof.
  assert (G : forall n l1 l2, (length l1 <= n)%nat -> Forall2 Rel l1 l2 -> lrel (pairup l1) (pairup l2)).
  { induction n; intros l1 l2 L H; destruct H as [|? ? ? ? ? H]; cbn [length] in L; try lia; cbn [pairup]; auto. destruct H as [|? ? ? ? ? H]; auto. constructor; [split; auto|]. apply IHn; auto. cbn [length] in L. lia. }
  intros. eapply G; eauto.
Qed.
Lemma rhct_factors_rel BINS : BINS <= Mx -> lrel (rhct_factors N1 tr1 BINS) (rhct_factors N2 tr2 BINS).
Proof.
  intros HB. unfold rhct_factors. apply map_rel_same. intros n Hn. apply in_seq in Hn. assert (BINS / 2 <= Mx) by (destruct (Z.le_gt_cases BINS 0); [assert (BINS / 2 <= 0) by (apply Z.div_le_upper_bound; lia); lia|assert (BINS / 2 <= BINS) by (apply Z.div_le_upper_bound; lia); lia]).
  split; cbn; [apply Hcos|apply Hopp, Hsin]; lia.
Qed.
Lemma rhct_AB_rel BINS : BINS <= Mx -> lrel (rhct_A N1 tr1 BINS) (rhct_A N2 tr2 BINS) /\ lrel (rhct_B N1 tr1 BINS) (rhct_B N2 tr2 BINS).
Proof.
  intros HB. assert (HD : forall n, (n < Z.to_nat (BINS / 2))%nat -> 0 <= Z.of_nat n < BINS).
  { intros n Hn. destruct (Z.le_gt_cases BINS 0); [assert (BINS / 2 <= 0) by (apply Z.div_le_upper_bound; lia); lia|assert (BINS / 2 <= BINS) by (apply Z.div_le_upper_bound; lia); lia]. }
  split; apply map_rel_same; intros n Hn; apply in_seq in Hn; specialize (HD n ltac:(lia)); apply cscale_rel; auto; apply csub_rel || apply cadd_rel; try (apply cofr_rel; auto); (split; cbn; [apply Hsin|apply Hcos]; lia).
Qed.
Lemma rhct_rel BINS o1 o2 i1 i2 : BINS <= Mx -> Forall2 (oprel crel) o1 o2 -> Forall2 Rel i1 i2 -> orel (Forall2 (oprel crel)) (rhct N1 tr1 BINS o1 i1) (rhct N2 tr2 BINS o2 i2).
Proof.
  intros HB HO HI. destruct (rhct_AB_rel BINS HB) as [HA HB']. unfold rhct. eapply orel_bind; [apply dit_rel; [apply pairup_rel; auto|apply rhct_factors_rel; auto|exact HO]|]. intros a b Q.
  eapply orel_bind; [apply geti_rel; exact Q|]. intros c d [D1 D2]. eapply orel_bind; [apply set_rel; [exact Q|]; apply cofr_rel; apply Hmul; auto|]. clear a b Q c d D1 D2. intros a b Q.
  eapply orel_bind; [apply geti_rel; exact Q|]. intros c d [D1 D2]. eapply orel_bind; [apply set_rel; [exact Q|]; apply cofr_rel; apply Hmul; auto|]. clear a b Q c d D1 D2. intros a b Q.
  apply (for_loop_rel (Forall2 (oprel crel))); auto. clear a b Q. intros j a b Q.
  eapply orel_bind; [apply geti_rel; exact Q|]. intros oi oi' Hoi. eapply orel_bind; [apply get_rel; exact HA|]. intros ai ai' Hai.
  eapply orel_bind; [apply geti_rel; exact Q|]. intros on on' Hon. eapply orel_bind; [apply get_rel; exact HB'|]. intros bi bi' Hbi.
  eapply orel_bind; [apply get_rel; exact HA|]. intros an an' Han. eapply orel_bind; [apply get_rel; exact HB'|]. intros bn bn' Hbn.
  eapply orel_bind; [apply set_rel; [exact Q|]|].
  - apply cadd_rel; apply cmul_rel; auto; apply cconj_rel; auto.
  - intros. apply set_rel; auto. apply cadd_rel; apply cmul_rel; auto; apply cconj_rel; auto.
Qed.
End Fft.
