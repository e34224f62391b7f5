(* A spline through vector valued data is computed component by component *)
From Coq Require Import ZArith List Lia.
From Verif Require Import Model.Spline Proofs.BaseLemmas.
Import ListNotations.
Open Scope Z_scope.

Definition omap {A B} (f : A -> B) (o : outcome A) : outcome B :=
  match o with Ok a => Ok (f a) | AssertFail => AssertFail | Undefined => Undefined | NoFuel => NoFuel end.
Lemma omap_bind {A B C} (f : B -> C) (o : outcome A) k : omap f (bind o k) = bind o (fun a => omap f (k a)).
Proof. destruct o; reflexivity. Qed.
Lemma bind_omap {A B C} (f : A -> B) (o : outcome A) (k : B -> outcome C) : bind (omap f o) k = bind o (fun a => k (f a)).
Proof. destruct o; reflexivity. Qed.
Lemma bind_ext {A B} (o : outcome A) (k k' : A -> outcome B) : (forall a, k a = k' a) -> bind o k = bind o k'.
Proof. destruct o; cbn; auto. Qed.
Lemma for_hom {A B} (f : A -> B) body body' : (forall i a, omap f (body i a) = body' i (f a)) ->
  forall n i s, omap f (for_loop n i body s) = for_loop n i body' (f s).
Proof.
  intros H. induction n as [|n IH]; intros i s; cbn [for_loop]; [reflexivity|]. rewrite omap_bind. rewrite <- H, bind_omap.
  apply bind_ext. intros a. apply IH.
Qed.
Lemma znth_map {A B} (f : A -> B) l i : znth (map f l) i = option_map f (znth l i).
Proof. unfold znth. destruct (i <? 0); [reflexivity|]. apply nth_error_map. Qed.
Lemma get_map {A B} (f : A -> B) l i : get (map f l) i = omap f (get l i).
Proof. unfold get. rewrite znth_map. destruct znth; reflexivity. Qed.
Lemma geti_map {A B} (f : A -> B) l i : geti (map (option_map f) l) i = omap f (geti l i).
Proof. unfold geti. rewrite znth_map. destruct znth as [[a|]|]; reflexivity. Qed.
Lemma upd_map {A B} (f : A -> B) l : forall i v, upd (map f l) i (f v) = map f (upd l i v).
Proof. induction l as [|a l IH]; intros [|i] v; cbn; try reflexivity. rewrite IH. reflexivity. Qed.
Lemma set_map {A B} (f : A -> B) l i v : set (map f l) i (f v) = omap (map f) (set l i v).
Proof. unfold set, zlen. rewrite map_length. destruct (_ && _)%bool; [|reflexivity]. unfold zupd. rewrite upd_map. reflexivity. Qed.

Section Hom.
Context {T V W : Type} (M : num T) (OV : ovs T V) (OW : ovs T W) (toint : T -> outcome BinNums.Z) (f : V -> W).
Hypothesis f0 : f (v0 (ov_ops OV)) = v0 (ov_ops OW).
Hypothesis fadd : forall a b, f (vadd (ov_ops OV) a b) = vadd (ov_ops OW) (f a) (f b).
Hypothesis fsub : forall a b, f (vsub (ov_ops OV) a b) = vsub (ov_ops OW) (f a) (f b).
Hypothesis fscale : forall t a, f (vscale (ov_ops OV) t a) = vscale (ov_ops OW) t (f a).
Hypothesis fdiv : forall a t, f (ov_div OV a t) = ov_div OW (f a) t.
Definition cmap (c : coef V) : coef W := mkCoef (f (cA c)) (f (cB c)) (f (cC c)) (f (cD c)).
Definition smap (s : spline T V) : spline T W := mkSpline (map (option_map cmap) (sp_coef s)) (sp_x0 s) (sp_dx s).
Lemma yat_map Y ST i : yat (map f Y) ST i = omap f (yat Y ST i).
Proof. unfold yat. destruct (ichk _); cbn [bind omap]; auto. apply get_map. Qed.
Lemma set_some {A B} (g : A -> B) l i v : set (map (option_map g) l) i (Some (g v)) = omap (map (option_map g)) (set l i (Some v)).
Proof. apply (set_map (option_map g) l i (Some v)). Qed.
Lemma repeat_none {A B} (g : A -> B) n : repeat None n = map (option_map g) (repeat None n).
Proof. induction n; cbn; congruence. Qed.
Ltac hom := repeat (rewrite ?omap_bind, ?bind_omap; apply bind_ext; intros); cbn [omap]; rewrite ?fadd, ?fsub, ?fscale, ?fdiv, ?fadd, ?fsub, ?fscale, ?fdiv; try reflexivity.
Lemma forward_hom K ST Y : spl_forward M OW K ST (map f Y) = omap (fun '(U, Z) => (U, map (option_map f) Z)) (spl_forward M OV K ST Y).
Proof.
  unfold spl_forward. rewrite omap_bind. apply bind_ext. intros U. rewrite omap_bind. rewrite (repeat_none f), <- f0, set_some, bind_omap.
  apply bind_ext. intros Z. symmetry. rewrite (for_hom (fun '(U, Z) => (U, map (option_map f) Z))) with (body' := fun i '(U, Z) =>
    u <- geti U (i - 1) ;;
    let l := nsub M (nofZ M 4) u in
    U <- set U i (Some (ndiv M (nofZ M 1) l)) ;;
    y2 <- yat (map f Y) ST (i + 1) ;; y1 <- yat (map f Y) ST i ;; y0 <- yat (map f Y) ST (i - 1) ;;
    z <- geti Z (i - 1) ;;
    Z <- set Z i (Some (ov_div OW (vsub (ov_ops OW) (vscale (ov_ops OW) (nofZ M 3) (vadd (ov_ops OW) (vsub (ov_ops OW) y2 (vscale (ov_ops OW) (nofZ M 2) y1)) y0)) z) l)) ;;
    Ok (U, Z)); [reflexivity|].
  intros i (U', Z'). rewrite omap_bind. apply bind_ext. intros u. cbv zeta. rewrite omap_bind. apply bind_ext. intros U2. rewrite !yat_map.
  rewrite omap_bind, bind_omap. apply bind_ext. intros y2. rewrite omap_bind, bind_omap. apply bind_ext. intros y1. rewrite omap_bind, bind_omap. apply bind_ext. intros y0.
  rewrite geti_map, omap_bind, bind_omap. apply bind_ext. intros z.
  rewrite omap_bind. rewrite <- fscale, <- fsub, <- fadd, <- fscale, <- fsub, <- fdiv. rewrite set_some, bind_omap. apply bind_ext. reflexivity.
Qed.
Lemma backward_hom K ST Y U Z : spl_backward M OW K ST (map f Y) U (map (option_map f) Z) =
  omap (fun '(cs, c) => (map (option_map cmap) cs, f c)) (spl_backward M OV K ST Y U Z).
Proof.
  unfold spl_backward. rewrite (repeat_none cmap), <- f0. symmetry. set (g := fun '(cs, c) => (map (option_map cmap) cs, f c)).
  match goal with |- omap g (for_loop _ _ _ (?cs, ?c)) = for_loop _ _ ?b _ => rewrite (for_hom g) with (body' := b); [reflexivity|] end.
  intros n (cs, c). cbv zeta. cbn [g]. rewrite !yat_map. rewrite omap_bind, bind_omap. apply bind_ext. intros y0.
  rewrite geti_map, omap_bind, bind_omap. apply bind_ext. intros z. rewrite omap_bind. apply bind_ext. intros u.
  rewrite omap_bind, bind_omap. apply bind_ext. intros y1. rewrite omap_bind.
  replace (mkCoef _ _ _ _) with (cmap (mkCoef y0 (vsub (ov_ops OV) (vsub (ov_ops OV) y1 y0) (ov_div OV (vadd (ov_ops OV) c (vscale (ov_ops OV) (nofZ M 2) (vsub (ov_ops OV) z (vscale (ov_ops OV) u c)))) (nofZ M 3)))
    (vsub (ov_ops OV) z (vscale (ov_ops OV) u c)) (ov_div OV (vsub (ov_ops OV) c (vsub (ov_ops OV) z (vscale (ov_ops OV) u c))) (nofZ M 3)))).
  2: { unfold cmap. cbn [cA cB cC cD]. rewrite ?fdiv, ?fsub, ?fdiv, ?fadd, ?fscale, ?fsub, ?fscale. reflexivity. }
  rewrite set_some, bind_omap. apply bind_ext. intros cs'. cbn. rewrite fsub, fscale. reflexivity.
Qed.
Lemma new_hom K Y x0 dx ST : spl_new M OW K (map f Y) x0 dx ST = omap smap (spl_new M OV K Y x0 dx ST).
Proof.
  unfold spl_new. rewrite forward_hom, bind_omap, omap_bind. apply bind_ext. intros (U, Z). rewrite backward_hom, bind_omap, omap_bind. apply bind_ext. intros (cs, c). reflexivity.
Qed.
Lemma at_hom K s x : spl_at M OW toint K (smap s) x = omap f (spl_at M OV toint K s x).
Proof.
  unfold spl_at. rewrite omap_bind. apply bind_ext. intros k. cbn [smap sp_x0 sp_dx sp_coef].
  set (p := if k <? 0 then _ else _). destruct p as (k1, t1). set (p := if K - 1 <=? k1 then _ else _). destruct p as (k2, t2).
  rewrite geti_map, bind_omap, omap_bind. apply bind_ext. intros c. cbn [omap cmap cA cB cC cD]. rewrite !fadd, !fscale, !fadd, !fscale, !fadd, !fscale. reflexivity.
Qed.

Lemma left_hom X Y k : hx_left M OW X (map f Y) k = omap f (hx_left M OV X Y k).
Proof. unfold hx_left. rewrite !get_map. hom. Qed.
Lemma right_hom X Y k : hx_right M OW X (map f Y) k = omap f (hx_right M OV X Y k).
Proof. unfold hx_right. rewrite !get_map. hom. Qed.
Lemma central_hom X Y k : hx_central M OW X (map f Y) k = omap f (hx_central M OV X Y k).
Proof. unfold hx_central. rewrite left_hom, right_hom. hom. Qed.
Lemma poly_hom X Y t k m0 m1 : hx_poly M OW X (map f Y) t k (omap f m0) (omap f m1) = omap f (hx_poly M OV X Y t k m0 m1).
Proof. unfold hx_poly. rewrite !get_map. hom. Qed.
Lemma seg_hom X Y t k n : hx_seg M OW X (map f Y) t k n = omap f (hx_seg M OV X Y t k n).
Proof. unfold hx_seg. rewrite !right_hom, !left_hom, !central_hom, !poly_hom. destruct (k <? 1); [|destruct (k <? n - 2)]; reflexivity. Qed.
Lemma hx_hom X Y x n : hx_at M OW X (map f Y) x n = omap f (hx_at M OV X Y x n).
Proof.
  unfold hx_at. rewrite omap_bind. apply bind_ext. intros k. destruct (k <? 1); [|destruct (k <? n)]; rewrite omap_bind; apply bind_ext; intros; apply seg_hom.
Qed.
Lemma uleft_hom Y k : hu_left OW (map f Y) k = omap f (hu_left OV Y k).
Proof. unfold hu_left. rewrite !get_map. hom. Qed.
Lemma uright_hom Y k : hu_right OW (map f Y) k = omap f (hu_right OV Y k).
Proof. unfold hu_right. rewrite !get_map. hom. Qed.
Lemma ucentral_hom Y k : hu_central M OW (map f Y) k = omap f (hu_central M OV Y k).
Proof. unfold hu_central. rewrite !get_map. hom. Qed.
Lemma upoly_hom Y t k m0 m1 : hu_poly M OW (map f Y) t k (omap f m0) (omap f m1) = omap f (hu_poly M OV Y t k m0 m1).
Proof. unfold hu_poly. rewrite !get_map. hom. Qed.
Lemma useg_hom Y t k n : hu_seg M OW (map f Y) t k n = omap f (hu_seg M OV Y t k n).
Proof. unfold hu_seg. rewrite !uright_hom, !uleft_hom, !ucentral_hom, !upoly_hom. destruct (k <? 1); [|destruct (k <? n - 2)]; reflexivity. Qed.
Lemma hu_hom Y x n x0 dx : hu_at M OW toint (map f Y) x n x0 dx = omap f (hu_at M OV toint Y x n x0 dx).
Proof.
  unfold hu_at. rewrite omap_bind. apply bind_ext. intros k. destruct (k <? 0); [|destruct (k <? n - 1)]; apply useg_hom.
Qed.
End Hom.

Section Parts.
Context {T : Type} (M : num T) (toint : T -> outcome Z).
Notation CV := (ocplx M). Notation RV := (oreal M).
Lemma parts_ok {A B C} (o : outcome A) (f : A -> B) (g : A -> C) b c : omap f o = Ok b -> omap g o = Ok c -> exists a, o = Ok a /\ f a = b /\ g a = c.
Proof. destruct o; cbn; intros E1 E2; try discriminate. injection E1 as <-. injection E2 as <-. eauto. Qed.
Lemma cplx_new K Y x0 dx ST sr si : spl_new M RV K (map creal Y) x0 dx ST = Ok sr -> spl_new M RV K (map cimag Y) x0 dx ST = Ok si ->
  exists s, spl_new M CV K Y x0 dx ST = Ok s /\
    forall x a b, spl_at M RV toint K sr x = Ok a -> spl_at M RV toint K si x = Ok b -> spl_at M CV toint K s x = Ok (a, b).
Proof.
  intros E1 E2. rewrite (new_hom M CV RV creal) in E1 by reflexivity. rewrite (new_hom M CV RV cimag) in E2 by reflexivity.
  destruct (parts_ok _ _ _ _ _ E1 E2) as (s & E & Er & Ei). exists s. split; [exact E|]. intros x a b A B. subst sr si.
  rewrite (at_hom M CV RV toint creal) in A by reflexivity. rewrite (at_hom M CV RV toint cimag) in B by reflexivity.
  destruct (parts_ok _ _ _ _ _ A B) as ((a', b') & -> & <- & <-). reflexivity.
Qed.
Lemma cplx_hx X Y x n a b : hx_at M RV X (map creal Y) x n = Ok a -> hx_at M RV X (map cimag Y) x n = Ok b -> hx_at M CV X Y x n = Ok (a, b).
Proof.
  intros A B. rewrite (hx_hom M CV RV creal) in A by reflexivity. rewrite (hx_hom M CV RV cimag) in B by reflexivity.
  destruct (parts_ok _ _ _ _ _ A B) as ((a', b') & -> & <- & <-). reflexivity.
Qed.
Lemma cplx_hu Y x n x0 dx a b : hu_at M RV toint (map creal Y) x n x0 dx = Ok a -> hu_at M RV toint (map cimag Y) x n x0 dx = Ok b -> hu_at M CV toint Y x n x0 dx = Ok (a, b).
Proof.
  intros A B. rewrite (hu_hom M CV RV toint creal) in A by reflexivity. rewrite (hu_hom M CV RV toint cimag) in B by reflexivity.
  destruct (parts_ok _ _ _ _ _ A B) as ((a', b') & -> & <- & <-). reflexivity.
Qed.
End Parts.
