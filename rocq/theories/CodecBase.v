(* Base lemmas on the codec model: types, values, paths. *)
From Verif Require Import Bytes Types JsonSpec Parser Doc DocSpec Float Num Options Codec CodecSpec CodecMerge.

Lemma kindOf_typeOf E t k : kindOf E t = Some k -> exists T, typeOf E t = Some T /\ tkind T = k.
Proof. unfold kindOf. destruct (typeOf E t) as [T|]; [|discriminate]. cbn. intro H. injection H as H. eauto. Qed.
Lemma typeOf_kindOf E t T : typeOf E t = Some T -> kindOf E t = Some (tkind T).
Proof. intro H. unfold kindOf. rewrite H. reflexivity. Qed.
Lemma kindOf_lt E t k : kindOf E t = Some k -> t < length (types E).
Proof. unfold kindOf, typeOf. intro H. apply nth_error_Some. intro N. rewrite N in H. discriminate. Qed.
Lemma lt_kindOf E t : t < length (types E) -> exists k, kindOf E t = Some k.
Proof. intro H. unfold kindOf, typeOf. apply nth_error_Some in H. destruct (nth_error (types E) t); [eexists; reflexivity|congruence]. Qed.

Lemma subseq_In {A} (a b : list A) : subseq a b -> forall x, In x a -> In x b.
Proof. induction 1; cbn; intuition auto. Qed.
Lemma offers_ctype_lt E O : (forall t k u, kindOf E t = Some k -> In u (mentions k) -> u < length (types E)) ->
  (forall t p l, offers E O t p l -> forall c, In c l -> ctype c < length (types E)) /\
  (forall p i fs l, offers_from E O p i fs l -> (forall f, In f fs -> ftype f < length (types E)) -> forall c, In c l -> ctype c < length (types E)).
Proof.
  intro W. apply offers_mutind.
  - intros t p fs l K F IH. apply IH. intros f If. eapply W; [exact K|]. cbn. apply in_map. exact If.
  - intros p i _ c [].
  - intros p i f fs l _ _ IH Hf. apply IH. intros g Ig. apply Hf. right. exact Ig.
  - intros p i f fs l key h tg _ _ _ _ _ IH Hf c [<-|Ic]; [apply Hf; left; reflexivity|]. apply IH; auto. intros g Ig. apply Hf. right. exact Ig.
  - intros p i f fs l key h idx _ _ _ _ _ _ _ _ IH Hf c [<-|Ic]; [apply Hf; left; reflexivity|]. apply IH; auto. intros g Ig. apply Hf. right. exact Ig.
  - intros p i f fs l key h gs l1 _ _ _ _ _ _ IH1 _ IH Hf c Ic. apply in_app_iff in Ic as [Ic|Ic]; [apply IH1; exact Ic|]. apply IH; auto. intros g Ig. apply Hf. right. exact Ig.
  - intros p i f fs l key h e gs l1 _ _ _ _ _ _ _ IH1 _ IH Hf c Ic. apply in_app_iff in Ic as [Ic|Ic]; [apply IH1; exact Ic|]. apply IH; auto. intros g Ig. apply Hf. right. exact Ig.
Qed.
(* ---- paths ---- *)
Lemma walks_app E t p u q v : walks E t p u -> walks E u q v -> walks E t (p ++ q) v.
Proof. induction 1; cbn; intros; [assumption|econstructor; eauto|econstructor; eauto]. Qed.
Lemma offers_walks E O : embeds_structs E ->
  (forall t p l, offers E O t p l -> forall c, In c l -> exists i r, cindex c = p ++ Z.of_nat i :: r /\ walks E t (Z.of_nat i :: r) (ctype c)) /\
  (forall p i fs l, offers_from E O p i fs l -> forall t pre, kindOf E t = Some (KStruct (pre ++ fs)) -> length pre = i ->
     forall c, In c l -> exists i r, cindex c = p ++ Z.of_nat i :: r /\ walks E t (Z.of_nat i :: r) (ctype c)).
Proof.
  intro W.
  assert (At : forall t pre f fs p r u, kindOf E t = Some (KStruct (pre ++ f :: fs)) -> walks E (ftype f) r u ->
    walks E t (Z.of_nat (length pre) :: r) u /\ (p ++ Z.of_nat (length pre) :: r)%list = (p ++ Z.of_nat (length pre) :: r)%list).
  { intros t pre f fs p r u K Wk. split; auto. eapply wk_field; [exact K| |exact Wk]. rewrite nth_error_app2 by lia. rewrite Nat.sub_diag. reflexivity. }
  assert (Nx : forall t pre (f : sfield) fs, kindOf E t = Some (KStruct (pre ++ f :: fs)) -> kindOf E t = Some (KStruct ((pre ++ [f]) ++ fs))) by (intros; rewrite <- app_assoc; assumption).
  assert (Ln : forall pre (f : sfield), length (pre ++ [f]) = S (length pre)) by (intros; rewrite app_length; cbn; lia).
  apply offers_mutind.
  - intros t p fs l K F IH c Ic. exact (IH t [] K eq_refl c Ic).
  - intros p i t pre _ _ c [].
  - intros p i f fs l _ _ IH t pre K <-. exact (IH t (pre ++ [f]) (Nx _ _ _ _ K) (Ln _ _)).
  - intros p i f fs l key h tg _ _ _ _ _ IH t pre K <- c [<-|Ic]; [|exact (IH t (pre ++ [f]) (Nx _ _ _ _ K) (Ln _ _) c Ic)].
    exists (length pre), []. split; [reflexivity|]. exact (proj1 (At t pre f fs [] [] (ftype f) K (wk_nil E _))).
  - intros p i f fs l key h idx _ _ _ An Ns Np Hi _ IH t pre K <- c [<-|Ic]; [|exact (IH t (pre ++ [f]) (Nx _ _ _ _ K) (Ln _ _) c Ic)].
    assert (idx = p ++ [Z.of_nat (length pre)]).
    { rewrite Hi. destruct (kindOf E (ftype f)) as [[]|] eqn:Kf; auto. exfalso. destruct (W t _ f e K ltac:(apply in_elt) An Kf) as (gs & Kg). exact (Np e gs eq_refl Kg). }
    exists (length pre), []. split; [assumption|]. exact (proj1 (At t pre f fs [] [] (ftype f) K (wk_nil E _))).
  - intros p i f fs l key h gs l1 _ _ _ _ _ _ IH1 _ IH t pre K <- c Ic. apply in_app_iff in Ic as [Ic|Ic]; [|exact (IH t (pre ++ [f]) (Nx _ _ _ _ K) (Ln _ _) c Ic)].
    destruct (IH1 c Ic) as (j & r & Ei & Wk). exists (length pre), (Z.of_nat j :: r). split; [rewrite Ei, <- app_assoc; reflexivity|]. exact (proj1 (At t pre f fs [] _ _ K Wk)).
  - intros p i f fs l key h e gs l1 _ _ _ _ Ke _ _ IH1 _ IH t pre K <- c Ic. apply in_app_iff in Ic as [Ic|Ic]; [|exact (IH t (pre ++ [f]) (Nx _ _ _ _ K) (Ln _ _) c Ic)].
    destruct (IH1 c Ic) as (j & r & Ei & Wk). exists (length pre), (-1 :: Z.of_nat j :: r)%Z. split; [rewrite Ei, <- app_assoc; reflexivity|].
    exact (proj1 (At t pre f fs [] _ _ K (wk_ptr E _ _ _ _ Ke Wk))).
Qed.
Lemma structFields_walks E O t cs : embeds_structs E -> structFields E O t = Ok cs -> forall c, In c cs -> exists i r, cindex c = Z.of_nat i :: r /\ walks E t (cindex c) (ctype c).
Proof.
  intros W F c Ic. destruct (structFields_offers _ _ _ _ F) as (l & Ol & ->). destruct (fold_subseq l []) as (l' & Fl & Sl). rewrite Fl in Ic.
  destruct (proj1 (offers_walks E O W) _ _ _ Ol c (subseq_In _ _ Sl c Ic)) as (i & r & Ei & Wk). exists i, r. rewrite Ei. split; [reflexivity|exact Wk].
Qed.

(* ---- values ---- *)
Lemma inside_trans a b c : inside a b -> inside b c -> inside a c.
Proof. induction 1; intros; try assumption; econstructor; eauto. Qed.
Lemma In_max {A} (f : A -> nat) l x : In x l -> f x <= list_max (map f l).
Proof. intro I. assert (H : Forall (fun k => k <= list_max (map f l)) (map f l)) by (apply list_max_le; lia). rewrite Forall_forall in H. apply H. apply in_map. exact I. Qed.
Lemma vdepth_pos v : 1 <= vdepth v.
Proof. destruct v as [| | | | |[[]|]|[]|[[]|]| |[]| |]; cbn; lia. Qed.
Lemma Forall2_nth {A B} (R : A -> B -> Prop) l m : Forall2 R l m -> forall i x, nth_error l i = Some x -> exists y, nth_error m i = Some y /\ R x y.
Proof. induction 1; intros [|i] x0 N; cbn in *; try discriminate; [injection N as <-; eauto|eauto]. Qed.
Lemma fieldAt_nat l i : fieldAt l (Z.of_nat i) = nth_error l i.
Proof. unfold fieldAt. replace (Z.of_nat i <? 0)%Z with false by (symmetry; apply Z.ltb_ge; lia). rewrite Nat2Z.id. reflexivity. Qed.
Lemma field_typed E t p u : walks E t p u -> forall v, typed E t v ->
  exists o, fieldByIndex v p = Ok o /\ match o with None => True | Some x => typed E u x /\ inside v x /\ vdepth x + length p <= vdepth v end.
Proof.
  induction 1 as [t|t fs i f path u K N Wk IH|t e path u K Wk IH]; intros v T.
  - exists (Some v). cbn. split; auto. split; auto. split; [constructor|]. cbn [length]. lia.
  - cbn [fieldByIndex]. replace (Z.of_nat i =? -1)%Z with false by (symmetry; apply Z.eqb_neq; lia).
    inversion T; subst; try congruence; try (match goal with A : _ \/ _ |- _ => destruct A; congruence end). match goal with A : kindOf E t = Some (KStruct ?g) |- _ => assert (g = fs) by congruence; subst g end.
    destruct (Forall2_nth _ _ _ H0 _ _ N) as (x & Nx & Tx). rewrite (fieldAt_nat l i), Nx. destruct (IH x Tx) as (o & -> & Ho). exists o. split; auto. destruct o as [y|]; auto.
    destruct Ho as (Ty & Iy & Dy). pose proof (nth_error_In _ _ Nx) as Ix. split; auto. split; [econstructor; eauto|]. pose proof (In_max vdepth l x Ix). cbn [vdepth length]. lia.
  - cbn [fieldByIndex]. change (-1 =? -1)%Z with true. cbn iota. inversion T; subst; try congruence; try (match goal with A : _ \/ _ |- _ => destruct A; congruence end).
    + exists None. auto.
    + match goal with A : kindOf E t = Some (KPtr ?g) |- _ => assert (g = e) by congruence; subst g end. destruct (IH x H0) as (o & -> & Ho). exists o. split; auto. destruct o as [y|]; auto.
      destruct Ho as (Ty & Iy & Dy). split; auto. split; [econstructor; eauto|]. cbn [vdepth length]. lia.
Qed.
Lemma codec_field E O t cs v c : embeds_structs E -> structFields E O t = Ok cs -> typed E t v -> In c cs ->
  exists o, fieldByIndex v (cindex c) = Ok o /\ match o with None => True | Some x => typed E (ctype c) x /\ inside v x /\ vdepth x < vdepth v end.
Proof.
  intros W F T Ic. destruct (structFields_walks E O t cs W F c Ic) as (i & r & Ei & Wk). destruct (field_typed _ _ _ _ Wk v T) as (o & Eo & Ho). exists o. split; auto.
  destruct o; auto. destruct Ho as (A & B & C). split; auto. split; auto. rewrite Ei in C. cbn [length] in C. lia.
Qed.
