(* Which fields are omitted (C44). *)
From Verif Require Import Bytes Types JsonSpec Parser Doc DocSpec Float Num Options Codec CodecSpec CodecMerge CodecBase CodecBuild.
Local Open Scope nat_scope.

Lemma fieldAt_some l i x : fieldAt l i = Some x -> exists k, i = Z.of_nat k /\ nth_error l k = Some x.
Proof. unfold fieldAt. destruct (Z.ltb_spec i 0) as [L|L]; [discriminate|]. intro H. exists (Z.to_nat i). rewrite Z2Nat.id by exact L. auto. Qed.
Lemma fieldByIndex_reaches : forall p v o, fieldByIndex v p = Ok o -> forall x, o = Some x <-> reaches v p x.
Proof.
  induction p as [|i p IH]; intros v o F x; cbn [fieldByIndex] in F.
  - injection F as <-. split; [intro H; injection H as ->; constructor|intro H; inversion H; subst; reflexivity].
  - destruct (Z.eqb_spec i (-1)%Z) as [->|Ni].
    + destruct v as [| | | | | |[y|]| | | | |]; try discriminate.
      * rewrite (IH y o F x). split; [constructor; assumption|]. intro H. inversion H; subst; try lia. assumption.
      * injection F as <-. split; [discriminate|]. intro H. inversion H; lia.
    + destruct v as [| | | | | | | | | |l|]; try discriminate. destruct (fieldAt l i) as [y|] eqn:Ny; [|discriminate]. rewrite (IH y o F x).
      apply fieldAt_some in Ny as (k & -> & Ny). split; [econstructor; eassumption|]. intro H. inversion H as [|? j ? ? ? Nj R|]; subst. assert (j = k) by lia. subst j. congruence.
Qed.
Lemma fieldByIndex_none p v : fieldByIndex v p = Ok None -> forall x, ~ reaches v p x.
Proof. intros F x R. apply (fieldByIndex_reaches p v None F x) in R. discriminate. Qed.
Lemma fieldByIndex_some p v x : fieldByIndex v p = Ok (Some x) -> reaches v p x.
Proof. intro F. apply (fieldByIndex_reaches p v _ F). reflexivity. Qed.
Lemma reaches_det p v x y o : fieldByIndex v p = Ok o -> reaches v p x -> reaches v p y -> x = y.
Proof. intros F A B. apply (fieldByIndex_reaches p v o F) in A. apply (fieldByIndex_reaches p v o F) in B. congruence. Qed.

Lemma bind_ok {A B} (r : res A) (f : A -> res B) y : bind r f = Ok y -> exists x, r = Ok x /\ f x = Ok y.
Proof. destruct r; cbn; try discriminate. eauto. Qed.
Ltac ok H := apply bind_ok in H as (? & ? & H).

Lemma runCustom_some E O addr t v b : runCustom E (newCustomOmiter E O t) t addr v = Ok (Some b) -> asks E O addr t v b.
Proof.
  unfold newCustomOmiter. destruct (typeOf E t) as [T|] eqn:Ty; [|discriminate]. destruct (hasOmit (tmeth T) (oOmitMethod O)) eqn:Hm.
  - cbn. intro H. ok H. injection H as <-. eapply ask_type; eassumption.
  - assert (P : forall e, tkind T = KPtr e -> runCustom E match typeOf E e with Some X => if hasOmit (tmeth X) (oOmitMethod O) then CElem e else CNone | None => CNone end t addr v = Ok (Some b) -> asks E O addr t v b).
    { intros e K H. destruct (typeOf E e) as [X|] eqn:Te; [|discriminate]. destruct (hasOmit (tmeth X) (oOmitMethod O)) eqn:Hx; [|discriminate]. cbn in H.
      destruct v as [| | | | | |[x|]| | | | |]; try discriminate; [ok H; injection H as <-; eapply ask_elem; eassumption|injection H as <-; eapply ask_nil; eassumption]. }
    assert (A : (forall e, tkind T <> KPtr e) -> runCustom E (if hasOmit (tptr T) (oOmitMethod O) then CAddr else CNone) t addr v = Ok (Some b) -> asks E O addr t v b).
    { intros K H. destruct (hasOmit (tptr T) (oOmitMethod O)) eqn:Hp; [|discriminate]. cbn in H. eapply ask_addr; try eassumption.
      destruct addr; [ok H; injection H as <-; assumption|injection H as <-; reflexivity]. }
    destruct (tkind T) eqn:K; try (apply A; intros ? ?; discriminate). apply (P e eq_refl).
Qed.
Lemma runCustom_none E O addr t v : runCustom E (newCustomOmiter E O t) t addr v = Ok None -> silent E O t.
Proof.
  intros H T Ty. unfold newCustomOmiter in H. rewrite Ty in H. destruct (hasOmit (tmeth T) (oOmitMethod O)) eqn:Hm; [cbn in H; ok H; discriminate|]. split; auto.
  assert (A : runCustom E (if hasOmit (tptr T) (oOmitMethod O) then CAddr else CNone) t addr v = Ok None -> hasOmit (tptr T) (oOmitMethod O) = false).
  { destruct (hasOmit (tptr T) (oOmitMethod O)); auto. cbn. destruct addr; intro K; [ok K|]; discriminate. }
  destruct (tkind T) eqn:K; auto. intros X Te. rewrite Te in H. destruct (hasOmit (tmeth X) (oOmitMethod O)); auto. cbn in H. destruct v as [| | | | | |[x|]| | | | |]; try discriminate. ok H. discriminate.
Qed.
Lemma asks_runCustom E O addr t v b : asks E O addr t v b -> runCustom E (newCustomOmiter E O t) t addr v = Ok (Some b).
Proof.
  unfold newCustomOmiter. intro A. inversion A as [? T ? ? Ty Hm C|? T e X Ty Hm K Te Hx|? T e X x ? Ty Hm K Te Hx C|? T ? ? Ty Hm K Hp C]; subst; rewrite Ty, Hm; cbn.
  - rewrite C. reflexivity.
  - rewrite K, Te, Hx. reflexivity.
  - rewrite K, Te, Hx. cbn. rewrite C. reflexivity.
  - rewrite Hp. destruct (tkind T) eqn:Kt; try (exfalso; eapply K; reflexivity); cbn; destruct addr; try rewrite C; reflexivity.
Qed.
Lemma silent_asks E O addr t v b : silent E O t -> ~ asks E O addr t v b.
Proof.
  intros S A. inversion A as [? T ? ? Ty Hm C|? T e X Ty Hm K Te Hx|? T e X x ? Ty Hm K Te Hx C|? T ? ? Ty Hm K Hp C]; subst; destruct (S _ Ty) as [S1 S2]; try congruence.
  - rewrite K in S2. rewrite (S2 _ Te) in Hx. discriminate.
  - rewrite K in S2. rewrite (S2 _ Te) in Hx. discriminate.
  - destruct (tkind T) eqn:Kt; congruence.
Qed.

Lemma omitAll_spec (om : gv -> res bool) (P : gv -> Prop) : (forall x b, om x = Ok b -> if b then P x else ~ P x) -> forall l b, omitAll om l = Ok b -> if b then Forall P l else ~ Forall P l.
Proof.
  intro H. induction l as [|x l IH]; intros b O; cbn in O; [injection O as <-; constructor|]. ok O. destruct x0.
  - specialize (IH _ O). pose proof (H _ _ H0). destruct b; [constructor; assumption|intro F; inversion F; subst; auto].
  - injection O as <-. intro F. inversion F; subst. exact (H _ _ H0 H3).
Qed.
Ltac em_inv H := inversion H; subst; try (eapply silent_asks; eassumption); try congruence; try (match goal with A : _ \/ _ |- _ => destruct A; congruence end).
Lemma newOmiter_spec E O addr : forall fuel t v b, newOmiter fuel E O t addr v = Ok b -> if b then empty E O addr t v else ~ empty E O addr t v.
Proof.
  induction fuel as [|k IH]; [discriminate|]. intros t v b H. cbn [newOmiter] in H. ok H. destruct x as [c|].
  - injection H as <-. pose proof (runCustom_some _ _ _ _ _ _ H0) as A. destruct c; [apply em_method; exact A|]. intro M.
    inversion M; subst; try (exfalso; eapply silent_asks; eassumption). apply asks_runCustom in H. congruence.
  - pose proof (runCustom_none _ _ _ _ _ H0) as S. destruct (typeOf E t) as [T|] eqn:Ty; [|discriminate]. pose proof (typeOf_kindOf _ _ _ Ty) as K.
    assert (NA : forall b, ~ asks E O addr t v b) by (intro; apply silent_asks; exact S).
    destruct (tkind T) as [| | | | | |[]| | | | | |] eqn:Kt; destruct v as [x|z|z|f|s|[x|]|[x|]|[[l s]|]|l|[m|]|l|]; cbn [isNil] in H; try discriminate; try (injection H as <-);
      try (intro M; em_inv M; fail); try (econstructor; eauto; fail).
    all: try (destruct x; cbn; [intro M; em_inv M|econstructor; eauto]; fail).
    all: try (destruct (Z.eqb_spec z 0) as [->|Nz]; [econstructor; eauto|intro M; em_inv M]; fail).
    all: try (destruct (feq f zeroF) eqn:Ef; [econstructor; eauto|intro M; em_inv M]; fail).
    all: try (destruct s; cbn; [econstructor; eauto|intro M; em_inv M]; fail).
    all: try (destruct l; cbn; [econstructor; eauto|intro M; em_inv M]; fail).
    all: try (destruct m; cbn; [econstructor; eauto|intro M; em_inv M]; fail).
    destruct (Nat.eqb_spec (length l) n) as [L|]; [|discriminate]. pose proof (omitAll_spec _ (empty E O addr e) (fun x b => IH e x b) l b H) as F.
    destruct b; [eapply em_array; eauto|]. intro M. em_inv M; apply F; congruence.
Qed.
Lemma fieldwise_handled E t T : typeOf E t = Some T -> fieldwise E t <-> (exists l, tkind T = KStruct l) /\ handled (IEnc t) (tmeth T) = false.
Proof.
  intro Ty. unfold fieldwise, handled, marshals. cbn [idec]. split.
  - intros (T' & fs & A & K & B & C & D). rewrite Ty in A. injection A as <-. rewrite B, C, D. eauto.
  - intros [(l & K) H]. exists T, l. destruct (isAppender (tmeth T)), (isJSON (tmeth T)), (isText (tmeth T)); try discriminate. auto.
Qed.
Lemma hasHint_omitempty c : hasHint (chints c) hintOmitempty = true <-> omitempty c.
Proof. apply N.eqb_eq. Qed.
Lemma omitFields_spec (om : codec * (nat * nat) -> gv -> res bool) (P : codec -> gv -> Prop) v :
  forall fs b, (forall c x b, In c fs -> om c x = Ok b -> if b then P (fst c) x else ~ P (fst c) x) -> omitFields om fs v = Ok b ->
  if b then forall d y, In d (map fst fs) -> reaches v (cindex d) y -> P d y else ~ forall d y, In d (map fst fs) -> reaches v (cindex d) y -> P d y.
Proof.
  induction fs as [|c cs IH]; intros b H O; cbn in O; [injection O as <-; intros d y []|]. specialize (IH b (fun c x b I => H c x b (or_intror I))). ok O. destruct x as [x|].
  - ok O. pose proof (H _ _ _ (or_introl eq_refl) H1) as Hx. pose proof (fieldByIndex_some _ _ _ H0) as R. destruct x0.
    + specialize (IH O). destruct b.
      * intros d y [<-|Id] Ry; [|eauto]. rewrite (reaches_det _ _ _ _ _ H0 Ry R). exact Hx.
      * intro F. apply IH. intros. apply F; [right|]; assumption.
    + injection O as <-. intro F. apply Hx. apply F; [left; reflexivity|exact R].
  - specialize (IH O). pose proof (fieldByIndex_none _ _ H0) as N. destruct b.
    + intros d y [<-|Id] Ry; [exfalso; exact (N _ Ry)|eauto].
    + intro F. apply IH. intros. apply F; [right|]; assumption.
Qed.
Lemma omitempty_hints c : omitempty c -> chints c <> 0%N.
Proof. unfold omitempty. intros H K. rewrite K in H. discriminate H. Qed.
Lemma omit_spec E G O addr : sound E O G -> forall fuel c v b, serves E G (snd (snd c)) (IEnc (ctype (fst c))) (chints (fst c)) -> omit fuel E G O addr c v = Ok b ->
  if b then dropped E O addr (fst c) v else ~ dropped E O addr (fst c) v.
Proof.
  intro Sd. induction fuel as [|k IH]; [discriminate|]. intros c v b Sv H. cbn [omit] in H. destruct (hasHint (chints (fst c)) hintOmitempty) eqn:Hh; cbn [negb] in H.
  2:{ injection H as <-. intro D. assert (~ omitempty (fst c)) by (rewrite <- hasHint_omitempty; congruence). inversion D; subst; contradiction. }
  apply hasHint_omitempty in Hh. pose proof (omitempty_hints _ Hh) as Nz. destruct (serves_cases E O G _ _ _ Sd Sv) as (T & Ty & Cs). cbn [itype] in Ty, Cs. pose proof (fieldwise_handled E _ _ Ty) as Fw.
  assert (V : ~ fieldwise E (ctype (fst c)) -> newOmiter (S k) E O (ctype (fst c)) addr v = Ok b -> if b then dropped E O addr (fst c) v else ~ dropped E O addr (fst c) v).
  { intros Nf Hv. pose proof (newOmiter_spec _ _ _ _ _ _ _ Hv) as Sp. destruct b; [apply dr_value; assumption|]. intro D. inversion D; subst; contradiction. }
  destruct Cs as [[Hd No]|[(l & fs & K & No & Hz & Sc)|(Hd & Ns & h' & p & _ & No & _)]]; rewrite No in H.
  - apply V; auto. rewrite Fw. intros [_ Hd']. congruence.
  - destruct Hz as [Hz|Hd]; [contradiction|]. assert (Fl : fieldwise E (ctype (fst c))) by (apply Fw; eauto). ok H. destruct x as [r|].
    + injection H as <-. apply runCustom_some in H0. destruct r; [apply dr_method; assumption|]. intro D. inversion D; subst; [contradiction| |eapply silent_asks; eassumption].
      apply asks_runCustom in H2. apply asks_runCustom in H0. congruence.
    + pose proof (runCustom_none _ _ _ _ _ H0) as S. destruct Sc as (_ & _ & _ & _ & _ & Sf & F). rewrite Forall_forall in F.
      pose proof (omitFields_spec _ (dropped E O addr) v fs b (fun c x b I => IH c x b (proj2 (F c I))) H) as Sp. destruct b.
      * eapply dr_struct; eassumption.
      * intro D. inversion D; subst; [contradiction|eapply silent_asks; eassumption|]. assert (cs = map fst fs) by congruence. subst. contradiction.
  - apply V; auto. rewrite Fw. intros [(l & K) _]. exact (Ns l K).
Qed.
