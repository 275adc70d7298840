(* json.Marshal writes one value (C77). *)
From Coq Require Import Permutation.
From Verif Require Import FloatSpec FmtSpec Bytes Types JsonSpec StrSpec Parser Doc DocSpec Utf8 Utf8Proofs StrProofs StrThms Float NumSpec Num Options OptSpec OptThms Codec CodecSpec CodecMerge RoundSpec TreeSpec TreeDet RoundThms CodecEnc NumProofs CodecBase StdSpec StdFields.
Local Open Scope nat_scope.

Scheme std_mind := Minimality for std Sort Prop
  with std_each_mind := Minimality for std_each Sort Prop
  with std_entries_mind := Minimality for std_entries Sort Prop
  with std_members_mind := Minimality for std_members Sort Prop.
Combined Scheme std_mutind from std_mind, std_each_mind, std_entries_mind, std_members_mind.

(* ---- fields ---- *)
Lemma ordered_one {A} (R : A -> A -> Prop) : (forall x, ~ R x x) -> (forall x y, R x y -> R y x -> False) -> forall l l', ForallOrdPairs R l -> ForallOrdPairs R l' -> (forall x, In x l <-> In x l') -> l = l'.
Proof.
  intros Ir As. induction l as [|x l IH]; intros l' O O' H.
  - destruct l' as [|y l']; [reflexivity|]. destruct (proj2 (H y) (or_introl eq_refl)).
  - destruct l' as [|y l']; [destruct (proj1 (H x) (or_introl eq_refl))|]. inversion O as [|? ? Fx Ol]; inversion O' as [|? ? Fy Ol']; subst. rewrite Forall_forall in Fx, Fy.
    assert (x = y).
    { destruct (proj1 (H x) (or_introl eq_refl)) as [E|I]; [auto|]. destruct (proj2 (H y) (or_introl eq_refl)) as [E|I']; [auto|]. destruct (As x y (Fx _ I') (Fy _ I)). }
    subst y. f_equal. apply IH; auto. intro z. split; intro I.
    + destruct (proj1 (H z) (or_intror I)) as [<-|J]; [destruct (Ir _ (Fx _ I))|exact J].
    + destruct (proj2 (H z) (or_intror I)) as [<-|J]; [destruct (Ir _ (Fy _ I))|exact J].
Qed.
Lemma std_fields_one E letter t l l' : std_fields E letter t l -> std_fields E letter t l' -> l = l'.
Proof.
  intros (H & O) (H' & O'). apply (ordered_one (fun s d => path_lt (s_path s) (s_path d))); auto; [intro x; apply path_lt_irrefl|intros x y; apply path_lt_asym|]. intro s. rewrite H, H'. reflexivity.
Qed.
Lemma unquoted E letter : std_structs E letter -> forall t s, candidate E letter t s -> s_quoted s = false.
Proof.
  intro SS. assert (U : forall t fs i f n o, kindOf E t = Some (KStruct fs) -> nth_error fs i = Some f -> std_tag letter f n o -> OptSpec.has (str "string") o = false).
  { intros t fs i f n o K N Tg. destruct (SS _ _ K) as (F & _). rewrite Forall_forall in F. destruct (F f (nth_error_In _ _ N)) as (_ & _ & _ & H).
    destruct Tg as [L|v p ps L _ Fo Ev _|v p ps L _ Fo Ev _]; [reflexivity| |]; destruct (H _ _ _ L Fo Ev) as (_ & _ & _ & _ & _ & Ns & _); apply no_string; exact Ns. }
  induction 1 as [t fs i f n o K N Tg _ _|t fs i f o K N Tg _ _|t fs i f o u p s K N Tg _ _ IH]; cbn [s_quoted under]; eauto.
Qed.
(* ---- keys ---- *)
Lemma digits_one a : forall b, digits a -> digits b -> length a = length b -> dval a = dval b -> a = b.
Proof.
  induction a as [|x a IH]; intros [|y b] Da Db L V; cbn in L; try discriminate; [reflexivity|]. inversion Da as [|? ? Dx Da']; inversion Db as [|? ? Dy Db']; subst. injection L as L. cbn [dval] in V. rewrite L in V.
  pose proof (dval_bound a Da') as Ba. pose proof (dval_bound b Db') as Bb. rewrite L in Ba. unfold digit in Dx, Dy. set (p := (10 ^ Z.of_nat (length b))%Z) in *.
  assert (Z.of_N (bN x) = Z.of_N (bN y)) by nia. assert (x = y) by (apply bN_inj; lia). subst y. f_equal. apply IH; auto. lia.
Qed.
Lemma rfc_int_one a b : rfc_int a -> rfc_int b -> dval a = dval b -> a = b.
Proof.
  intros A B V. assert (D : forall s, rfc_int s -> digits s). { intros s [|d ds Dd Dds]; constructor; auto; unfold digit, digit19 in *; [vm_compute; split; discriminate|lia]. }
  assert (Lo : forall d ds, digit19 d -> digits ds -> (10 ^ Z.of_nat (length ds) <= dval (d :: ds))%Z). { intros d ds Dd Dds. cbn [dval]. pose proof (dval_bound ds Dds). unfold digit19 in Dd. nia. }
  pose proof (D _ A) as Da. pose proof (D _ B) as Db. apply digits_one; auto. inversion A as [E|d ds Dd Dds E]; inversion B as [E'|d' ds' Dd' Dds' E']; subst; auto.
  - exfalso. pose proof (Lo _ _ Dd' Dds') as X. rewrite <- V in X. change (dval [x30]) with 0%Z in X. pose proof (Z.pow_pos_nonneg 10 (Z.of_nat (length ds')) ltac:(lia) ltac:(lia)). lia.
  - exfalso. pose proof (Lo _ _ Dd Dds) as X. rewrite V in X. change (dval [x30]) with 0%Z in X. pose proof (Z.pow_pos_nonneg 10 (Z.of_nat (length ds)) ltac:(lia) ltac:(lia)). lia.
  - pose proof (Lo _ _ Dd Dds) as X. pose proof (Lo _ _ Dd' Dds') as X'. pose proof (dval_bound _ Da) as Y. pose proof (dval_bound _ Db) as Y'. cbn [length] in *. rewrite <- V in X', Y'. rewrite !Nat2Z.inj_succ in Y, Y'.
    destruct (Nat.lt_trichotomy (length ds) (length ds')) as [L|[L|L]]; [exfalso|congruence|exfalso].
    + pose proof (Z.pow_le_mono_r 10 (Z.succ (Z.of_nat (length ds))) (Z.of_nat (length ds')) ltac:(lia) ltac:(lia)). lia.
    + pose proof (Z.pow_le_mono_r 10 (Z.succ (Z.of_nat (length ds'))) (Z.of_nat (length ds)) ltac:(lia) ltac:(lia)). lia.
Qed.
Lemma int_key_one p p' z : integer_text p -> rfc_int (pint p) -> (pneg p = true -> z < 0)%Z -> intval p = z -> integer_text p' -> rfc_int (pint p') -> (pneg p' = true -> z < 0)%Z -> intval p' = z -> text p = text p'.
Proof.
  intros (S & F & X) R N V (S' & F' & X') R' N' V'. assert (D := proj1 (dval_bound _ (proj1 S))). assert (D' := proj1 (dval_bound _ (proj1 S'))). unfold intval in V, V'.
  assert (En : pneg p = pneg p') by (destruct (pneg p), (pneg p'); auto; [specialize (N eq_refl)|specialize (N' eq_refl)]; lia).
  assert (Ei : pint p = pint p') by (apply rfc_int_one; auto; rewrite En in V; destruct (pneg p'); lia). unfold text. rewrite En, Ei, F, F', X, X'. reflexivity.
Qed.
Lemma std_key_one E k key w w' : std_key E k key w -> std_key E k key w' -> w = w'.
Proof.
  intros H H'. destruct H as [s rs K R|bits z p K I R N V|bits z p K I R N V]; inversion H'; subst; try congruence; [f_equal; eapply runes_det; eassumption|eapply int_key_one; eauto..].
Qed.

Lemma vuints_one a : forall b, map VUint a = map VUint b -> a = b.
Proof. induction a as [|x a IH]; intros [|y b] H; cbn in H; try discriminate; [reflexivity|]. injection H as -> H. f_equal. auto. Qed.
Definition settled (E : env) (v : gv) : Prop := small_maps v /\ formats_agree E v.
Lemma settled_inside E v x : settled E v -> inside v x -> settled E x.
Proof. intros (Sm & FA) I. split; [eapply small_inside; eassumption|]. intros f bits q r If. apply FA. eapply inside_trans; eassumption. Qed.
Lemma std_one E letter : std_structs E letter ->
  (forall t v m, std E letter t v m -> settled E v -> forall m', std E letter t v m' -> alike m m') /\
  (forall e l ms, std_each E letter e l ms -> Forall (settled E) l -> forall ms', std_each E letter e l ms' -> Forall2 alike ms ms') /\
  (forall k e l ms, std_entries E letter k e l ms -> Forall (fun p => settled E (snd p)) l -> forall ms', std_entries E letter k e l ms' -> Forall2 (fun a b => fst a = fst b /\ alike (snd a) (snd b)) ms ms') /\
  (forall v l ms, std_members E letter v l ms -> settled E v -> (forall s, In s l -> s_quoted s = false) -> forall ms', std_members E letter v l ms' -> Forall2 (fun a b => fst a = fst b /\ alike (snd a) (snd b)) ms ms').
Proof.
  intros SS. apply std_mutind.
  - intros t b _ K Sm m' H. inversion H; subst; try congruence. constructor.
  - intros t bits z _ K Sm m' H. inversion H; subst; try congruence. constructor. reflexivity.
  - intros t bits z _ K Sm m' H. inversion H; subst; try congruence. constructor. reflexivity.
  - intros t f q _ K V Sm m' H. inversion H; subst; try congruence. constructor. eapply (proj2 Sm); [constructor|eassumption..].
  - intros t f q _ K V Sm m' H. inversion H; subst; try congruence. constructor. eapply (proj2 Sm); [constructor|eassumption..].
  - intros t s rs _ K R Sm m' H. inversion H; subst; try congruence. match goal with A : runes s ?r |- _ => rewrite (runes_det _ _ _ R A) end. constructor.
  - intros t b _ K Sm m' H. inversion H; subst; try congruence. constructor.
  - intros t b dt x m _ K _ IH Sm m' H. inversion H; subst; try congruence. apply IH; [eapply settled_inside; [exact Sm|repeat constructor]|assumption].
  - intros t e _ K Sm m' H. inversion H; subst; try congruence. constructor.
  - intros t e x m _ K _ IH Sm m' H. inversion H as [| | | | | | | | |? e' ? ? _ K'| | | | | | |]; subst; try congruence. assert (e' = e) by congruence. subst. apply IH; [eapply settled_inside; [exact Sm|repeat constructor]|assumption].
  - intros t e _ K Sm m' H. inversion H; subst; try congruence. constructor.
  - intros t e zs s _ K Be Ke Sm m' H. inversion H as [| | | | | | | | | | |? e' zs' ? _ K' _ _ Ez|? e' l ? ms _ K' [X|X]| | | |]; subst; try congruence.
    + match goal with X : map VUint _ = map VUint zs |- _ => apply vuints_one in X; subst end. constructor.
  - intros t e l s ms _ K Hb _ IH Sm m' H. inversion H as [| | | | | | | | | | |? e' zs' ? _ K' Be Ke|? e' ? ? ms' _ K' _ Se| | | |]; subst; try congruence.
    + exfalso. assert (e' = e) by congruence. subst. destruct Hb as [X|X]; apply X; assumption.
    + assert (e' = e) by congruence. subst. constructor. apply IH; [|assumption]. apply Forall_forall. intros x I. eapply settled_inside; [exact Sm|]. eapply ins_slice; [exact I|constructor].
  - intros t n e l ms _ K _ IH Sm m' H. inversion H as [| | | | | | | | | | | | |? n' e' ? ms' _ K' Se| | |]; subst; try congruence. assert (e' = e) by congruence. subst. constructor. apply IH; [|assumption]. apply Forall_forall. intros x I. eapply settled_inside; [exact Sm|]. eapply ins_array; [exact I|constructor].
  - intros t k e _ K Sm m' H. inversion H; subst; try congruence. constructor.
  - intros t k e m m1 ms _ K Pm _ IH Sm m' H. inversion H as [| | | | | | | | | | | | | | |? k' e' ? m2 ms' _ K' Pm' Se|]; subst; try congruence. assert (k' = k /\ e' = e) as (-> & ->) by (split; congruence). constructor.
    assert (m2 = m1) by (eapply small_perm; [apply (proj1 Sm); constructor|exact Pm'|exact Pm]). subst. apply IH; [|assumption]. apply Forall_forall. intros [key x] I. apply (Permutation_in _ Pm) in I. eapply settled_inside; [exact Sm|]. eapply ins_map; [exact I|constructor].
  - intros t fs v l ms _ K Sf _ IH Sm m' H. inversion H as [| | | | | | | | | | | | | | | |? fs' ? l' ms' _ K' Sf' Sb]; subst; try congruence. assert (l' = l) by (eapply std_fields_one; eassumption). subst. constructor. apply IH; auto.
    intros s I. apply (proj1 Sf) in I. destruct I as (C & _). eapply unquoted; eassumption.
  - intros e _ ms' H. inversion H; subst. constructor.
  - intros e x l m ms _ IH1 _ IH2 F ms' H. inversion F; inversion H; subst. constructor; auto.
  - intros k e _ ms' H. inversion H; subst. constructor.
  - intros k e key x l w m ms _ Sk _ IH1 _ IH2 F ms' H. inversion F; inversion H; subst. constructor; [|auto]. split; [eapply std_key_one; eassumption|]. cbn [snd] in *. auto.
  - intros v _ _ ms' H. inversion H; subst. constructor.
  - intros v s l ms N _ IH Sm Q ms' H. inversion H; subst; try (exfalso; eapply N; eassumption). apply IH; auto. intros; apply Q; right; assumption.
  - intros v s x l ms R So Ge _ IH Sm Q ms' H. inversion H; subst; try (exfalso; match goal with A : forall x, ~ reaches _ _ x |- _ => eapply A; eassumption end);
      try (exfalso; match goal with A : reaches v _ ?y, B : ~ _ |- _ => apply B; split; [exact So|rewrite <- (reaches_one _ _ _ R _ A); exact Ge] end). apply IH; auto. intros; apply Q; right; assumption.
  - intros v s x m l ms R Nd _ _ IH1 _ IH Sm Q ms' H. pose proof (Q s (or_introl eq_refl)) as Qs. inversion H; subst; try congruence; try (exfalso; match goal with A : forall x, ~ reaches _ _ x |- _ => eapply A; eassumption end);
      match goal with A : reaches v (s_path s) ?y |- _ => lazymatch y with x => fail | _ => pose proof (reaches_one _ _ _ R _ A); subst y end end; [exfalso; apply Nd; auto|]. constructor; [split; [reflexivity|]; cbn [snd]; apply IH1; [|assumption]|].
    + eapply settled_inside; [exact Sm|]. eapply reaches_inside; exact R.
    + apply IH; auto. intros; apply Q; right; assumption.
  - intros v s x j w m l ms R Nd Qt _ _ _ _ _ _ _ IH Sm Q. pose proof (Q s (or_introl eq_refl)). congruence.
Qed.
Lemma C77_unique_lem E letter t v m m' : std_structs E letter -> formats_agree E v -> small_maps v -> std E letter t v m -> std E letter t v m' -> alike m m'.
Proof. intros SS FA Sm H H'. exact (proj1 (std_one E letter SS) t v m H (conj Sm FA) m' H'). Qed.
