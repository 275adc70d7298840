(* One tree for a value (C69). *)
From Coq Require Import Permutation.
From Verif Require Import FloatSpec FmtSpec Bytes Types JsonSpec Parser Doc DocSpec Strjson Float Num Iface IfaceSpec Options Codec CodecSpec DecodeSpec RoundSpec CodecMerge CodecBase CodecEnc TreeSpec TreeThms.
Local Open Scope nat_scope.

Scheme tree_mind := Minimality for tree Sort Prop
  with kind_tree_mind := Minimality for kind_tree Sort Prop
  with each_tree_mind := Minimality for each_tree Sort Prop
  with entry_trees_mind := Minimality for entry_trees Sort Prop
  with field_trees_mind := Minimality for field_trees Sort Prop
  with top_tree_mind := Minimality for top_tree Sort Prop.
Combined Scheme tree_mutind from tree_mind, kind_tree_mind, each_tree_mind, entry_trees_mind, field_trees_mind, top_tree_mind.

Lemma reaches_one v p x : reaches v p x -> forall y, reaches v p y -> x = y.
Proof.
  induction 1; intros z R; inversion R; subst; auto; try lia.
  all: try (match goal with A : Z.of_nat _ = Z.of_nat _ |- _ => apply Nat2Z.inj in A; subst end; match goal with A : nth_error ?l ?i = Some _, B : nth_error ?l ?i = Some _ |- _ => rewrite A in B; injection B as <- end); auto.
Qed.
Lemma small_inside v x : small_maps v -> inside v x -> small_maps x.
Proof. intros C I m Im. apply C. eapply inside_trans; eassumption. Qed.
Lemma small_perm {A} (m a b : list A) : length m <= 1 -> Permutation a m -> Permutation b m -> a = b.
Proof.
  intros L Pa Pb. destruct m as [|x [|y m]]; cbn in L; [|
    |lia].
  - apply Permutation_sym, Permutation_nil in Pa. apply Permutation_sym, Permutation_nil in Pb. congruence.
  - apply Permutation_sym, Permutation_length_1_inv in Pa. apply Permutation_sym, Permutation_length_1_inv in Pb. congruence.
Qed.
Lemma key_shows_one E k key w w' : key_shows E k key w -> key_shows E k key w' -> w = w'.
Proof.
  intros (K & Tk & H) (K' & Tk' & H'). assert (K' = K) by congruence. subst.
  destruct H as [[I C]|[I (s & -> & C)]], H' as [[I' C']|[I' (s' & Es & C')]]; try congruence.
Qed.
Lemma tree_det E : no_marshalers E ->
  (forall O addr h t v j, tree E O addr h t v j -> small_maps v -> forall j', tree E O addr h t v j' -> j = j') /\
  (forall O addr h t k v j, kind_tree E O addr h t k v j -> small_maps v -> forall j', kind_tree E O addr h t k v j' -> j = j') /\
  (forall O addr h e l js, each_tree E O addr h e l js -> Forall small_maps l -> forall js', each_tree E O addr h e l js' -> js = js') /\
  (forall O k e m ms, entry_trees E O k e m ms -> Forall (fun p => small_maps (snd p)) m -> forall ms', entry_trees E O k e m ms' -> ms = ms') /\
  (forall O addr v cs ms, field_trees E O addr v cs ms -> small_maps v -> forall ms', field_trees E O addr v cs ms' -> ms = ms') /\
  (forall t v j, top_tree E t v j -> small_maps v -> forall j', top_tree E t v j' -> j = j').
Proof.
  intro NM. apply tree_mutind.
  - intros O addr h t T v b w j Ty A. exfalso. destruct (NM _ _ Ty) as (? & ? & ?). congruence.
  - intros O addr h t T v w j Ty _ A. exfalso. destruct (NM _ _ Ty) as (? & ? & ?). congruence.
  - intros O addr h t T v w Ty _ _ A. exfalso. destruct (NM _ _ Ty) as (? & ? & ?). congruence.
  - intros O addr h t T v j Ty _ _ IH Sm j' H. apply IH; auto. inversion H; subst; try (match goal with B : typeOf E t = Some ?X |- _ => lazymatch X with T => fail | _ => idtac end; destruct (NM _ _ B) as (? & ? & ?); rewrite Ty in B; injection B as <- end); try congruence; assumption.
  - intros O addr t T fs v j Ty K _ _ IH Sm j' H. apply IH; auto. inversion H; subst; try (match goal with B : typeOf E t = Some ?X |- _ => lazymatch X with T => fail | _ => idtac end; destruct (NM _ _ B) as (? & ? & ?); rewrite Ty in B; injection B as <- end); try congruence; assumption.
  - intros. inversion H0; subst; auto; match goal with A : _ \/ _ |- _ => destruct A; discriminate end.
  - intros. inversion H0; subst; auto; match goal with A : _ \/ _ |- _ => destruct A; discriminate end.
  - intros. inversion H0; subst; auto; match goal with A : _ \/ _ |- _ => destruct A; discriminate end.
  - intros. inversion H0; subst; auto; match goal with A : _ \/ _ |- _ => destruct A; discriminate end.
  - intros O addr h t k f s Hk W _ j' H. assert (W' : exists s', j' = JNum s' /\ writes E f s') by (inversion H; subst; try (destruct Hk; discriminate); eauto). destruct W' as (s' & -> & (_ & _ & F')). destruct W as (_ & _ & F). congruence.
  - intros. inversion H2; subst; try congruence; match goal with A : _ \/ _ |- _ => destruct A; discriminate end.
  - intros. inversion H3; subst; try congruence; match goal with A : _ \/ _ |- _ => destruct A; discriminate end.
  - intros. inversion H0; subst; auto; match goal with A : _ \/ _ |- _ => destruct A; discriminate end.
  - intros O addr h t dt x j _ IH Sm j' H. apply IH; [eapply small_inside; [exact Sm|repeat constructor]|]. inversion H; subst; try (match goal with A : _ \/ _ |- _ => destruct A; discriminate end); assumption.
  - intros. inversion H0; subst; auto; match goal with A : _ \/ _ |- _ => destruct A; discriminate end.
  - intros O addr h t e x j _ IH Sm j' H. apply IH; [eapply small_inside; [exact Sm|repeat constructor]|]. inversion H; subst; try (match goal with A : _ \/ _ |- _ => destruct A; discriminate end); assumption.
  - intros. inversion H0; subst; auto; match goal with A : _ \/ _ |- _ => destruct A; discriminate end.
  - intros O addr h t e l s js _ IH Sm j' H. inversion H; subst; try (match goal with A : _ \/ _ |- _ => destruct A; discriminate end). f_equal. apply IH; [|assumption]. apply Forall_forall. intros x I. eapply small_inside; [exact Sm|]. eapply ins_slice; [exact I|constructor].
  - intros O addr h t n e l js Ln _ IH Sm j' H. inversion H; subst; try (match goal with A : _ \/ _ |- _ => destruct A; discriminate end). f_equal. apply IH; [|assumption]. apply Forall_forall. intros x I. eapply small_inside; [exact Sm|]. eapply ins_array; [exact I|constructor].
  - intros. inversion H0; subst; auto; match goal with A : _ \/ _ |- _ => destruct A; discriminate end.
  - intros O addr h t k e m m' ms P _ IH Sm j' H. inversion H; subst; try (match goal with A : _ \/ _ |- _ => destruct A; discriminate end). f_equal. apply IH.
    + apply Forall_forall. intros [key x] I. eapply small_inside; [exact Sm|]. eapply ins_map; [exact (Permutation_in _ P I)|constructor].
    + match goal with Q : Permutation ?b m, En : entry_trees E O k e ?b _ |- _ => rewrite (small_perm m m' b); [exact En|apply Sm; constructor|exact P|exact Q] end.
  - intros O addr h t fs cs v ms Sf _ IH Sm j' H. inversion H; subst; try (match goal with A : _ \/ _ |- _ => destruct A; discriminate end). f_equal. apply IH; auto.
    match goal with Q : struct_fields E O t ?b |- _ => lazymatch b with cs => fail | _ => rewrite (struct_fields_det _ _ _ _ _ Sf Q) end end. assumption.
  - intros O addr h e _ js' H. inversion H. reflexivity.
  - intros O addr h e x l j js _ IHx _ IHl F js' H. inversion F; subst. inversion H; subst. f_equal; [apply IHx|apply IHl]; assumption.
  - intros O k e _ ms' H. inversion H. reflexivity.
  - intros O k e key x m w j ms Ks _ IHx _ IHm F ms' H. inversion F; subst. inversion H; subst. f_equal; [f_equal; [eapply key_shows_one; eassumption|apply IHx; assumption]|apply IHm; assumption].
  - intros O addr v _ ms' H. inversion H. reflexivity.
  - intros O addr v c cs ms U _ IH Sm ms' H. apply IH; auto. inversion H; subst; auto; exfalso; eapply U; eassumption.
  - intros O addr v c x cs ms R D _ IH Sm ms' H. apply IH; auto. inversion H as [| | |? ? ? ? x' ? ? ? R' D']; subst; auto. exfalso. rewrite (reaches_one _ _ _ R' _ R) in D'. contradiction.
  - intros O addr v c x j cs ms R D _ IHx _ IH Sm ms' H. inversion H as [|? ? ? ? ? ? U|? ? ? ? x' ? ? R' D'|? ? ? ? x' ? ? ? R' D' Tr']; subst.
    + exfalso. eapply U. eassumption.
    + exfalso. rewrite (reaches_one _ _ _ R' _ R) in D'. contradiction.
    + rewrite (reaches_one _ _ _ R' _ R) in Tr'. f_equal; [f_equal; apply IHx; [eapply small_inside; [exact Sm|eapply reaches_inside; exact R]|assumption]|apply IH; assumption].
  - intros t e x j K _ IH Sm j' H. apply IH; [eapply small_inside; [exact Sm|repeat constructor]|]. inversion H as [? e' ? ? K' Tr|? ? ? N]; subst; [rewrite K in K'; injection K' as <-; exact Tr|exfalso; eapply N; eassumption].
  - intros t v j N _ IH Sm j' H. apply IH; auto. inversion H as [? e' ? ? K' Tr|]; subst; [exfalso; eapply N; eassumption|assumption].
Qed.
Lemma C69_unique_lem E t v j j' : no_marshalers E -> small_maps v -> top_tree E t v j -> top_tree E t v j' -> j = j'.
Proof. intros NM Sm H H'. eapply (proj2 (proj2 (proj2 (proj2 (proj2 (tree_det E NM)))))); eassumption. Qed.
