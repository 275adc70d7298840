(* Proofs for C60: the code does not depend on the order in which the fields are visited, if their tags differ. *)
From Coq Require Import Permutation.
From Verif Require Import Bytes Types Parser Doc Strjson Float Num Iface Options Codec CodecSpec Gen GenSpec GenMake.
Local Open Scope nat_scope.

Lemma less_total a : forall b, less a b = false -> less b a = false -> a = b.
Proof.
  induction a as [|x a IH]; intros [|y b] H K; cbn [less] in *; try discriminate; auto. destruct (bN x <? bN y)%N eqn:A; [discriminate|]. destruct (bN y <? bN x)%N eqn:B; [discriminate|].
  apply N.ltb_ge in A, B. assert (x = y) as -> by (apply bN_inj; lia). f_equal. auto.
Qed.
Lemma insert_perm f l : Permutation (insert f l) (f :: l).
Proof. induction l as [|g l IH]; cbn [insert]; auto. destruct (less (mtag g) (mtag f)); auto. rewrite IH. apply perm_swap. Qed.
Lemma sortTags_perm l : Permutation (sortTags l) l.
Proof. induction l as [|f l IH]; cbn [sortTags]; auto. rewrite insert_perm. auto. Qed.
Lemma sorted_unique l : forall l', Permutation l l' -> NoDup (map mtag l) -> ForallOrdPairs (fun c d => less (mtag d) (mtag c) = false) l -> ForallOrdPairs (fun c d => less (mtag d) (mtag c) = false) l' -> l = l'.
Proof.
  induction l as [|f l IH]; intros l' P N S S'; [apply Permutation_nil in P; auto|]. destruct l' as [|g l']; [symmetry in P; apply Permutation_nil in P; discriminate|].
  inversion S as [|? ? Sf Sl]; subst. inversion S' as [|? ? Sg Sl']; subst. rewrite Forall_forall in Sf, Sg. cbn [map] in N. apply NoDup_cons_iff in N as (N1 & N2).
  assert (f = g) as ->.
  { assert (If : In f (g :: l')) by (eapply Permutation_in; [exact P|left; reflexivity]). assert (Ig : In g (f :: l)) by (eapply Permutation_in; [symmetry; exact P|left; reflexivity]).
    destruct If as [If|If]; [auto|]. destruct Ig as [Ig|Ig]; [auto|]. exfalso. apply N1. rewrite (less_total _ _ (Sg f If) (Sf g Ig)). apply in_map. exact Ig. }
  f_equal. apply IH; auto. eapply Permutation_cons_inv. exact P.
Qed.
Lemma sortTags_stable l l' : Permutation l l' -> NoDup (map mtag l) -> sortTags l = sortTags l'.
Proof.
  intros P N. apply sorted_unique; try apply sortTags_sorted; [rewrite !sortTags_perm; exact P|]. eapply Permutation_NoDup; [|exact N]. apply Permutation_map. symmetry. apply sortTags_perm.
Qed.
Lemma appendFields_ext gen gen' E G : forall cs, (forall name params f, In (name, params, f) cs -> gen (mtype f) (has rawParam params) = gen' (mtype f) (has rawParam params)) -> appendFields gen E G cs = appendFields gen' E G cs.
Proof. induction cs as [|[[name params] f] cs IH]; intro H; cbn [appendFields]; auto. rewrite (H name params f) by (left; reflexivity). rewrite IH; auto. intros n p g I. apply (H n). right. exact I. Qed.
Lemma C60_stable_lem E G M M' t : (forall u, Permutation (fieldsOf M u) (fieldsOf M' u)) -> (forall u raw, star (needs E G M) (t, false) (u, raw) -> NoDup (map mtag (fieldsOf M u))) -> Appender E G M t = Appender E G M' t.
Proof.
  intros P N. unfold Appender. revert N. generalize (S (length (types E))) false. intro fuel. revert t. induction fuel as [|k IH]; intros t raw N; auto. rewrite !typeAppender_S. destruct (typeOf E t) as [T|] eqn:ET; auto.
  destruct (isAppender (tmeth T)) eqn:N1; auto. destruct (isJSON (tmeth T)) eqn:N2; auto. destruct (isText (tmeth T)) eqn:N3; auto. assert (Nm : no_marshaler (tmeth T)) by (repeat split; auto).
  assert (Sub : forall u r, needs E G M (t, raw) (u, r) -> typeAppender k E G M u r = typeAppender k E G M' u r) by (intros u r Nd; apply IH; intros x rx Sx; eapply N; eapply star_step; eauto).
  destruct (tkind T) as [| | | | | |[]|e|e| |kt e|fs|] eqn:Kt; auto.
  - rewrite (Sub e raw); auto. eapply nd_part; eauto. rewrite Kt. left. reflexivity.
  - rewrite (Sub e raw); auto. eapply nd_part; eauto. rewrite Kt. left. reflexivity.
  - rewrite (Sub kt false), (Sub e raw); auto; eapply nd_part; eauto; rewrite Kt; [right; left|left]; reflexivity.
  - rewrite <- (sortTags_stable _ _ (P t) (N t raw (star_here _ _))). erewrite appendFields_ext; [reflexivity|]. intros name params f I. apply Sub. eapply nd_field; eauto. apply (proj1 (chosen_order G (fieldsOf M t))) in I. exact I.
Qed.
