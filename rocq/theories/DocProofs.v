(* Basic facts about denoted trees, copying and serialising. *)
From Coq Require FinFun.
From Verif Require Import Bytes Tables Types JsonSpec Parser LexProofs ParserProofs Doc DocSpec.

(* ---- lists ---- *)

Lemma nth_error_replaceNth_same {A} (l : list A) i x : i < length l -> nth_error (replaceNth l i x) i = Some x.
Proof. revert i; induction l; intros [|i] H; simpl in *; auto; try lia. apply IHl; lia. Qed.
Lemma nth_error_replaceNth_other {A} (l : list A) i j x : i <> j -> nth_error (replaceNth l i x) j = nth_error l j.
Proof. revert i j; induction l; intros [|i] [|j] H; simpl in *; auto; congruence. Qed.
Lemma replaceNth_length {A} (l : list A) i x : length (replaceNth l i x) = length l.
Proof. revert i; induction l; intros [|i]; simpl; auto. Qed.
Lemma lenN_replaceNth {A} (l : list A) i x : lenN (replaceNth l i x) = lenN l.
Proof. unfold lenN. rewrite replaceNth_length. reflexivity. Qed.
Lemma replaceNth_app {A} (a : list A) x y b : replaceNth (a ++ x :: b) (length a) y = a ++ y :: b.
Proof. induction a; simpl; auto. f_equal; auto. Qed.
Lemma setValues_length ns i vs : length (setValues ns i vs) = length ns.
Proof. revert i; induction ns; intros [|i]; simpl; auto. Qed.

(* ---- getNode ---- *)

Lemma getNode_lt ns id n : getNode ns id = Some n -> (id < lenN ns)%N.
Proof. unfold getNode. destruct (N.ltb_spec id (lenN ns)); congruence. Qed.

Lemma getNode_nth ns id : (id < lenN ns)%N -> getNode ns id = nth_error ns (N.to_nat id).
Proof. intro H. unfold getNode. apply N.ltb_lt in H. rewrite H. reflexivity. Qed.

Lemma getNode_some ns id : (id < lenN ns)%N -> exists n, getNode ns id = Some n.
Proof.
  intro H. rewrite getNode_nth by auto.
  destruct (nth_error ns (N.to_nat id)) eqn:E; eauto.
  apply nth_error_None in E. unfold lenN in H. lia.
Qed.

Lemma getNode_none ns id : (lenN ns <= id)%N -> getNode ns id = None.
Proof. intro H. unfold getNode. destruct (N.ltb_spec id (lenN ns)); auto; lia. Qed.

Lemma getNode_app1 ns x id : (id < lenN ns)%N -> getNode (ns ++ x) id = getNode ns id.
Proof.
  intro H. rewrite !getNode_nth; auto. 2:{ rewrite lenN_app; lia. }
  apply nth_error_app1. unfold lenN in H. lia.
Qed.

Lemma getNode_mid a n b : getNode (a ++ n :: b) (lenN a) = Some n.
Proof.
  rewrite getNode_nth. 2:{ rewrite lenN_app, lenN_cons. lia. }
  unfold lenN. rewrite Nat2N.id, nth_error_app2, Nat.sub_diag by lia. reflexivity.
Qed.

Lemma getNode_put_same ns id x : (id < lenN ns)%N -> getNode (putNode ns id x) id = Some x.
Proof.
  intro H. unfold putNode. rewrite getNode_nth by (rewrite lenN_replaceNth; auto).
  apply nth_error_replaceNth_same. unfold lenN in H. lia.
Qed.

Lemma getNode_put_other ns id id' x : id <> id' -> getNode (putNode ns id x) id' = getNode ns id'.
Proof.
  intro H. unfold putNode, getNode. rewrite lenN_replaceNth.
  destruct (id' <? lenN ns)%N; auto. apply nth_error_replaceNth_other. lia.
Qed.

Lemma lenN_putNode ns id x : lenN (putNode ns id x) = lenN ns.
Proof. apply lenN_replaceNth. Qed.

(* ---- contents up to flags ---- *)

Definition unflag (n : node) : node := mkNode (info_Type (ninfo n)) (nraw n) (nvalues n).

Lemma info_Type_idem i : info_Type (info_Type i) = info_Type i.
Proof. unfold info_Type. rewrite N.mod_mod; auto. discriminate. Qed.

Lemma getNode_map f ns id : getNode (map f ns) id = option_map f (getNode ns id).
Proof.
  unfold getNode, lenN. rewrite map_length. destruct (id <? N.of_nat (length ns))%N; auto.
  apply nth_error_map.
Qed.

(* Frame rule: if ns' agrees with ns on everything reachable from id, the tree is the same. *)
Definition agree (ns ns' : list node) (x : N) : Prop :=
  option_map unflag (getNode ns' x) = option_map unflag (getNode ns x).

Lemma agree_some ns ns' x n : agree ns ns' x -> getNode ns x = Some n ->
  exists n', getNode ns' x = Some n' /\ info_Type (ninfo n') = info_Type (ninfo n) /\
             nraw n' = nraw n /\ nvalues n' = nvalues n.
Proof.
  unfold agree. intros H E. rewrite E in H. destruct (getNode ns' x) as [n'|]; [|discriminate].
  simpl in H. injection H. intros. exists n'. auto.
Qed.

Lemma frame_gen ns ns' :
  (forall id t, denotes ns id t -> (forall x, reach ns id x -> agree ns ns' x) -> denotes ns' id t) /\
  (forall l ts, denotes_list ns l ts ->
     (forall v x, In v l -> reach ns (vid v) x -> agree ns ns' x) -> denotes_list ns' l ts) /\
  (forall l ts, denotes_members ns l ts ->
     (forall v x, In v l -> reach ns (vid v) x -> agree ns ns' x) -> denotes_members ns' l ts).
Proof.
  apply denotes_mutind.
  1-5: intros id n E Ht Hv; intros; match goal with H : forall x, _ |- _ =>
      destruct (agree_some ns ns' id n (H id (reach_refl _ _)) E) as (n' & E' & T & R & Vs) end;
      rewrite <- ?R; econstructor; eauto; congruence.
  - intros id n vs E Ht Hr Hl IH H.
    destruct (agree_some ns ns' id n (H id (reach_refl _ _)) E) as (n' & E' & T & R & Vs).
    econstructor; eauto; try congruence. rewrite Vs. apply IH. intros v x Hv Hx. apply H. econstructor; eauto.
  - intros id n vs E Ht Hr Hl IH H.
    destruct (agree_some ns ns' id n (H id (reach_refl _ _)) E) as (n' & E' & T & R & Vs).
    econstructor; eauto; try congruence. rewrite Vs. apply IH. intros v x Hv Hx. apply H. econstructor; eauto.
  - constructor.
  - intros v l t ts Hk Hd IHd Hl IHl H. constructor; auto.
    + apply IHd. intros x Hx. apply (H v); auto. left; auto.
    + apply IHl. intros v' x Hv Hx. apply (H v'); auto. right; auto.
  - constructor.
  - intros v l t ts Hd IHd Hl IHl H. constructor; auto.
    + apply IHd. intros x Hx. apply (H v); auto. left; auto.
    + apply IHl. intros v' x Hv Hx. apply (H v'); auto. right; auto.
Qed.

Lemma frame ns ns' id t :
  denotes ns id t -> (forall x, reach ns id x -> agree ns ns' x) -> denotes ns' id t.
Proof. apply frame_gen. Qed.

Lemma denotes_lt ns id t : denotes ns id t -> (id < lenN ns)%N.
Proof. intro H; destruct H; eapply getNode_lt; eauto. Qed.

Lemma denotes_list_in ns l ts : denotes_list ns l ts -> forall v, In v l -> exists t, denotes ns (vid v) t.
Proof. induction 1; simpl; intros v' Hv; [tauto|]. destruct Hv as [<-|Hv]; eauto. Qed.
Lemma denotes_members_in ns l ts : denotes_members ns l ts -> forall v, In v l -> exists t, denotes ns (vid v) t.
Proof. induction 1; simpl; intros v' Hv; [tauto|]. destruct Hv as [<-|Hv]; eauto. Qed.

Lemma denotes_child ns id t n v :
  denotes ns id t -> getNode ns id = Some n -> In v (nvalues n) -> exists t', denotes ns (vid v) t'.
Proof.
  intros H E Hv. destruct H as [id n0 E0 _ Hn|id n0 E0 _ Hn|id n0 E0 _ Hn|id n0 E0 _ Hn|id n0 E0 _ Hn
    |id n0 vs E0 _ _ Hl|id n0 ms E0 _ _ Hl]; rewrite E0 in E; injection E as ->;
    try (rewrite Hn in Hv; destruct Hv).
  - eapply denotes_list_in; eauto.
  - eapply denotes_members_in; eauto.
Qed.

Lemma reach_denotes ns id x : reach ns id x -> forall t, denotes ns id t -> exists t', denotes ns x t'.
Proof.
  induction 1; intros t Ht; eauto.
  eapply denotes_child in Ht as (t' & Ht'); eauto.
Qed.

Lemma reach_lt ns id x t : denotes ns id t -> reach ns id x -> (x < lenN ns)%N.
Proof. intros H R. eapply reach_denotes in R as (t' & H'); eauto. eapply denotes_lt; eauto. Qed.

Lemma denotes_app ns x id t : denotes ns id t -> denotes (ns ++ x) id t.
Proof.
  intro H. eapply frame; eauto. intros y Hy. unfold agree. rewrite getNode_app1; auto.
  eapply reach_lt; eauto.
Qed.

Lemma denotes_list_app ns x l ts : denotes_list ns l ts -> denotes_list (ns ++ x) l ts.
Proof. induction 1; constructor; auto using denotes_app. Qed.
Lemma denotes_members_app ns x l ts : denotes_members ns l ts -> denotes_members (ns ++ x) l ts.
Proof. induction 1; constructor; auto using denotes_app. Qed.

Lemma denotes_unflag ns id t : denotes (map unflag ns) id t <-> denotes ns id t.
Proof.
  split; intro H; eapply frame; eauto; intros x _; unfold agree; rewrite getNode_map;
    destruct (getNode ns x) as [n|]; simpl; auto; unfold unflag; simpl; rewrite info_Type_idem; auto.
Qed.

(* ---- determinism ---- *)

Lemma denotes_det_gen ns :
  (forall id t, denotes ns id t -> forall t', denotes ns id t' -> t = t') /\
  (forall l ts, denotes_list ns l ts -> forall ts', denotes_list ns l ts' -> ts = ts') /\
  (forall l ts, denotes_members ns l ts -> forall ts', denotes_members ns l ts' -> ts = ts').
Proof.
  apply denotes_mutind; intros;
    match goal with
    | H : denotes ns _ ?t |- _ = ?t => inversion H; subst; clear H
    | H : denotes_list ns _ ?t |- _ = ?t => inversion H; subst; clear H
    | H : denotes_members ns _ ?t |- _ = ?t => inversion H; subst; clear H
    end;
    try match goal with
    | E1 : getNode ns ?i = Some ?a, E2 : getNode ns ?i = Some ?b |- _ =>
        rewrite E1 in E2; injection E2; intros; subst; clear E2
    end; try reflexivity;
    try (match goal with
    | T1 : info_Type (ninfo ?a) = _, T2 : info_Type (ninfo ?a) = _ |- _ =>
        rewrite T1 in T2; discriminate T2
    end);
    try (match goal with R1 : nraw ?a = _, R2 : nraw ?a = _ |- _ => rewrite R1 in R2; discriminate R2 end);
    f_equal; auto.
  f_equal; auto.
Qed.

Lemma denotes_det ns id t t' : denotes ns id t -> denotes ns id t' -> t = t'.
Proof. intros; eapply (proj1 (denotes_det_gen ns)); eauto. Qed.

(* ---- layout ---- *)

Lemma layout_denotes_gen t : forall pre post,
  denotes (pre ++ layout (lenN pre) t ++ post) (lenN pre) t.
Proof.
  induction t using jval_ind'; intros pre post.
  1: exact (d_str _ _ (mkNode vString w []) (getNode_mid _ _ _) eq_refl eq_refl).
  1: exact (d_num _ _ (mkNode vNumber w []) (getNode_mid _ _ _) eq_refl eq_refl).
  1-3: simpl app; econstructor; [apply getNode_mid|reflexivity|reflexivity|reflexivity].
  - rewrite layout_arr. simpl app. eapply d_arr; [apply getNode_mid|reflexivity|reflexivity|].
    simpl nvalues. set (hd := mkNode _ _ _). clearbody hd.
    change (hd :: layouts (lenN pre + 1) vs ++ post) with ([hd] ++ layouts (lenN pre + 1) vs ++ post).
    rewrite app_assoc. replace (lenN pre + 1)%N with (lenN (pre ++ [hd])) by (nsimpl; lia).
    generalize (pre ++ [hd]). clear pre hd.
    induction H as [|v vs Hv Hvs IH]; intros pre; simpl; constructor; auto.
    + rewrite <- app_assoc. apply Hv.
    + rewrite <- app_assoc. rewrite <- lenN_layout with (b := lenN pre) (v := v).
      rewrite <- lenN_app. rewrite app_assoc. apply IH.
  - rewrite layout_obj. simpl app. eapply d_obj; [apply getNode_mid|reflexivity|reflexivity|].
    simpl nvalues. set (hd := mkNode _ _ _). clearbody hd.
    change (hd :: layoutm (lenN pre + 1) ms ++ post) with ([hd] ++ layoutm (lenN pre + 1) ms ++ post).
    rewrite app_assoc. replace (lenN pre + 1)%N with (lenN (pre ++ [hd])) by (nsimpl; lia).
    generalize (pre ++ [hd]). clear pre hd.
    induction H as [|v vs Hv Hvs IH]; intros pre; simpl; [constructor|].
    destruct v as [k v]. simpl in *.
    apply (dm_cons _ (mkV (lenN pre) k)).
    + simpl. rewrite <- app_assoc. apply Hv.
    + rewrite <- app_assoc. rewrite <- lenN_layout with (b := lenN pre) (v := v).
      rewrite <- lenN_app. rewrite app_assoc. apply IH.
Qed.

Lemma layout_denotes pre t : denotes (pre ++ layout (lenN pre) t) (lenN pre) t.
Proof. pose proof (layout_denotes_gen t pre []) as H. rewrite app_nil_r in H. exact H. Qed.

(* ---- depth of denoted trees is bounded by the number of nodes ---- *)

Lemma list_sum_in x l : In x l -> x <= list_sum l.
Proof. induction l; simpl; [tauto|]. intros [->|H]; [lia|]. apply IHl in H; lia. Qed.

Lemma denotes_list_sizes ns l ts : denotes_list ns l ts ->
  forall t, In t ts -> exists v, In v l /\ denotes ns (vid v) t.
Proof.
  induction 1; simpl; intros t' Ht; [tauto|]. destruct Ht as [<-|Ht].
  - exists v. auto.
  - destruct (IHdenotes_list _ Ht) as (v' & ? & ?). exists v'. auto.
Qed.
Lemma denotes_members_sizes ns l ts : denotes_members ns l ts ->
  forall t, In t ts -> exists v, In v l /\ denotes ns (vid v) (snd t) /\ vkey v = fst t.
Proof.
  induction 1; simpl; intros t' Ht; [tauto|]. destruct Ht as [<-|Ht].
  - exists v. auto.
  - destruct (IHdenotes_members _ Ht) as (v' & ? & ?). exists v'. auto.
Qed.

Lemma nodup_bound (p : list N) (n : nat) :
  NoDup p -> (forall x, In x p -> (x < N.of_nat n)%N) -> length p <= n.
Proof.
  intros Hn Hb.
  assert (length (map N.to_nat p) <= length (seq 0 n)) as H.
  { apply NoDup_incl_length.
    - apply FinFun.Injective_map_NoDup; auto. intros x y E. apply N2Nat.inj; auto.
    - intros x Hx. apply in_map_iff in Hx as (y & <- & Hy). apply in_seq. apply Hb in Hy. lia. }
  rewrite map_length, seq_length in H. exact H.
Qed.

Lemma depth_path ns t : forall id p,
  denotes ns id t -> NoDup p ->
  (forall x, In x p -> exists tx, denotes ns x tx /\ jsize t < jsize tx) ->
  length p + jdepth t <= length ns.
Proof.
  induction t using jval_ind'; intros id p Hd Hp Hx;
  assert (Hnew : NoDup (id :: p)) by
    (constructor; auto; intro Hin; apply Hx in Hin as (tx & Hd' & Hlt);
     rewrite (denotes_det _ _ _ _ Hd Hd') in Hlt; lia);
  assert (Hb : S (length p) <= length ns) by
    (apply (nodup_bound (id :: p)); auto; intros x [<-|Hin];
      [apply denotes_lt in Hd; exact Hd | apply Hx in Hin as (tx & Hd' & _); apply denotes_lt in Hd'; exact Hd']);
  try (simpl; lia).
  - simpl jdepth. destruct vs as [|v0 vs']; [simpl; lia|].
    set (vs := v0 :: vs') in *. clearbody vs.
    enough (list_max (map jdepth vs) <= length ns - S (length p)) by lia.
    apply list_max_le. apply Forall_map. rewrite Forall_forall in *. intros t Ht.
    specialize (H t Ht). inversion Hd as [| | | | |id0 n vs0 E T R Hl|]; subst.
    destruct (denotes_list_sizes _ _ _ Hl _ Ht) as (v & Hv & Hdv).
    enough (length (id :: p) + jdepth t <= length ns) by (simpl in *; lia).
    apply (H (vid v)); auto. intros x [<-|Hin].
    + exists (JArr vs). split; auto. simpl. apply (in_map jsize) in Ht. apply list_sum_in in Ht. lia.
    + apply Hx in Hin as (tx & Hd' & Hlt). exists tx. split; auto. simpl in Hlt.
      apply (in_map jsize) in Ht. apply list_sum_in in Ht. lia.
  - simpl jdepth. destruct ms as [|v0 vs']; [simpl; lia|].
    set (ms := v0 :: vs') in *. clearbody ms.
    enough (list_max (map (fun m => jdepth (snd m)) ms) <= length ns - S (length p)) by lia.
    apply list_max_le. apply Forall_map. rewrite Forall_forall in *. intros t Ht.
    specialize (H t Ht). inversion Hd as [| | | | | |id0 n vs0 E T R Hl]; subst.
    destruct (denotes_members_sizes _ _ _ Hl _ Ht) as (v & Hv & Hdv & _).
    enough (length (id :: p) + jdepth (snd t) <= length ns) by (simpl in *; lia).
    apply (H (vid v)); auto. intros x [<-|Hin].
    + exists (JObj ms). split; auto. simpl. apply (in_map (fun m => jsize (snd m))) in Ht.
      apply list_sum_in in Ht. lia.
    + apply Hx in Hin as (tx & Hd' & Hlt). exists tx. split; auto. simpl in Hlt.
      apply (in_map (fun m => jsize (snd m))) in Ht. apply list_sum_in in Ht. lia.
Qed.

Lemma denotes_depth ns id t : denotes ns id t -> jdepth t <= length ns.
Proof. intro H. apply (depth_path ns t id []); auto. constructor. intros x []. Qed.

Lemma child_size ns a t n v tv :
  denotes ns a t -> getNode ns a = Some n -> In v (nvalues n) -> denotes ns (vid v) tv ->
  jsize tv < jsize t.
Proof.
  intros Ht E Hv Htv. inversion Ht; subst;
    match goal with H : getNode ns a = Some ?m |- _ => assert (n = m) by congruence; subst n end;
    try (match goal with H : nvalues _ = [] |- _ => rewrite H in Hv; destruct Hv end).
  - assert (In tv vs) as Hin.
    { clear -H2 Hv Htv. induction H2; [destruct Hv|]. destruct Hv as [->|Hv]; [left|right; auto].
      eapply denotes_det; eauto. }
    simpl. apply (in_map jsize) in Hin. apply list_sum_in in Hin. lia.
  - assert (In tv (map snd ms)) as Hin.
    { clear -H2 Hv Htv. induction H2; [destruct Hv|]. destruct Hv as [->|Hv]; [left|right; auto].
      simpl. eapply denotes_det; eauto. }
    simpl. apply (in_map jsize) in Hin. rewrite map_map in Hin. apply list_sum_in in Hin. lia.
Qed.

Lemma reach_size ns id x t t' :
  reach ns id x -> denotes ns id t -> denotes ns x t' -> jsize t' <= jsize t.
Proof.
  intro R. revert t t'. induction R as [a|a n v b E Hv R IH]; intros t t' Ht Ht'.
  - rewrite (denotes_det _ _ _ _ Ht Ht'). lia.
  - destruct (denotes_child _ _ _ _ _ Ht E Hv) as (tv & Htv).
    pose proof (child_size _ _ _ _ _ _ Ht E Hv Htv). specialize (IH _ _ Htv Ht'). lia.
Qed.

(* A node that denotes a finite tree does not reach itself through its children. *)
Lemma child_not_reach ns id t n v :
  denotes ns id t -> getNode ns id = Some n -> In v (nvalues n) -> ~ reach ns (vid v) id.
Proof.
  intros H E Hv R. destruct (denotes_child _ _ _ _ _ H E Hv) as (tv & Htv).
  pose proof (child_size _ _ _ _ _ _ H E Hv Htv). pose proof (reach_size _ _ _ _ _ R Htv H). lia.
Qed.

(* ---- serialising ---- *)

Lemma appendJSON_denotes ns :
  forall t id, denotes ns id t -> forall fuel dst, jdepth t <= fuel ->
  appendJSON fuel ns dst (getNode ns id) = Some (dst ++ print t, false).
Proof.
  induction t using jval_ind'; intros id Hd fuel dst Hf.
  1-5: (destruct fuel as [|f]; [simpl in Hf; lia|]; inversion Hd; subst;
    match goal with E : getNode _ _ = Some _ |- _ => rewrite E end;
    cbn [appendJSON]; match goal with T : info_Type _ = _ |- _ => rewrite T end;
    cbn; try match goal with T : nraw _ = _ |- _ => rewrite T end; reflexivity).
  - destruct fuel as [|f]; [simpl in Hf; lia|]. inversion Hd as [| | | | |id0 n vs0 E T R Hl|]; subst.
    rewrite E. cbn [appendJSON]. rewrite T. cbv iota.
    change (TypeArray =? TypeObject)%N with false. change (TypeArray =? TypeArray)%N with true. cbv iota.
    assert (G : forall first dst, appendValues (appendJSON f ns) ns false first (nvalues n) dst
       = Some (dst ++ (if first then [] else match vs with [] => [] | _ => [x2c] end) ++ join x2c (map print vs), false)).
    { simpl in Hf. clear E T R Hd.
      assert (Hmax : Forall (fun t => jdepth t <= f) vs).
      { apply (proj1 (Forall_map jdepth (fun d => d <= f) vs)). apply list_max_le. lia. }
      clear Hf. generalize dependent (nvalues n). clear n id.
      induction vs as [|t ts IH]; intros l Hl first dst'.
      - inversion Hl; subst. simpl. destruct first; simpl; rewrite !app_nil_r; auto.
      - inversion Hl as [|v l0 t0 ts0 Hk Hdv Hl0]; subst.
        apply Forall_cons_iff in H as [H0 H1]. apply Forall_cons_iff in Hmax as [M0 M1].
        cbn [appendValues]. rewrite (H0 _ Hdv) by auto. rewrite IH; auto. f_equal. f_equal.
        destruct first, ts; simpl; rewrite <- ?app_assoc, ?app_nil_r; auto. }
    rewrite G. simpl. rewrite <- !app_assoc. reflexivity.
  - destruct fuel as [|f]; [simpl in Hf; lia|]. inversion Hd as [| | | | | |id0 n vs0 E T R Hl]; subst.
    rewrite E. cbn [appendJSON]. rewrite T. cbv iota.
    change (TypeObject =? TypeObject)%N with true. cbv iota.
    set (pm := fun m : bytes * jval => x22 :: fst m ++ x22 :: x3a :: print (snd m)).
    assert (G : forall first dst, appendValues (appendJSON f ns) ns true first (nvalues n) dst
       = Some (dst ++ (if first then [] else match ms with [] => [] | _ => [x2c] end) ++ join x2c (map pm ms), false)).
    { simpl in Hf. clear E T R Hd.
      assert (Hmax : Forall (fun m => jdepth (snd m) <= f) ms).
      { apply (proj1 (Forall_map (fun m => jdepth (snd m)) (fun d => d <= f) ms)). apply list_max_le. lia. }
      clear Hf. generalize dependent (nvalues n). clear n id.
      induction ms as [|t ts IH]; intros l Hl first dst'.
      - inversion Hl; subst. simpl. destruct first; simpl; rewrite !app_nil_r; auto.
      - inversion Hl as [|v l0 t0 ts0 Hdv Hl0]; subst.
        apply Forall_cons_iff in H as [H0 H1]. apply Forall_cons_iff in Hmax as [M0 M1].
        cbn [appendValues]. rewrite (H0 _ Hdv) by auto. rewrite IH; auto. f_equal. f_equal.
        destruct first, ts; simpl; unfold pm; simpl;
          repeat (rewrite <- ?app_assoc; simpl); rewrite ?app_nil_r; auto. }
    rewrite G. simpl. fold pm. rewrite <- !app_assoc. reflexivity.
Qed.

Lemma appendJSON_top ns id t dst :
  denotes ns id t -> appendJSON (depthFuel ns) ns dst (getNode ns id) = Some (dst ++ print t, false).
Proof.
  intro H. apply appendJSON_denotes; auto. apply denotes_depth in H. unfold depthFuel. lia.
Qed.
