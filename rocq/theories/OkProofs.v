(* Texts held by nodes: if all strings, numbers and keys given to the API have some property, so have
   those of every tree. *)
From Coq Require Import Permutation.
From Verif Require Import Bytes Tables Types JsonSpec Parser LexProofs ParserProofs Doc DocSpec DocProofs ParserThms
  CopyProofs InvProofs Api OpProofs HistSpec HistProofs HistThms.

Section Ok.
  Variables strOK keyOK numOK : bytes -> Prop.

  Definition okn (n : node) : Prop :=
    (info_Type (ninfo n) = TypeString -> strOK (nraw n)) /\
    (info_Type (ninfo n) = TypeNumber -> numOK (nraw n)) /\
    (info_Type (ninfo n) = TypeObject -> forall v, In v (nvalues n) -> keyOK (vkey v)).

  Lemma okn_inherited : inherited okn.
  Proof.
    split.
    - intro n. unfold okn. cbn. rewrite info_Type_idem. reflexivity.
    - intros n vs (H1 & H2 & H3) Hs. unfold okn. cbn. split; auto. split; auto. intros T v Hv.
      destruct (Hs v Hv) as (u & Hu & <-). auto.
  Qed.

  (* ---- a parsed tree ---- *)

  Lemma arrVs_ok b vs : okn (mkNode vArray [] (arrVs b vs)).
  Proof. split; [|split]; discriminate. Qed.
  Lemma objVs_key v ms : forall b, In v (objVs b ms) -> In (vkey v) (map fst ms).
  Proof. induction ms as [|[k t] ms IH]; intros b; cbn [objVs map fst In]; [tauto|]. intros [<-|H]; cbn [vkey]; eauto. Qed.

  Lemma layout_okn wsOK :
    (forall v w, value wsOK strOK keyOK numOK v w -> forall b, eachnode okn (layout b v)) /\
    (forall vs w, elements wsOK strOK keyOK numOK vs w -> forall b, eachnode okn (layouts b vs)) /\
    (forall ms w, members wsOK strOK keyOK numOK ms w -> Forall keyOK (map fst ms) /\ forall b, eachnode okn (layoutm b ms)).
  Proof.
    apply grammar_mind.
    1-5: intros; intros x [<-|[]]; split; [|split]; cbn; try discriminate; auto.
    - intros s _ b n [<-|[]]. apply (arrVs_ok 0 []).
    - intros vs w _ IH b n Hn. rewrite layout_arr in Hn. destruct Hn as [<-|Hn]; [apply arrVs_ok|]. eapply IH; eauto.
    - intros s _ b n [<-|[]]. split; [|split]; try discriminate. intros _ v [].
    - intros ms w _ [K IH] b n Hn. rewrite layout_obj in Hn. destruct Hn as [<-|Hn].
      + split; [|split]; try discriminate. intros _ v Hv. apply objVs_key in Hv. rewrite Forall_forall in K. auto.
      + eapply IH; eauto.
    - intros s1 v w s2 _ _ IH _ b. cbn [layouts]. rewrite app_nil_r. auto.
    - intros s1 v w s2 vs w' _ _ IH _ _ IHs b. cbn [layouts]. apply eachnode_app; auto.
    - intros s1 k s2 s3 v w s4 _ Hk _ _ _ IH _. split; [constructor; [auto|constructor]|]. intro b. cbn [layoutm]. rewrite app_nil_r. auto.
    - intros s1 k s2 s3 v w s4 ms w' _ Hk _ _ _ IH _ _ [K IHs]. split; [constructor; auto|]. intro b. cbn [layoutm]. apply eachnode_app; auto.
  Qed.

  (* ---- what such nodes denote ---- *)

  Lemma denotes_okn ns : eachnode okn ns ->
    (forall id t, denotes ns id t -> value no_ws strOK keyOK numOK t (print t)) /\
    (forall l ts, denotes_list ns l ts -> ts = [] \/ elements no_ws strOK keyOK numOK ts (join x2c (map print ts))) /\
    (forall l ms, denotes_members ns l ms -> (forall v, In v l -> keyOK (vkey v)) ->
       ms = [] \/ members no_ws strOK keyOK numOK ms (join x2c (map pmember ms))).
  Proof.
    intro H. apply denotes_mutind.
    - intros id n G T _. apply getNode_In in G. constructor. apply (H n G). auto.
    - intros id n G T _. apply getNode_In in G. constructor. apply (H n G). auto.
    - constructor.
    - constructor.
    - constructor.
    - intros id n vs G T R D [->|IH]; [apply (v_arr0 _ _ _ _ []); reflexivity|]. apply v_arr. auto.
    - intros id n ms G T R D IH. apply getNode_In in G. destruct IH as [->|IH]; [apply (H n G); auto|apply (v_obj0 _ _ _ _ []); reflexivity|].
      apply v_obj. auto.
    - auto.
    - intros v l t ts E D IH Dl [->|IHl]; right.
      + pose proof (el_one no_ws strOK keyOK numOK [] t (print t) [] eq_refl IH eq_refl) as K. rewrite app_nil_r in K. exact K.
      + destruct ts as [|t' ts]; [inversion IHl|]. exact (el_cons no_ws strOK keyOK numOK [] t (print t) [] _ _ eq_refl IH eq_refl IHl).
    - auto.
    - intros v l t ts D IH Dl IHl K. right. destruct IHl as [->|IHl]; [intros; apply K; simpl; auto| |].
      + pose proof (mem_one no_ws strOK keyOK numOK [] (vkey v) [] [] t (print t) [] eq_refl (K v (or_introl eq_refl)) eq_refl eq_refl IH eq_refl) as Q.
        cbn in Q. rewrite app_nil_r in Q. exact Q.
      + destruct ts as [|m' ms]; [inversion IHl|].
        pose proof (mem_cons no_ws strOK keyOK numOK [] (vkey v) [] [] t (print t) [] _ _ eq_refl (K v (or_introl eq_refl)) eq_refl eq_refl IH eq_refl IHl) as Q.
        cbn [map]. change (join x2c (pmember (vkey v, t) :: pmember m' :: map pmember ms)) with
          (pmember (vkey v, t) ++ x2c :: join x2c (map pmember (m' :: ms))).
        unfold pmember at 1. cbn [fst snd app] in *. rewrite <- app_assoc. exact Q.
  Qed.

  (* ---- calls ---- *)

  Definition okcall (c : call) : Prop :=
    match c with
    | CParse _ s => forall s1 v w tail, s = s1 ++ w ++ tail -> ws s1 -> lenient_value v w -> (is_num v = true -> num_stop tail) ->
        value ws strOK keyOK numOK v w
    | CTextRaw _ s | CSetStringRaw _ s => strOK s
    | CNumberRaw _ s | CSetNumberRaw _ s => numOK s
    | CSet _ k _ => keyOK k
    | _ => True
    end.

  Lemma eachnode_put P ns id x : eachnode P ns -> P x -> eachnode P (putNode ns id x).
  Proof.
    intros H Hx n Hn. unfold putNode in Hn. apply In_nth_error in Hn as (i & Hi).
    destruct (Nat.eq_dec i (N.to_nat id)) as [->|Hne].
    - destruct (Nat.lt_ge_cases (N.to_nat id) (length ns)) as [L|L].
      + rewrite nth_error_replaceNth_same in Hi by auto. injection Hi as <-. auto.
      + rewrite (proj2 (nth_error_None _ _)) in Hi; [discriminate|]. rewrite replaceNth_length. auto.
    - rewrite nth_error_replaceNth_other in Hi by auto. apply H. eapply nth_error_In; eauto.
  Qed.

  Lemma putNodes_okn w r ns id x : docs (eachnode okn) w -> eachnode okn ns -> okn x -> docs (eachnode okn) (putNodes w r (putNode ns id x)).
  Proof. intros. apply docs_putNodes; auto. apply eachnode_put; auto. Qed.

  Lemma newNode_okn w r info raw w' n : newNode w r info raw = Ok (w', n) -> okn (mkNode (N.lor info infRoot) raw []) ->
    docs (eachnode okn) w -> docs (eachnode okn) w'.
  Proof.
    unfold newNode. destruct (nth_error w r) as [d|] eqn:E; [|discriminate]. injection 1 as <- <-. intros Hn C.
    apply docs_putDoc; auto. cbn. apply eachnode_app; eauto. intros m [<-|[]]. auto.
  Qed.

  Lemma setScalar_okn w n t raw : In t [vString; vNumber; vBoolean; vNull] -> (t = vString -> strOK raw) -> (t = vNumber -> numOK raw) ->
    docs (eachnode okn) w -> docs (eachnode okn) (setScalar w n t raw).
  Proof.
    intros I H1 H2 C. unfold setScalar. destruct (Node_get w n) as [nn|] eqn:G; auto.
    apply get_live in G as (r & d & L & G). rewrite (live_put _ _ _ _ _ L). pose proof L as (_ & Ed & _).
    apply putNodes_okn; auto; [eapply C; eauto|]. unfold okn. cbn [ninfo nraw nvalues]. rewrite info_Type_or_flags by auto.
    split; [|split]; auto. intros _ v [].
  Qed.

  Lemma sub_okn n n' : sub n n' -> okn n -> okn n'.
  Proof.
    intros S (H1 & H2 & H3). pose proof (fun v => sub_in n n' v S) as SI.
    destruct S as (E1 & E2 & _). unfold okn. rewrite E1, E2. auto.
  Qed.
  Lemma shrunk_okn a b : shrunk a b -> eachnode okn a -> eachnode okn b.
  Proof.
    induction 1 as [|x y a b S F IH]; intros H n; [intros []|]. intros [<-|Hn].
    - eapply sub_okn; eauto. apply H. left. auto.
    - apply IH; auto. intros m Hm. apply H. right. auto.
  Qed.

  Lemma okn_array n vs : info_Type (ninfo n) = TypeArray -> okn (withValues n vs).
  Proof. intro T. unfold okn. cbn. rewrite T. split; [|split]; discriminate. Qed.

  Lemma step_okn w c w' : step w c = Ok w' -> okcall c -> docs (eachnode okn) w -> docs (eachnode okn) w'.
  Proof.
    intros H K C. destruct (is_strip c) as [(m & k & ->)|Hs]; [eapply strip_docs; eauto using shrunk_okn|].
    destruct c; cbn [step okcall] in *; try (exfalso; eapply Hs; reflexivity).
    - injection H as <-. apply docs_snoc; auto. intros n [].
    - unfold Document_Reset in H. destruct (nth_error w r) as [d|] eqn:E; [|discriminate]. injection H as <-. apply docs_putDoc; auto. intros n [].
    - destruct (Document_Parse w r s) as [[w1 [[n tail] e]]| |] eqn:E; try discriminate. cbn [bind] in H. injection H as <-.
      destruct e as [e|]; [apply C07_fail in E; subst; auto|].
      apply Parse_ok_iff in E as (d & s1 & x & v & Ed & Es & Hw & Hv & Ht & -> & _).
      apply docs_putDoc; auto. cbn. apply eachnode_app; [eapply C; eauto|].
      eapply eachnode_unflag; [apply okn_inherited|apply unflag_rootflag|]. eapply layout_okn. eapply K; eauto.
    - destruct (Document_Null w r) as [[w1 n]| |] eqn:E; try discriminate. injection H as <-.
      eapply newNode_okn; eauto. split; [|split]; discriminate.
    - destruct (Document_False w r) as [[w1 n]| |] eqn:E; try discriminate. injection H as <-.
      eapply newNode_okn; eauto. split; [|split]; discriminate.
    - destruct (Document_True w r) as [[w1 n]| |] eqn:E; try discriminate. injection H as <-.
      eapply newNode_okn; eauto. split; [|split]; discriminate.
    - destruct (Document_TextRaw w r s) as [[w1 n]| |] eqn:E; try discriminate. injection H as <-.
      eapply newNode_okn; eauto. split; [|split]; cbn; auto; discriminate.
    - destruct (Document_Object w r) as [[w1 n]| |] eqn:E; try discriminate. injection H as <-.
      eapply newNode_okn; eauto. split; [|split]; try discriminate. intros _ v [].
    - destruct (Document_Array w r) as [[w1 n]| |] eqn:E; try discriminate. injection H as <-.
      eapply newNode_okn; eauto. split; [|split]; discriminate.
    - destruct (Document_NumberRaw w r s) as [[w1 n]| |] eqn:E; try discriminate. injection H as <-.
      eapply newNode_okn; eauto. split; [|split]; cbn; auto; discriminate.
    - (* Set *) unfold Node_Set in H. destruct (Node_get w n) as [nn|] eqn:G; [|injection H as <-; auto].
      apply get_live in G as (r & d & L & G). pose proof L as (En & Ed & _). rewrite En in H.
      destruct (info_IsObject (ninfo nn)) eqn:T; [|injection H as <-; auto].
      destruct (copyOrAdopt _ _ _ _ _) as [[w1 id]| |] eqn:Ec; try discriminate H. cbn [bind] in H.
      assert (Ew : putNodes w r (dnodes d) = w) by (apply putNodes_self; auto). rewrite <- Ew in Ec.
      apply copyOrAdopt_grow with (vals := [v]) (d0 := d) in Ec as (ns1 & -> & Gr); auto using roots_old_refl; [|lia|simpl; auto].
      pose proof (grow_ext _ _ _ _ _ _ _ Gr) as X.
      pose proof (grow_each okn _ _ _ _ _ _ _ okn_inherited Gr C (C _ _ Ed)) as C1.
      destruct (N.ltb_spec id maxUint) as [Hm|Hm]; [|injection H as <-; apply docs_putNodes; auto].
      pose proof (live_putNodes _ _ _ _ ns1 L) as L1. rewrite (live_get _ _ _ _ L1) in H. cbn [dnodes] in H.
      destruct (ext_getNode _ _ _ _ X G) as (nn1 & G1 & U). rewrite G1 in H.
      rewrite (live_put _ _ _ _ _ L1), putNodes_twice in H. injection H as <-.
      apply putNodes_okn; auto. apply IsObject_type in T. pose proof (ext_values _ _ _ _ _ X G G1) as (_ & V1 & T1 & _).
      destruct (C1 nn1 (getNode_In _ _ _ G1)) as (_ & _ & K3). unfold okn. cbn. rewrite T1, T.
      split; [discriminate|]. split; [discriminate|]. intros _ u Hu. apply assignKey_keys in Hu as [->|(u' & Hu & <-)]; auto. apply K3; auto. congruence.
    - (* Append *) unfold Node_Append in H. destruct vs as [|v0 vs0]; [injection H as <-; auto|].
      remember (v0 :: vs0) as vs. clear Heqvs.
      destruct (Node_get w n) as [nn|] eqn:G; [|injection H as <-; auto].
      apply get_live in G as (r & d & L & G). pose proof L as (En & Ed & _). rewrite En in H.
      destruct (info_IsArray (ninfo nn)) eqn:T; [|injection H as <-; auto].
      destruct (appendIds _ _ _ _ _) as [[w1 vv]| |] eqn:Ec; try discriminate H. cbn [bind] in H.
      assert (Ew : putNodes w r (dnodes d) = w) by (apply putNodes_self; auto). rewrite <- Ew in Ec.
      apply appendIds_grow with (all := vs) (d0 := d) in Ec as (add & ns1 & -> & Gr & -> & _); auto using roots_old_refl; [|lia].
      pose proof (grow_ext _ _ _ _ _ _ _ Gr) as X.
      pose proof (grow_each okn _ _ _ _ _ _ _ okn_inherited Gr C (C _ _ Ed)) as C1.
      pose proof (live_putNodes _ _ _ _ ns1 L) as L1. rewrite (live_get _ _ _ _ L1) in H. cbn [dnodes] in H.
      destruct (ext_getNode _ _ _ _ X G) as (nn1 & G1 & U). rewrite G1 in H.
      rewrite (live_put _ _ _ _ _ L1), putNodes_twice in H. injection H as <-.
      apply IsArray_type in T. pose proof (ext_values _ _ _ _ _ X G G1) as (_ & V1 & T1 & _).
      apply putNodes_okn; auto. apply okn_array. congruence.
    - (* Slice *) injection H as <-. unfold Node_Slice. destruct (Node_get w n) as [nn|] eqn:G; auto.
      destruct (info_IsArray (ninfo nn)) eqn:T; cbn [andb]; auto. destruct (_ && _)%bool; auto.
      apply get_live in G as (r & d & L & G). rewrite (live_put _ _ _ _ _ L). pose proof L as (_ & Ed & _).
      apply putNodes_okn; auto; [eapply C; eauto|]. apply okn_array, IsArray_type. auto.
    - (* Replace *) unfold Node_Replace in H. destruct (Node_get w n) as [nn|] eqn:G; [|injection H as <-; auto].
      apply get_live in G as (r & d & L & G). pose proof L as (En & Ed & _). rewrite En in H.
      destruct (info_IsArray (ninfo nn)) eqn:T; [|injection H as <-; auto].
      destruct (inRange _ _) as [k|] eqn:Ek; [|injection H as <-; auto].
      destruct (copyOrAdopt _ _ _ _ _) as [[w1 id]| |] eqn:Ec; try discriminate H. cbn [bind] in H.
      assert (Ew : putNodes w r (dnodes d) = w) by (apply putNodes_self; auto). rewrite <- Ew in Ec.
      apply copyOrAdopt_grow with (vals := [v]) (d0 := d) in Ec as (ns1 & -> & Gr); auto using roots_old_refl; [|lia|simpl; auto].
      pose proof (grow_ext _ _ _ _ _ _ _ Gr) as X.
      pose proof (grow_each okn _ _ _ _ _ _ _ okn_inherited Gr C (C _ _ Ed)) as C1.
      destruct (N.ltb_spec id maxUint) as [Hm|Hm]; [|injection H as <-; apply docs_putNodes; auto].
      pose proof (live_putNodes _ _ _ _ ns1 L) as L1. rewrite (live_get _ _ _ _ L1) in H. cbn [dnodes] in H.
      destruct (ext_getNode _ _ _ _ X G) as (nn1 & G1 & U). rewrite G1 in H.
      pose proof (ext_values _ _ _ _ _ X G G1) as (_ & V1 & T1 & _).
      destruct (k <? length (nvalues nn1)) eqn:Ek'; [|discriminate H].
      rewrite (live_put _ _ _ _ _ L1), putNodes_twice in H. injection H as <-.
      apply putNodes_okn; auto. apply okn_array. apply IsArray_type in T. congruence.
    - (* Remove *) injection H as <-. unfold Node_Remove. destruct (Node_get w n) as [nn|] eqn:G; auto.
      destruct (info_IsArray (ninfo nn)) eqn:T; cbn [andb]; auto. destruct (inRange _ _) as [k|]; auto.
      apply get_live in G as (r & d & L & G). rewrite (live_put _ _ _ _ _ L). pose proof L as (_ & Ed & _).
      apply putNodes_okn; auto; [eapply C; eauto|]. apply okn_array, IsArray_type. auto.
    - (* Del *) injection H as <-. unfold Node_Del. destruct (Node_get w n) as [nn|] eqn:G; auto.
      destruct (info_IsObject (ninfo nn)) eqn:T; cbn [andb]; auto.
      destruct (keyIndex _ _) as [k|] eqn:Ek; auto. apply keyIndex_some in Ek as (u & Hu & _). apply swapRemove_perm in Hu.
      apply get_live in G as (r & d & L & G). rewrite (live_put _ _ _ _ _ L). pose proof L as (_ & Ed & _).
      pose proof (C _ _ Ed nn (getNode_In _ _ _ G)) as Kn.
      apply putNodes_okn; auto; [eapply C; eauto|]. eapply sub_okn; [|exact Kn].
      split; [reflexivity|]. split; [reflexivity|]. exists [u]. eapply perm_trans; [exact Hu|apply Permutation_cons_append].
    - injection H as <-. apply setScalar_okn; auto; [cbn; auto|discriminate].
    - injection H as <-. apply setScalar_okn; auto; [cbn; auto|discriminate].
    - injection H as <-. apply setScalar_okn; auto; [cbn; auto|discriminate..].
    - injection H as <-. apply setScalar_okn; auto; [cbn; auto|discriminate..].
    - injection H as <-. apply setScalar_okn; auto; [cbn; auto|discriminate..].
  Qed.

  Lemma history_okn w : history (fun _ c => okcall c) w -> docs (eachnode okn) w.
  Proof.
    induction 1; [intros r d; destruct r; discriminate|]. eapply step_okn; eauto.
  Qed.

  Lemma history_value w n t : history (fun _ c => okcall c) w -> tree_of w n t ->
    value no_ws strOK keyOK numOK t (print t).
  Proof.
    intros H (r & d & E1 & E2 & E3 & D). apply history_okn in H. eapply denotes_okn; eauto.
  Qed.
End Ok.
