(* Theorems about calls and histories: C11, C17, C18, C19. *)
From Coq Require Import Permutation.
From Verif Require Import Bytes Tables Types JsonSpec Parser LexProofs ParserProofs Doc DocSpec DocProofs ParserThms
  CopyProofs InvProofs Api OpProofs HistSpec HistProofs.

(* ---- invariants under effects ---- *)

Lemma effect_acyclic w n vals risky w' : effect w n vals risky w' -> fits w' -> docs semiclosed w -> docs acyclic w ->
  (forall v r d, In v vals -> ndoc n = Some r -> nth_error w r = Some d -> adopts w r (nid n) v ->
     ~ reach (dnodes d) (nid v) (nid n)) ->
  docs semiclosed w' /\ docs acyclic w'.
Proof.
  intros H M C A S. destruct H as [|r d add ns1 L G|r d nn add ns1 nn1 x L Gn G G1 Mv W Hb]; auto;
    pose proof L as (En & Ed & _); pose proof (docs_get _ _ _ _ _ Ed M) as Mn; cbn beta in Mn.
  - destruct (grow_inv _ _ _ _ _ _ _ G Mn) as (C1 & A1); eauto. split; apply docs_putNodes; auto.
  - rewrite lenN_putNode in Mn.
    destruct (grow_inv _ _ _ _ _ _ _ G Mn) as (C1 & A1); eauto.
    pose proof (getNode_lt _ _ _ G1) as Lt.
    split; apply docs_putNodes; auto.
    + apply semiclosed_put; auto. intros v Hv. apply (in_map vid) in Hv. apply (moved_in _ _ _ _ Mv) in Hv as [Hv|Hv].
      * apply in_map_iff in Hv as (u & <- & Hu). eapply C1; eauto.
      * pose proof (grow_len _ _ _ _ _ _ _ G). destruct (grow_ids _ _ _ _ _ _ _ G Mn _ Hv) as [(?&_)|[?|?]]; auto; left; lia.
    + apply acyclic_put; auto. intros v Hv. apply (in_map vid) in Hv. apply (moved_in _ _ _ _ Mv) in Hv as [Hv|Hv].
      * apply in_map_iff in Hv as (u & <- & Hu). eapply A1; eauto.
      * eapply grow_noreach; eauto.
        -- eapply getNode_lt; eauto.
        -- intros id (v0 & Hin & <- & Hd & Ha) Hlt. eapply S; eauto.
Qed.

Lemma effect_closed w n vals risky w' : effect w n vals risky w' -> fits w' -> docs closed w -> ~ bad_of w risky ->
  docs closed w'.
Proof.
  intros H M C S. destruct H as [|r d add ns1 L G|r d nn add ns1 nn1 x L Gn G G1 Mv W Hb]; auto;
    pose proof L as (En & Ed & _); pose proof (docs_get _ _ _ _ _ Ed M) as Mn; cbn beta in Mn.
  - apply docs_putNodes; auto. eapply grow_closed; eauto.
  - rewrite lenN_putNode in Mn. pose proof (grow_closed _ _ _ _ _ _ _ G (C _ _ Ed)) as C1.
    apply docs_putNodes; auto. apply closed_put; auto; [eapply getNode_lt; eauto|].
    intros v Hv. apply (in_map vid) in Hv. apply (moved_in _ _ _ _ Mv) in Hv as [Hv|Hv].
    + apply in_map_iff in Hv as (u & <- & Hu). eapply C1; eauto.
    + pose proof (grow_len _ _ _ _ _ _ _ G). destruct (grow_ids _ _ _ _ _ _ _ G Mn _ Hv) as [(?&_)|[?|E]]; try lia.
      exfalso. apply S. apply Hb; auto. rewrite <- E. auto.
Qed.

Lemma effect_wf w n vals risky w' : effect w n vals risky w' -> docs wfnodes w -> docs wfnodes w'.
Proof.
  intros H C. destruct H as [|r d add ns1 L G|r d nn add ns1 nn1 x L Gn G G1 Mv W Hb]; auto; pose proof L as (En & Ed & _).
  - apply docs_putNodes; auto. eapply grow_wf; eauto.
  - pose proof (grow_wf _ _ _ _ _ _ _ G C (C _ _ Ed)) as W1.
    apply docs_putNodes; auto. apply wfnodes_put; auto. apply W. apply W1. eapply getNode_In; eauto.
Qed.

Lemma effect_unshared w n vals risky w' : effect w n vals risky w' -> fits w' -> docs closed w -> docs unshared w ->
  (forall v, In v vals -> Node_get w v <> None) ->
  (forall v r d, In v vals -> ndoc n = Some r -> nth_error w r = Some d -> adopts w r (nid n) v ->
     ~ In (nid v) (refs (dnodes d))) ->
  docs unshared w'.
Proof.
  intros H M C U V S.
  assert (NB : forall l, (forall v, In v l -> In v vals) -> ~ bad_of w l).
  { intros l Hl (v & Hv & E). apply (V v); auto. }
  assert (Val : forall r d id, live w n r d -> valid_of w r (nid n) vals id -> (id < lenN (dnodes d))%N /\ ~ In id (refs (dnodes d))).
  { intros r d id (En & Ed & _) (v & Hin & <- & Hdoc & Ha).
    assert (L : (nid v < lenN (dnodes d))%N).
    { destruct (Node_get w v) as [x|] eqn:G; [|exfalso; eapply V; eauto].
      rewrite Node_Document_get, Hdoc in G. simpl in G. rewrite Ed in G. eapply getNode_lt; eauto. }
    split; auto. eapply S; eauto. }
  destruct H as [|r d add ns1 L G|r d nn add ns1 nn1 x L Gn G G1 Mv W Hb]; auto;
    pose proof L as (En & Ed & _); pose proof (docs_get _ _ _ _ _ Ed M) as Mn; cbn beta in Mn.
  - destruct (grow_unshared _ _ _ _ _ _ _ (lenN (dnodes d)) G Mn) as (U1 & _); eauto using closed_semi; [|lia|].
    + intro Hm. apply (NB vals); auto. eapply grow_max; eauto.
    + apply docs_putNodes; auto.
  - rewrite lenN_putNode in Mn.
    destruct (grow_unshared _ _ _ _ _ _ _ (lenN (dnodes d)) G Mn) as (U1 & N1 & D1 & _); eauto using closed_semi; [|lia|].
    + intro Hm. apply (NB vals); auto. eapply grow_max; eauto.
    + apply docs_putNodes; auto. eapply unshared_put; eauto.
Qed.

(* ---- one call ---- *)

Lemma is_strip c : (exists n k, c = CStrip n k) \/ (forall n k, c <> CStrip n k).
Proof. destruct c; try (right; discriminate). left; eauto. Qed.

Lemma strip_step w n k w' : step w (CStrip n k) = Ok w' ->
  w' = w \/ exists r d nn ns', live w n r d /\ getNode (dnodes d) (nid n) = Some nn /\
    strip (depthFuel (dnodes d)) k (dnodes d) (nid n) = Ok ns' /\ w' = putNodes w r ns'.
Proof.
  cbn [step]. unfold Node_Strip. destruct (Node_get w n) as [nn|] eqn:G; [|injection 1; auto].
  apply get_live in G as (r & d & L & G). pose proof L as (En & Ed & _). rewrite En, (live_nodes _ _ _ _ L).
  destruct (strip _ _ _ _) as [ns'| |] eqn:E; try discriminate. injection 1 as <-. right. exists r, d, nn, ns'. auto.
Qed.

Lemma strip_docs (P : list node -> Prop) w n k w' : (forall a b, shrunk a b -> P a -> P b) ->
  step w (CStrip n k) = Ok w' -> docs P w -> docs P w'.
Proof.
  intros HP H D. apply strip_step in H as [->|(r & d & nn & ns' & (En & Ed & _) & _ & E & ->)]; auto.
  apply docs_putNodes; auto. eapply HP; eauto. eapply strip_shrunk; eauto.
Qed.

Lemma step_acyclic w c w' : step w c = Ok w' -> fits w' -> no_ancestor w c -> docs semiclosed w -> docs acyclic w ->
  docs semiclosed w' /\ docs acyclic w'.
Proof.
  intros H M S C A. destruct (receiver c) as [n|] eqn:R.
  - destruct (is_strip c) as [(m & k & ->)|Hs].
    + split; eapply strip_docs; eauto using shrunk_semiclosed, shrunk_acyclic.
    + pose proof (step_effect _ _ _ _ R Hs H) as E. eapply effect_acyclic; eauto.
      all: intros; eapply S; eauto.
  - pose proof (step_appended _ _ _ R H) as E. destruct (appended_inv _ _ _ E M) as (I1 & I2 & _). auto.
Qed.

Lemma step_closed w c w' : step w c = Ok w' -> fits w' -> valid_values w c -> docs closed w -> docs closed w'.
Proof.
  intros H M S C. destruct (receiver c) as [n|] eqn:R.
  - destruct (is_strip c) as [(m & k & ->)|Hs].
    + eapply strip_docs; eauto using shrunk_closed.
    + pose proof (step_effect _ _ _ _ R Hs H) as E. eapply effect_closed; eauto.
      destruct c; intros (u & Hv & Hg); try destruct Hv. eapply S; eauto.
  - pose proof (step_appended _ _ _ R H) as E. destruct (appended_inv _ _ _ E M) as (_ & _ & I & _). auto.
Qed.

Lemma step_wf w c w' : step w c = Ok w' -> fits w' -> docs wfnodes w -> docs wfnodes w'.
Proof.
  intros H M C. destruct (receiver c) as [n|] eqn:R.
  - destruct (is_strip c) as [(m & k & ->)|Hs].
    + eapply strip_docs; eauto using shrunk_wf.
    + pose proof (step_effect _ _ _ _ R Hs H) as E. eapply effect_wf; eauto.
  - pose proof (step_appended _ _ _ R H) as E. destruct (appended_inv _ _ _ E M) as (_ & _ & _ & I & _). auto.
Qed.

Lemma copyOrAdopt_invalid w r d v to : nth_error w r = Some d -> Node_get w v = None ->
  copyOrAdopt w r (Node_Document w v) (nid v) to = Ok (w, maxUint).
Proof.
  intros E G. rewrite Node_Document_get in G. unfold copyOrAdopt. rewrite E.
  destruct (getDoc w (Node_Document w v)) as [o|]; auto. rewrite G. reflexivity.
Qed.

Lemma invalid_noop w c n v w' : receiver c = Some n -> stored c = [v] -> (forall vs, c <> CAppend n vs) ->
  Node_get w v = None -> step w c = Ok w' -> w' = w.
Proof.
  intros R S Hap G. destruct c; try discriminate S; injection R as ->.
  - injection S as ->. cbn [step]. unfold Node_Set. destruct (Node_get w n) as [nn|] eqn:Gn; [|injection 1; auto].
    apply get_live in Gn as (r & d & L & Gn). pose proof L as (En & Ed & _). rewrite En.
    destruct (info_IsObject _); [|injection 1; auto]. rewrite (copyOrAdopt_invalid _ _ _ _ _ Ed G). cbn [bind].
    rewrite N.ltb_irrefl. injection 1; auto.
  - exfalso. eapply Hap; eauto.
  - injection S as ->. cbn [step]. unfold Node_Replace. destruct (Node_get w n) as [nn|] eqn:Gn; [|injection 1; auto].
    apply get_live in Gn as (r & d & L & Gn). pose proof L as (En & Ed & _). rewrite En.
    destruct (info_IsArray _); [|injection 1; auto]. destruct (inRange _ _); [|injection 1; auto].
    rewrite (copyOrAdopt_invalid _ _ _ _ _ Ed G). cbn [bind]. rewrite N.ltb_irrefl. injection 1; auto.
Qed.

Lemma step_unshared w c w' : step w c = Ok w' -> fits w' -> valid_values w c -> no_parent w c ->
  docs closed w -> docs unshared w -> docs unshared w'.
Proof.
  intros H M V S C U. destruct (receiver c) as [n|] eqn:R.
  - destruct (is_strip c) as [(m & k & ->)|Hs].
    + eapply strip_docs; eauto using shrunk_unshared.
    + pose proof (step_effect _ _ _ _ R Hs H) as E.
      assert (Hv : w' = w \/ forall v, In v (stored c) -> Node_get w v <> None).
      { destruct c; cbn [stored] in *; try (right; intros ? []; fail).
        - destruct (Node_get w v) eqn:G; [right; intros x [<-|[]]; congruence|left].
          eapply invalid_noop; eauto; [reflexivity|discriminate].
        - right. exact V.
        - destruct (Node_get w v) eqn:G; [right; intros x [<-|[]]; congruence|left].
          eapply invalid_noop; eauto; [reflexivity|discriminate]. }
      destruct Hv as [->|Hv]; auto. eapply effect_unshared; eauto.
  - pose proof (step_appended _ _ _ R H) as E. destruct (appended_inv _ _ _ E M) as (_ & _ & _ & _ & I).
    apply I; auto. intros r d Ed. apply closed_semi; eauto.
Qed.

(* ---- histories ---- *)

Lemma history_mono (P Q : world -> call -> Prop) w : (forall w c, P w c -> Q w c) -> history P w -> history Q w.
Proof. intros HPQ. induction 1; [constructor|]. econstructor; eauto. Qed.

Lemma history_acyclic w : history no_ancestor w -> docs semiclosed w /\ docs acyclic w.
Proof.
  induction 1 as [|w c w' Hh (I1 & I2) S E M].
  - split; intros [|r] d E; discriminate.
  - eapply step_acyclic; eauto.
Qed.

Lemma C17_acyclic w : history no_ancestor w -> docs acyclic w.
Proof. intro H. apply history_acyclic; auto. Qed.

Lemma history_closed w : history valid_values w -> docs closed w /\ docs wfnodes w.
Proof.
  induction 1 as [|w c w' Hh (I1 & I2) S E M].
  - split; intros [|r] d E; discriminate.
  - split; [eapply step_closed; eauto|eapply step_wf; eauto].
Qed.

Lemma C17_trees w : history (fun w c => no_ancestor w c /\ valid_values w c) w -> docs all_trees w.
Proof.
  intros H. assert (A : docs acyclic w) by (apply C17_acyclic; eapply history_mono; [|exact H]; cbn; tauto).
  assert (C : docs closed w /\ docs wfnodes w) by (apply history_closed; eapply history_mono; [|exact H]; cbn; tauto).
  destruct C as (C & W). intros r d E. apply trees_of_invariants; eauto.
Qed.

Lemma C18_unshared w : history (fun w c => no_parent w c /\ valid_values w c) w -> docs unshared w.
Proof.
  intro H. assert (C : docs closed w /\ docs unshared w); [|tauto].
  induction H as [|w c w' Hh (I1 & I2) (S & V) E M].
  - split; intros [|r] d E; discriminate.
  - split; [eapply step_closed; eauto|eapply step_unshared; eauto].
Qed.

(* ---- termination ---- *)

Lemma AppendJSON_total w n dst : docs acyclic w -> exists out e, Node_AppendJSON w n dst = Ok (out, e).
Proof.
  intro A. unfold Node_AppendJSON. destruct (Node_get w n) as [nn|] eqn:G; [|eauto].
  apply get_live in G as (r & d & L & G). pose proof L as (En & Ed & _). rewrite (live_nodes _ _ _ _ L).
  pose proof (acyclic_depth (dnodes d) (nid n) (A _ _ Ed)) as D.
  assert (D' : depth (dnodes d) (depthFuel (dnodes d)) (nid n)) by (eapply depth_mono; eauto; unfold depthFuel; lia).
  pose proof (appendJSON_depth (dnodes d) _ _ dst D') as H. rewrite G in H.
  destruct (appendJSON _ _ _ _) as [[out e]|]; [eauto|congruence].
Qed.

Lemma tree_valid w v x : docs all_trees w -> Node_get w v = Some x -> exists t, tree_of w v t.
Proof.
  intros A G. apply get_live in G as (r & d & L & G). pose proof L as (En & Ed & _).
  destruct (A _ _ Ed (nid v)) as (t & D); [eapply getNode_lt; eauto|]. exists t. apply tree_live. eauto.
Qed.

Lemma copyOrAdopt_total w r v to : r < length w -> docs all_trees w ->
  exists w' id, copyOrAdopt w r (Node_Document w v) (nid v) to = Ok (w', id) /\
    (forall d, nth_error w r = Some d -> exists ns', w' = putNodes w r ns' /\ ext (dnodes d) ns').
Proof.
  intros L A. destruct (nth_error w r) as [d|] eqn:Ed; [|apply nth_error_None in Ed; lia].
  assert (E : exists w' id, copyOrAdopt w r (Node_Document w v) (nid v) to = Ok (w', id)).
  { destruct (Node_get w v) as [x|] eqn:G.
    - destruct (tree_valid _ _ _ A G) as (t & T). destruct (copyOrAdopt_tree _ _ _ _ _ to Ed T) as (ns' & id & -> & _). eauto.
    - rewrite (copyOrAdopt_invalid _ _ _ _ _ Ed G). eauto. }
  destruct E as (w' & id & E). exists w', id. split; auto. intros d' Hd. injection Hd as <-.
  eapply copyOrAdopt_ext; eauto.
Qed.

Lemma ext_new_trees ns new : all_trees ns -> forward (lenN ns) new -> wfnodes new -> all_trees (ns ++ new).
Proof.
  intros A F W. assert (K : forall k id, N.to_nat (lenN (ns ++ new) - id) <= k -> (id < lenN (ns ++ new))%N -> exists t, denotes (ns ++ new) id t).
  { induction k as [|k IH]; intros id Hk Hid; [lia|].
    destruct (getNode_some _ _ Hid) as (n & G). pose proof G as G'. apply getNode_app_cases in G as [(G & L)|(i & G & ->)].
    - destruct (A id L) as (t & D). exists t. apply denotes_app; auto.
    - apply (mk_denotes _ _ n); auto; [apply W; eapply nth_error_In; eauto|].
      intros v Hv. specialize (F i n v G Hv). nsimpl. apply IH; nsimpl; lia. }
  intros id Hid. eapply K; eauto.
Qed.

(* Copying or adopting keeps all nodes trees. *)
Lemma grow_trees w0 val to bad ns add ns' : grow w0 val to bad ns add ns' -> docs wfnodes w0 -> all_trees ns -> all_trees ns'.
Proof.
  intros H W0. induction H as [ns|ns id n add ns' G R Z T V H IH|ns new add ns' N F D W H IH|ns add ns' B H IH]; auto; intros C; apply IH; auto.
  - intros i Hi. rewrite lenN_putNode in Hi. destruct (C i Hi) as (t & D). exists t. apply denotes_unflag.
    rewrite (map_unflag_put _ _ _ _ G (unflag_unroot n)). apply denotes_unflag; auto.
  - apply ext_new_trees; auto. apply (W _ wfnode_inherited); auto. apply all_trees_wf; auto.
Qed.

Lemma all_trees_docs_wf w : docs all_trees w -> docs wfnodes w.
Proof. intros A r d E. apply all_trees_wf. eauto. Qed.

Lemma appendIds_total w0 r d0 to all : nth_error w0 r = Some d0 -> docs all_trees w0 ->
  forall vals ns vv, (forall v, In v vals -> In v all) ->
  roots_old (lenN (dnodes d0)) (dnodes d0) ns -> (lenN (dnodes d0) <= lenN ns)%N -> all_trees ns ->
  exists w' vv', appendIds (putNodes w0 r ns) r to vals vv = Ok (w', vv').
Proof.
  intros E A vals. induction vals as [|v vals IH]; intros ns vv Hall Ro HL An; cbn [appendIds]; [eauto|].
  destruct (copyOrAdopt_total (putNodes w0 r ns) r v to) as (w1 & id & Ec & _).
  { rewrite putNodes_length. eapply nth_error_lt; eauto. }
  { apply docs_putNodes; auto. }
  rewrite Ec. cbn [bind].
  apply copyOrAdopt_grow with (vals := all) (d0 := d0) in Ec as (ns1 & -> & G1); auto; [|apply Hall; simpl; auto].
  apply IH.
  - intros; apply Hall; simpl; auto.
  - eapply roots_old_trans; [exact Ro|]. eapply grow_roots; eauto.
  - pose proof (ext_len _ _ (grow_ext _ _ _ _ _ _ _ G1)). lia.
  - eapply grow_trees; eauto. apply all_trees_docs_wf; auto.
Qed.

(* Every call on existing documents returns when all nodes are trees. *)
Lemma step_total w c : docs all_trees w -> (forall r, subject c = Some r -> r < length w) -> exists w', step w c = Ok w'.
Proof.
  intros A S.
  assert (New : forall r info raw, subject c = Some r -> exists w' n, newNode w r info raw = Ok (w', n)).
  { intros r info raw Hr. apply S in Hr. unfold newNode. destruct (nth_error w r) as [d|] eqn:E; [eauto|].
    apply nth_error_None in E; lia. }
  destruct c; cbn [step subject] in *; eauto.
  - specialize (S r eq_refl). unfold Document_Reset. destruct (nth_error w r) eqn:E; [eauto|apply nth_error_None in E; lia].
  - destruct (Parse_total w r s (S r eq_refl)) as (w' & n & t & e & ->). cbn. eauto.
  - destruct (New r vNull strNull eq_refl) as (w' & n & E). unfold Document_Null. rewrite E. cbn. eauto.
  - destruct (New r vBoolean strFalse eq_refl) as (w' & n & E). unfold Document_False. rewrite E. cbn. eauto.
  - destruct (New r vBoolean strTrue eq_refl) as (w' & n & E). unfold Document_True. rewrite E. cbn. eauto.
  - destruct (New r vString s eq_refl) as (w' & n & E). unfold Document_TextRaw. rewrite E. cbn. eauto.
  - destruct (New r vObject [] eq_refl) as (w' & n & E). unfold Document_Object. rewrite E. cbn. eauto.
  - destruct (New r vArray [] eq_refl) as (w' & n & E). unfold Document_Array. rewrite E. cbn. eauto.
  - destruct (New r vNumber s eq_refl) as (w' & n & E). unfold Document_NumberRaw. rewrite E. cbn. eauto.
  - unfold Node_Set. destruct (Node_get w n) as [nn|] eqn:G; [|eauto].
    apply get_live in G as (r & d & L & G). pose proof L as (En & Ed & _). rewrite En.
    destruct (info_IsObject _); [|eauto].
    destruct (copyOrAdopt_total w r v (nid n)) as (w1 & id & -> & X); auto; [eapply nth_error_lt; eauto|].
    destruct (X d Ed) as (ns' & -> & Xt). cbn [bind]. destruct (id <? maxUint)%N; [|eauto].
    rewrite (live_get _ _ _ _ (live_putNodes _ _ _ _ ns' L)). cbn [dnodes].
    destruct (ext_getNode _ _ _ _ Xt G) as (n1 & -> & _). eauto.
  - unfold Node_Append. destruct vs as [|v0 vs0]; [eauto|]. remember (v0 :: vs0) as vs. clear Heqvs.
    destruct (Node_get w n) as [nn|] eqn:G; [|eauto].
    apply get_live in G as (r & d & L & G). pose proof L as (En & Ed & _). rewrite En.
    destruct (info_IsArray _); [|eauto].
    assert (Ew : putNodes w r (dnodes d) = w) by (apply putNodes_self; auto).
    destruct (appendIds_total w r d (nid n) vs Ed A vs (dnodes d) (nvalues nn)) as (w1 & vv & Ea); auto using roots_old_refl; try lia.
    { eapply A; eauto. }
    pose proof Ea as Ea'. apply appendIds_grow with (all := vs) (d0 := d) in Ea' as (add & ns1 & -> & Gr & _); auto using roots_old_refl; [|lia].
    rewrite Ew in Ea. rewrite Ea. cbn [bind].
    rewrite (live_get _ _ _ _ (live_putNodes _ _ _ _ ns1 L)). cbn [dnodes].
    destruct (ext_getNode _ _ _ _ (grow_ext _ _ _ _ _ _ _ Gr) G) as (n1 & -> & _). eauto.
  - unfold Node_Replace. destruct (Node_get w n) as [nn|] eqn:G; [|eauto].
    apply get_live in G as (r & d & L & G). pose proof L as (En & Ed & _). rewrite En.
    destruct (info_IsArray _); [|eauto]. destruct (inRange _ _) as [k|] eqn:Ek; [|eauto].
    apply inRange_some in Ek as (Ek & _).
    destruct (copyOrAdopt_total w r v (nid n)) as (w1 & id & -> & X); auto; [eapply nth_error_lt; eauto|].
    destruct (X d Ed) as (ns' & -> & Xt). cbn [bind]. destruct (id <? maxUint)%N; [|eauto].
    rewrite (live_get _ _ _ _ (live_putNodes _ _ _ _ ns' L)). cbn [dnodes].
    destruct (ext_getNode _ _ _ _ Xt G) as (n1 & G1 & _). rewrite G1.
    pose proof (ext_values _ _ _ _ _ Xt G G1) as (_ & -> & _). apply Nat.ltb_lt in Ek. rewrite Ek. eauto.
  - unfold Node_Strip. destruct (Node_get w n) as [nn|] eqn:G; [|eauto].
    apply get_live in G as (r & d & L & G). pose proof L as (En & Ed & _). rewrite En, (live_nodes _ _ _ _ L).
    pose proof (all_trees_acyclic _ (A _ _ Ed)) as Ac.
    destruct (strip_total key (dnodes d) Ac (depthFuel (dnodes d)) (dnodes d) (nid n)) as (ns' & ->); [apply shrunk_refl| |cbn; eauto].
    eapply depth_mono; [apply acyclic_depth; auto|]. unfold depthFuel. lia.
Qed.

(* Strip, Slice, Remove, Del and the setters also return on documents that are merely acyclic. *)
Lemma Strip_total w n k : docs acyclic w -> exists w', step w (CStrip n k) = Ok w'.
Proof.
  intro A. cbn [step]. unfold Node_Strip. destruct (Node_get w n) as [nn|] eqn:G; [|eauto].
  apply get_live in G as (r & d & L & G). pose proof L as (En & Ed & _). rewrite En, (live_nodes _ _ _ _ L).
  destruct (strip_total k (dnodes d) (A _ _ Ed) (depthFuel (dnodes d)) (dnodes d) (nid n)) as (ns' & ->); [apply shrunk_refl| |cbn; eauto].
  eapply depth_mono; [apply acyclic_depth; eauto|]. unfold depthFuel. lia.
Qed.

(* ---- C19: locality ---- *)

Lemma effect_local w n vals risky w' m t : effect w n vals risky w' -> tree_of w m t -> ~ contains w m n -> tree_of w' m t.
Proof.
  intros H T C. destruct H as [|r d add ns1 L G|r d nn add ns1 nn1 x L Gn G G1 Mv W Hb]; auto; pose proof L as (En & Ed & _).
  - eapply tree_putNodes; eauto. intros _ D. eapply ext_denotes; eauto. eapply grow_ext; eauto.
  - eapply tree_putNodes; eauto. intros Em D. pose proof (grow_ext _ _ _ _ _ _ _ G) as X.
    pose proof (ext_denotes _ _ _ _ X D) as D1. eapply frame; [exact D1|].
    intros y Hy. unfold agree. rewrite getNode_put_other; auto. intros <-. apply C. exists r, d. repeat split; auto.
    eapply ext_reach; eauto.
Qed.

Lemma appended_local w c w' m t : receiver c = None -> step w c = Ok w' -> tree_of w m t ->
  (forall r, c = CReset r -> ndoc m <> Some r) -> tree_of w' m t.
Proof.
  intros R H T Hr. pose proof (step_appended _ _ _ R H) as Ap.
  inversion Ap as [E|E|r d Ec Ed E|r d new Ed F D W E]; subst.
  - auto.
  - destruct T as (r & d & E1 & E2 & E3 & E4). exists r, d. repeat split; auto.
    rewrite nth_error_app1; auto. eapply nth_error_lt; eauto.
  - destruct T as (r' & d' & E1 & E2 & E3 & E4). exists r', d'. repeat split; auto.
    unfold putDoc. rewrite nth_error_replaceNth_other; auto. intros ->. eapply Hr; eauto.
  - eapply tree_putNodes; eauto. intros _ Dn. apply denotes_app; auto.
Qed.

Lemma strip_local w n k w' m t : step w (CStrip n k) = Ok w' -> tree_of w m t -> ~ overlap w m n -> tree_of w' m t.
Proof.
  intros H T C. apply strip_step in H as [->|(r & d & nn & ns' & L & G & E & ->)]; auto.
  pose proof L as (En & Ed & _). eapply tree_putNodes; eauto. intros Em D. eapply frame; [exact D|].
  intros y Hy. unfold agree. f_equal. eapply strip_outside; eauto using shrunk_refl. intro Hn. apply C. exists r, d, y. auto 10.
Qed.

Lemma C19_local_lem w c n w' m t : receiver c = Some n -> (forall x k, c <> CStrip x k) -> step w c = Ok w' ->
  tree_of w m t -> ~ contains w m n -> tree_of w' m t.
Proof. intros R Hs H T C. eapply effect_local; eauto. eapply step_effect; eauto. Qed.

(* ---- C11: revisions ---- *)

Definition revs (w : world) : list N := map drev w.

Lemma putNodes_revs w r ns : revs (putNodes w r ns) = revs w.
Proof.
  unfold putNodes, revs. destruct (nth_error w r) as [d|] eqn:E; auto. rewrite map_replaceNth. cbn.
  revert r E. induction w as [|x w IH]; intros [|r] E; try discriminate; cbn in *; auto.
  - injection E as ->. auto.
  - f_equal; auto.
Qed.

Lemma effect_revs w n vals risky w' : effect w n vals risky w' -> revs w' = revs w.
Proof. destruct 1; auto using putNodes_revs. Qed.

Lemma step_rev w c w' r d : step w c = Ok w' -> nth_error w r = Some d ->
  exists d', nth_error w' r = Some d' /\ drev d' = (if match c with CReset r' => Nat.eqb r' r | _ => false end
    then (drev d + 1) mod two64 else drev d)%N.
Proof.
  intros H E.
  assert (K : revs w' = revs w -> (match c with CReset r' => Nat.eqb r' r | _ => false end) = false ->
    exists d', nth_error w' r = Some d' /\ drev d' = (if match c with CReset r' => Nat.eqb r' r | _ => false end
    then (drev d + 1) mod two64 else drev d)%N).
  { intros R ->. pose proof (f_equal (fun l => nth_error l r) R) as R'. cbn in R'. unfold revs in R'.
    rewrite !nth_error_map, E in R'. destruct (nth_error w' r) as [d'|]; [|discriminate]. exists d'. split; auto. cbn in R'. congruence. }
  destruct (receiver c) as [n|] eqn:Rc.
  - assert (F : (match c with CReset r' => Nat.eqb r' r | _ => false end) = false) by (destruct c; auto; discriminate).
    destruct (is_strip c) as [(m & k & ->)|Hs].
    + apply strip_step in H as [->|(r' & d' & nn & ns' & _ & _ & _ & ->)]; auto using putNodes_revs.
    + apply K; auto. eapply effect_revs. eapply step_effect; eauto.
  - destruct c as [|r0|r0 ?|r0|r0|r0|r0 ?|r0|r0|r0 ?|?|?|?|?|?|?|?|?|?|?|?|?]; try discriminate Rc.
    2: { cbn [step] in H. unfold Document_Reset in H. destruct (nth_error w r0) as [d0|] eqn:E0; [|discriminate].
      injection H as <-. unfold putDoc. destruct (Nat.eqb_spec r0 r) as [->|Hn].
      - rewrite nth_error_replaceNth_same by (eapply nth_error_lt; eauto).
        eexists. split; [reflexivity|]. cbn. congruence.
      - rewrite nth_error_replaceNth_other by auto. eauto. }
    all: pose proof (step_appended _ _ _ Rc H) as Ap; inversion Ap as [E'|E'|r' d' Ec Ed E'|r' d' new Ed F D W E']; subst; try discriminate;
      try (apply K; auto using putNodes_revs; fail); rewrite nth_error_app1 by (eapply nth_error_lt; eauto); eauto.
Qed.

Lemma resets_cons r c cs : resets r (c :: cs) = ((if match c with CReset r' => Nat.eqb r' r | _ => false end then 1 else 0) + resets r cs)%N.
Proof. destruct c; cbn [resets]; auto. destruct (Nat.eqb r0 r); auto. Qed.

Lemma run_rev cs : forall w w' r d, run w cs = Ok w' -> nth_error w r = Some d -> (drev d < two64)%N ->
  exists d', nth_error w' r = Some d' /\ drev d' = ((drev d + resets r cs) mod two64)%N.
Proof.
  induction cs as [|c cs IH]; intros w w' r d; cbn [run].
  - injection 1 as <-. intros E L. exists d. split; auto. cbn [resets]. rewrite N.add_0_r, N.mod_small; auto.
  - destruct (step w c) as [w1| |] eqn:Es; try discriminate. cbn [bind]. intros H E L.
    destruct (step_rev _ _ _ _ _ Es E) as (d1 & E1 & R1). rewrite resets_cons.
    destruct (match c with CReset r' => Nat.eqb r' r | _ => false end).
    + destruct (IH _ _ _ _ H E1) as (d2 & E2 & R2); [rewrite R1; apply N.mod_lt; discriminate|].
      exists d2. split; auto. rewrite R2, R1, N.add_mod_idemp_l by discriminate. f_equal. lia.
    + destruct (IH _ _ _ _ H E1) as (d2 & E2 & R2); [lia|]. exists d2. split; auto. rewrite R2, R1. f_equal; lia.
Qed.

Lemma C11_stale_lem w w' cs n r d : nth_error w r = Some d -> ndoc n = Some r -> drev d = nrev n -> (drev d < two64)%N ->
  run w cs = Ok w' -> (0 < resets r cs)%N -> (resets r cs < two64)%N -> inert w' n.
Proof.
  intros E En Er L H P Q d' Ed. rewrite En in Ed. simpl in Ed.
  destruct (run_rev _ _ _ _ _ H E L) as (d2 & E2 & R2). assert (d2 = d') by congruence. subst d2. rewrite R2, <- Er. clear - L P Q.
  intro X. pose proof (N.div_mod (drev d + resets r cs) two64 ltac:(discriminate)) as DM. rewrite X in DM.
  assert ((drev d + resets r cs) / two64 = 0 \/ 1 <= (drev d + resets r cs) / two64)%N as [Z|Z] by lia.
  - rewrite Z in DM. lia.
  - assert (two64 * 1 <= two64 * ((drev d + resets r cs) / two64))%N by (apply N.mul_le_mono_l; auto). lia.
Qed.

Lemma inert_get w n : inert w n -> Node_get w n = None.
Proof.
  intro H. unfold Node_get. destruct (getDoc w (ndoc n)) as [d|] eqn:E; auto.
  destruct (N.eqb_spec (drev d) (nrev n)); auto. exfalso. eapply H; eauto.
Qed.
Lemma inert_doc w n : inert w n -> Node_Document w n = None.
Proof.
  intro H. unfold Node_Document. destruct (getDoc w (ndoc n)) as [d|] eqn:E; auto.
  destruct (N.eqb_spec (drev d) (nrev n)); auto. exfalso. eapply H; eauto.
Qed.

Lemma C11_mutators_lem w n c : inert w n -> receiver c = Some n -> step w c = Ok w.
Proof.
  intros H R. apply inert_get in H. destruct c; try discriminate; injection R as ->; cbn [step];
    unfold Node_Set, Node_Append, Node_Slice, Node_Replace, Node_Remove, Node_Strip, Node_Del, Node_SetNumberRaw,
      Node_SetStringRaw, Node_SetFalse, Node_SetTrue, Node_SetNull, setScalar; rewrite H; auto.
  destruct vs; auto.
Qed.

Lemma inert_With w n id : inert w n -> inert w (Node_With n id).
Proof. exact (fun H => H). Qed.

Lemma C11_inert_lem w n : inert w n ->
  Node_Raw w n = [] /\ Node_Data w n = ([], TypeInvalid) /\ Node_ToBool w n = (false, false) /\ Node_Type w n = TypeInvalid /\
  (forall want, Node_TypeError w n want = TypeErr TypeInvalid want) /\
  (forall dst, Node_AppendJSON w n dst = Ok ([], Some (TypeErr TypeInvalid TypeAnyValue))) /\
  (forall k, inert w (Node_Get w n k)) /\ (forall i, inert w (Node_Index w n i)) /\ (forall p, inert w (Node_Lookup w n p)) /\
  snd (IterV_Next (Node_Values w n)) = false /\ IterV_Len (Node_Values w n) = 0 /\ inert w (IterV_Value (Node_Values w n)).
Proof.
  intro H. pose proof (inert_get _ _ H) as G.
  unfold Node_Raw, Node_Data, Node_ToBool, Node_Type, Node_TypeError, Node_Type, Node_AppendJSON, Node_Get, Node_Index, Node_Lookup, Node_Values.
  rewrite G. cbn. repeat (split; auto using inert_With). intros d E. discriminate.
Qed.
