(* Preservation of the document invariants by every API call; termination on acyclic documents. *)
From Coq Require Import Permutation.
From Verif Require Import Bytes Tables Types JsonSpec Parser LexProofs ParserProofs Doc DocSpec DocProofs ParserThms
  CopyProofs InvProofs Api OpProofs.

Lemma docs_putNodes P w r ns : docs P w -> P ns -> docs P (putNodes w r ns).
Proof.
  intros H Hn r' d' E. destruct (Nat.eq_dec r r') as [<-|Hne].
  - unfold putNodes in E. destruct (nth_error w r) as [d|] eqn:Ed.
    + rewrite nth_error_replaceNth_same in E by (eapply nth_error_lt; eauto). injection E as <-. exact Hn.
    + congruence.
  - rewrite putNodes_other in E by auto. eauto.
Qed.

Lemma docs_get P w r ns d : nth_error w r = Some d -> docs P (putNodes w r ns) -> P ns.
Proof. intros E H. apply (H r _ (putNodes_same _ _ _ _ E)). Qed.

(* Fewer than 2^64 nodes: ids are machine words. *)
Definition fitsN (ns : list node) : Prop := (lenN ns <= maxUint)%N.

Lemma getNode_max ns : fitsN ns -> getNode ns maxUint = None.
Proof. apply getNode_none. Qed.

Lemma reach_dangling ns a b : getNode ns a = None -> reach ns a b -> b = a.
Proof. intros G R. inversion R; congruence. Qed.

(* ---- grow ---- *)

Lemma grow_len w0 val to bad ns add ns' : grow w0 val to bad ns add ns' -> (lenN ns <= lenN ns')%N.
Proof. intro H. apply ext_len. eapply grow_ext; eauto. Qed.

Lemma grow_inv w0 val to bad ns add ns' : grow w0 val to bad ns add ns' -> fitsN ns' -> semiclosed ns -> acyclic ns ->
  semiclosed ns' /\ acyclic ns'.
Proof.
  induction 1 as [ns|ns id n add ns' G R Z T V H IH|ns new add ns' N F D W H IH|ns add ns' B H IH]; auto; intros M C A.
  - assert (E : map unflag (putNode ns id (unroot n)) = map unflag ns) by (eapply map_unflag_put; eauto; apply unflag_unroot).
    apply IH; auto; [eapply semiclosed_unflag|eapply acyclic_unflag]; eauto.
  - pose proof (grow_len _ _ _ _ _ _ _ H). unfold fitsN in M.
    apply IH; auto; [apply semiclosed_app|apply acyclic_app]; auto. lia.
Qed.

Lemma grow_closed w0 val to bad ns add ns' : grow w0 val to bad ns add ns' -> closed ns -> closed ns'.
Proof.
  induction 1 as [ns|ns id n add ns' G R Z T V H IH|ns new add ns' N F D W H IH|ns add ns' B H IH]; auto; intros C; apply IH.
  - apply (closed_unflag ns); auto. eapply map_unflag_put; eauto. apply unflag_unroot.
  - apply closed_app; auto.
Qed.

Lemma grow_each P w0 val to bad ns add ns' : inherited P -> grow w0 val to bad ns add ns' -> docs (eachnode P) w0 ->
  eachnode P ns -> eachnode P ns'.
Proof.
  intro HP.
  induction 1 as [ns|ns id n add ns' G R Z T V H IH|ns new add ns' N F D W H IH|ns add ns' B H IH]; auto; intros W0 C; apply IH; auto.
  - apply (eachnode_unflag _ _ ns); auto. eapply map_unflag_put; eauto. apply unflag_unroot.
  - apply eachnode_app; auto.
Qed.
Lemma grow_wf w0 val to bad ns add ns' : grow w0 val to bad ns add ns' -> docs wfnodes w0 -> wfnodes ns -> wfnodes ns'.
Proof. exact (grow_each wfnode _ _ _ _ _ _ _ wfnode_inherited). Qed.

Lemma grow_ids w0 val to bad ns add ns' : grow w0 val to bad ns add ns' -> fitsN ns' -> forall id, In id add ->
  ((id < lenN ns)%N /\ val id) \/ (lenN ns <= id < lenN ns')%N \/ id = maxUint.
Proof.
  induction 1 as [ns|ns id n add ns' G R Z T V H IH|ns new add ns' N F D W H IH|ns add ns' B H IH]; intros M x Hx.
  - destruct Hx.
  - destruct Hx as [<-|Hx].
    + left. split; auto. eapply getNode_lt; eauto.
    + specialize (IH M x Hx). rewrite lenN_putNode in IH. exact IH.
  - pose proof (grow_len _ _ _ _ _ _ _ H) as L.
    assert (0 < lenN new)%N by (destruct new; [congruence|nsimpl; lia]). nsimpl.
    destruct Hx as [<-|Hx].
    + right. left. lia.
    + destruct (IH M x Hx) as [(A & B)|[A|A]]; auto.
      * destruct (N.lt_ge_cases x (lenN ns)); auto. right. left. lia.
      * right. left. lia.
  - destruct Hx as [<-|Hx]; auto.
Qed.

Lemma ext_reach_back ns ns' a b : ext ns ns' -> semiclosed ns -> fitsN ns' ->
  reach ns' a b -> (a < lenN ns)%N -> (b < lenN ns)%N -> reach ns a b.
Proof.
  intros X C M. pose proof (ext_len _ _ X) as L. unfold fitsN in M.
  induction 1 as [|a n v b G Hv R IH]; [constructor|]. intros Ha Hb.
  destruct (getNode_some ns a Ha) as (m & Gm). pose proof (ext_values _ _ _ _ _ X Gm G) as (_ & V & _).
  rewrite V in Hv. destruct (C a m v Gm Hv) as [Hl|Hm].
  - econstructor; eauto.
  - apply reach_dangling in R; [lia|]. rewrite Hm. apply getNode_max. exact M.
Qed.

Lemma grow_noreach w0 val to bad ns add ns' : grow w0 val to bad ns add ns' -> fitsN ns' -> semiclosed ns -> (to < lenN ns)%N ->
  (forall id, val id -> (id < lenN ns)%N -> ~ reach ns id to) -> forall id, In id add -> ~ reach ns' id to.
Proof.
  intros H M C Ht Hv id Hid R. pose proof (grow_ext _ _ _ _ _ _ _ H) as X. pose proof (ext_len _ _ X) as L.
  destruct (grow_ids _ _ _ _ _ _ _ H M id Hid) as [(A & B)|[A|A]].
  - apply (Hv id B A). eapply ext_reach_back; eauto.
  - apply (ext_fresh _ _ _ _ X) in R; lia.
  - subst id. apply reach_dangling in R; [unfold fitsN in M; lia|]. apply getNode_max; auto.
Qed.

(* A node without root flag is not adopted. *)
Lemma grow_unrooted w0 val to bad ns add ns' id n : grow w0 val to bad ns add ns' -> fitsN ns' ->
  getNode ns id = Some n -> info_IsRoot (ninfo n) = false -> ~ In id add.
Proof.
  induction 1 as [ns|ns i m add ns' G R Z T V H IH|ns new add ns' N F D W H IH|ns add ns' B H IH]; intros M Gn Rn Hx.
  - destruct Hx.
  - destruct (N.eq_dec i id) as [->|Hne]; [congruence|]. destruct Hx as [->|Hx]; [congruence|].
    revert Hx. apply IH; auto. rewrite getNode_put_other; auto.
  - pose proof (getNode_lt _ _ _ Gn). destruct Hx as [<-|Hx]; [lia|]. revert Hx. apply IH; auto.
    rewrite getNode_app1; auto.
  - destruct Hx as [<-|Hx]; [|revert Hx; apply IH; auto].
    pose proof (getNode_lt _ _ _ Gn). pose proof (grow_len _ _ _ _ _ _ _ H). unfold fitsN in M. lia.
Qed.

Lemma semiclosed_refs ns x : semiclosed ns -> In x (refs ns) -> (x < lenN ns)%N \/ x = maxUint.
Proof.
  intros C H. apply in_refs in H as (n & v & Hn & Hv & <-). apply In_nth_error in Hn as (i & Hi).
  apply (C (N.of_nat i) n v); auto.
  rewrite getNode_nth; [rewrite Nat2N.id; auto|]. unfold lenN. apply nth_error_lt in Hi. lia.
Qed.

Lemma grow_unshared w0 val to bad ns add ns' L : grow w0 val to bad ns add ns' -> fitsN ns' -> semiclosed ns -> unshared ns ->
  ~ In maxUint add -> (L <= lenN ns)%N -> (forall id, val id -> (id < L)%N /\ ~ In id (refs ns)) ->
  unshared ns' /\ NoDup add /\ (forall id, In id add -> ~ In id (refs ns')) /\
  (forall x, In x (refs ns') -> In x (refs ns) \/ (lenN ns < x)%N) /\
  (forall id, In id add -> (id < L)%N \/ (lenN ns <= id)%N).
Proof.
  induction 1 as [ns|ns id n add ns' G R Z T V H IH|ns new add ns' N F D W H IH|ns add ns' B H IH]; intros M C U Nm HL Hv.
  - split; auto. split; [constructor|]. split; [intros ? []|]. split; auto. intros ? [].
  - assert (E : map unflag (putNode ns id (unroot n)) = map unflag ns) by (eapply map_unflag_put; eauto; apply unflag_unroot).
    pose proof (refs_flag _ _ E) as Er.
    destruct IH as (I1 & I2 & I3 & I4 & I5); auto.
    { eapply semiclosed_unflag; eauto. } { unfold unshared. rewrite Er; auto. }
    { intro. apply Nm. simpl; auto. } { rewrite lenN_putNode; auto. } { rewrite Er; auto. }
    rewrite lenN_putNode, Er in *.
    split; auto. split; [|split; [|split; auto]].
    + constructor; auto. eapply grow_unrooted; eauto.
      * apply getNode_put_same. eapply getNode_lt; eauto.
      * apply unroot_not_root.
    + intros x [<-|Hx]; auto. intro Hr. apply I4 in Hr as [Hr|Hr].
      * apply (Hv id V); auto.
      * pose proof (getNode_lt _ _ _ G). lia.
    + intros x [<-|Hx]; auto. left. apply Hv; auto.
  - pose proof (grow_len _ _ _ _ _ _ _ H) as Ln. pose proof (forward_refsin _ _ F) as FR.
    assert (Lnew : (0 < lenN new)%N) by (destruct new; [congruence|nsimpl; lia]).
    unfold fitsN in M.
    destruct IH as (I1 & I2 & I3 & I4 & I5); auto.
    { apply semiclosed_app; auto. } { apply unshared_app; auto. lia. }
    { intro. apply Nm. simpl; auto. } { nsimpl. lia. }
    { intros id Hid. destruct (Hv id Hid) as (A & B). split; auto. rewrite refs_app. intro Hx.
      apply in_app_or in Hx as [Hx|Hx]; auto. apply (refsin_refs _ _ _ _ FR) in Hx. lia. }
    rewrite lenN_app in *. rewrite refs_app in *.
    assert (I6 : forall x, In x (refs ns') -> In x (refs ns) \/ (lenN ns < x)%N).
    { intros x Hx. apply I4 in Hx as [Hx|Hx]; [|right; lia]. apply in_app_or in Hx as [Hx|Hx]; auto.
      right. apply (refsin_refs _ _ _ _ FR) in Hx. lia. }
    split; auto. split; [|split; [|split; auto]].
    + constructor; auto. intro Hx. apply I5 in Hx as [Hx|Hx]; lia.
    + intros x [<-|Hx]; auto. intro Hr. apply I6 in Hr as [Hr|Hr]; [|lia].
      apply semiclosed_refs in Hr; auto. lia.
    + intros x [<-|Hx]; [right; lia|]. apply I5 in Hx as [|]; [auto|right; lia].
  - exfalso. apply Nm. simpl; auto.
Qed.

(* ---- calls that only append a block ---- *)

Lemma layout_block (ns : list node) t : forward (lenN ns) (layout (lenN ns) t) /\ NoDup (refs (layout (lenN ns) t)).
Proof.
  pose proof (layout_denotes [] t) as D. change (lenN (@nil node)) with 0%N in D. cbn [app] in D.
  destruct (getNode_some (layout 0 t) 0) as (n & En); [eapply denotes_lt; eauto|].
  destruct (ncopy_spec t (jdepth t) (Some (layout 0 t)) (layout 0 t) 0%N n ns D En) as (new & E & U); simpl; auto.
  apply ncopy_fresh in E as (_ & new' & E & _ & F & Nd). apply app_inv_head in E. subst new'.
  rewrite <- U. split.
  - intros i m v Hi Hv. rewrite nth_error_map in Hi. destruct (nth_error new i) as [m'|] eqn:Em; [|discriminate].
    injection Hi as <-. rewrite lenN_map. apply (F i m' v Em Hv).
  - rewrite refs_unflag. auto.
Qed.

Lemma layout_wf t : forall b, wfnodes (layout b t).
Proof.
  induction t using jval_ind'; intros b n Hn.
  1-5: destruct Hn as [<-|[]]; unfold wfnode; cbn; auto 10.
  - rewrite layout_arr in Hn. destruct Hn as [<-|Hn].
    + unfold wfnode. cbn [ninfo nraw nvalues]. do 3 right. left. split; [reflexivity|]. split; auto.
      generalize (b + 1)%N. clear. induction vs as [|x vs IH]; intros b v; simpl; [tauto|].
      intros [<-|H]; auto. eapply IH; eauto.
    + revert n Hn. generalize (b + 1)%N. induction H as [|x vs Hx Hvs IH]; intros b' n Hn; [destruct Hn|].
      cbn [layouts] in Hn. apply in_app_or in Hn as [Hn|Hn]; [eapply Hx|eapply IH]; eauto.
  - rewrite layout_obj in Hn. destruct Hn as [<-|Hn].
    + unfold wfnode. cbn. auto 10.
    + revert n Hn. generalize (b + 1)%N. induction H as [|x vs Hx Hvs IH]; intros b' n Hn; [destruct Hn|].
      cbn [layoutm] in Hn. apply in_app_or in Hn as [Hn|Hn]; [eapply Hx|eapply IH]; eauto.
Qed.

Inductive appended (c : call) (w : world) : world -> Prop :=
| ap_none : appended c w w
| ap_doc : appended c w (w ++ [mkDoc [] 0])
| ap_reset r d : c = CReset r -> nth_error w r = Some d -> appended c w (putDoc w r (resetDoc d))
| ap_block r d new : nth_error w r = Some d -> forward (lenN (dnodes d)) new -> NoDup (refs new) -> wfnodes new ->
    appended c w (putNodes w r (dnodes d ++ new)).

Lemma newNode_appended c w r info raw w' n : newNode w r info raw = Ok (w', n) ->
  wfnode (mkNode (N.lor info infRoot) raw []) -> appended c w w'.
Proof.
  unfold newNode. destruct (nth_error w r) as [d|] eqn:E; [|discriminate]. injection 1 as <- <-. intro Wn.
  replace (putDoc w r _) with (putNodes w r (dnodes d ++ [mkNode (N.lor info infRoot) raw []])).
  - apply ap_block; auto.
    + intros [|i] m v; simpl; [injection 1 as <-; intros []|]. destruct i; discriminate.
    + constructor.
    + intros m [<-|[]]. auto.
  - unfold putNodes. rewrite E. reflexivity.
Qed.

Lemma step_appended w c w' : receiver c = None -> step w c = Ok w' -> appended c w w'.
Proof.
  destruct c; try discriminate; intros _; cbn [step].
  - injection 1 as <-. constructor.
  - unfold Document_Reset. destruct (nth_error w r) as [d|] eqn:E; [|discriminate]. injection 1 as <-. constructor; auto.
  - destruct (Document_Parse w r s) as [[w1 [[n tail] e]]| |] eqn:E; try discriminate. cbn [bind]. injection 1 as <-.
    destruct e as [e|].
    + apply C07_fail in E. subst. constructor.
    + apply Parse_ok_iff in E as (d & s1 & x & v & Ed & _ & _ & _ & _ & -> & _).
      destruct (layout_block (dnodes d) v) as (F & D).
      replace (putDoc w r _) with (putNodes w r (dnodes d ++ rootflag (layout (lenN (dnodes d)) v)))
        by (unfold putNodes; rewrite Ed; reflexivity).
      pose proof (unflag_rootflag (layout (lenN (dnodes d)) v)) as U.
      apply ap_block; auto.
      * intros i m u Hi Hu. rewrite (map_unflag_len _ _ U).
        pose proof (nth_error_map unflag i (rootflag (layout (lenN (dnodes d)) v))) as Hm.
        rewrite Hi, U, nth_error_map in Hm. destruct (nth_error (layout (lenN (dnodes d)) v) i) as [m'|] eqn:Em; [|discriminate].
        injection Hm as _ _ Hm. rewrite <- Hm in Hu. eapply F; eauto.
      * rewrite (refs_flag _ _ U). auto.
      * eapply wfnodes_unflag; [exact U|]. apply layout_wf.
  - destruct (Document_Null w r) as [[w1 n]| |] eqn:E; try discriminate. injection 1 as <-.
    eapply newNode_appended; eauto. unfold wfnode; cbn; auto 10.
  - destruct (Document_False w r) as [[w1 n]| |] eqn:E; try discriminate. injection 1 as <-.
    eapply newNode_appended; eauto. unfold wfnode; cbn; auto 10.
  - destruct (Document_True w r) as [[w1 n]| |] eqn:E; try discriminate. injection 1 as <-.
    eapply newNode_appended; eauto. unfold wfnode; cbn; auto 10.
  - destruct (Document_TextRaw w r s) as [[w1 n]| |] eqn:E; try discriminate. injection 1 as <-.
    eapply newNode_appended; eauto. unfold wfnode; cbn; auto 10.
  - destruct (Document_Object w r) as [[w1 n]| |] eqn:E; try discriminate. injection 1 as <-.
    eapply newNode_appended; eauto. unfold wfnode; cbn; auto 10.
  - destruct (Document_Array w r) as [[w1 n]| |] eqn:E; try discriminate. injection 1 as <-.
    eapply newNode_appended; eauto. unfold wfnode; cbn. do 3 right. left. split; [reflexivity|]. split; [reflexivity|]. contradiction.
  - destruct (Document_NumberRaw w r s) as [[w1 n]| |] eqn:E; try discriminate. injection 1 as <-.
    eapply newNode_appended; eauto. unfold wfnode; cbn; auto 10.
Qed.

Lemma docs_putDoc P w r d : docs P w -> P (dnodes d) -> docs P (putDoc w r d).
Proof.
  intros H Hn r' d' E. unfold putDoc in E. destruct (Nat.eq_dec r r') as [<-|Hne].
  - destruct (Nat.lt_ge_cases r (length w)) as [L|L].
    + rewrite nth_error_replaceNth_same in E by auto. injection E as <-. exact Hn.
    + rewrite (proj2 (nth_error_None _ _)) in E; [discriminate|]. rewrite replaceNth_length. auto.
  - rewrite nth_error_replaceNth_other in E by auto. eauto.
Qed.

Lemma docs_snoc P w d : docs P w -> P (dnodes d) -> docs P (w ++ [d]).
Proof.
  intros H Hn r' d' E. destruct (Nat.lt_ge_cases r' (length w)) as [L|L].
  - rewrite nth_error_app1 in E by auto. eauto.
  - rewrite nth_error_app2 in E by auto. destruct (r' - length w) as [|k]; simpl in E.
    + injection E as <-. auto.
    + destruct k; discriminate.
Qed.

Lemma acyclic_nil : acyclic []. Proof. intros id n v H. apply getNode_In in H as []. Qed.
Lemma closed_nil : closed []. Proof. intros id n v H. apply getNode_In in H as []. Qed.
Lemma wfnodes_nil : wfnodes []. Proof. intros n []. Qed.
Lemma unshared_nil : unshared []. Proof. constructor. Qed.

Lemma appended_inv c w w' : appended c w w' -> docs fitsN w' ->
  (docs semiclosed w -> docs semiclosed w') /\
  (docs semiclosed w -> docs acyclic w -> docs acyclic w') /\
  (docs closed w -> docs closed w') /\ (docs wfnodes w -> docs wfnodes w') /\
  (docs semiclosed w -> docs unshared w -> docs unshared w').
Proof.
  intros H M. destruct H as [| |r d _ E|r d new E F D W].
  - auto.
  - repeat split; intros; apply docs_snoc; auto using acyclic_nil, closed_nil, wfnodes_nil, unshared_nil, closed_semi.
  - repeat split; intros; apply docs_putDoc; cbn; auto using acyclic_nil, closed_nil, wfnodes_nil, unshared_nil, closed_semi.
  - pose proof (docs_get _ _ _ _ _ E M) as Mn.
    split; [|split; [|split; [|split]]].
    + intros C. apply docs_putNodes; auto. apply semiclosed_app; eauto.
    + intros C A. apply docs_putNodes; auto. apply acyclic_app; eauto.
    + intros C. apply docs_putNodes; auto. apply closed_app; eauto.
    + intros C. apply docs_putNodes; auto. apply wfnodes_app; eauto.
    + intros C U. apply docs_putNodes; auto. apply unshared_app; eauto.
Qed.

(* ---- Strip ---- *)

Definition sub (n n' : node) : Prop :=
  ninfo n' = ninfo n /\ nraw n' = nraw n /\ exists l, Permutation (nvalues n) (nvalues n' ++ l).

Lemma sub_refl n : sub n n.
Proof. repeat split. exists []. rewrite app_nil_r. reflexivity. Qed.
Lemma sub_trans a b c : sub a b -> sub b c -> sub a c.
Proof.
  intros (A1 & A2 & l & A3) (B1 & B2 & k & B3). repeat split; try congruence. exists (k ++ l).
  rewrite A3, B3, <- app_assoc. reflexivity.
Qed.
Definition shrunk (ns ns' : list node) : Prop := Forall2 sub ns ns'.
Lemma shrunk_refl ns : shrunk ns ns.
Proof. induction ns; constructor; auto using sub_refl. Qed.
Lemma shrunk_trans a b c : shrunk a b -> shrunk b c -> shrunk a c.
Proof.
  intro H. revert c. induction H; intros z Hz; inversion Hz; subst; constructor; eauto using sub_trans. apply IHForall2; auto.
Qed.
Lemma shrunk_len a b : shrunk a b -> lenN a = lenN b.
Proof. induction 1; auto. rewrite !lenN_cons. congruence. Qed.
Lemma shrunk_get a b id n : shrunk a b -> getNode b id = Some n -> exists m, getNode a id = Some m /\ sub m n.
Proof.
  intros H G. pose proof (getNode_lt _ _ _ G) as L. rewrite getNode_nth in G by auto.
  rewrite <- (shrunk_len _ _ H) in L. rewrite getNode_nth by auto.
  revert G. generalize (N.to_nat id) as i. clear L. induction H as [|x y a b Hxy Hr IH]; intros [|i]; simpl; try discriminate; eauto.
  injection 1 as <-. eauto.
Qed.
Lemma shrunk_get_fwd a b id m : shrunk a b -> getNode a id = Some m -> exists n, getNode b id = Some n /\ sub m n.
Proof.
  intros H G. destruct (getNode_some b id) as (n & Gn). { rewrite <- (shrunk_len _ _ H). eapply getNode_lt; eauto. }
  destruct (shrunk_get _ _ _ _ H Gn) as (m' & Gm & S). exists n. split; auto. congruence.
Qed.
Lemma shrunk_put ns id n x : getNode ns id = Some n -> sub n x -> shrunk ns (putNode ns id x).
Proof.
  intros G S. destruct (putNode_split ns id (getNode_lt _ _ _ G)) as (a & m & b & -> & La & G' & Hp).
  assert (m = n) by congruence. subst m. rewrite Hp. apply Forall2_app; [apply shrunk_refl|].
  constructor; auto. apply shrunk_refl.
Qed.
Lemma sub_in n n' v : sub n n' -> In v (nvalues n') -> In v (nvalues n).
Proof. intros (_ & _ & l & P) H. eapply Permutation_in; [symmetry; exact P|]. apply in_or_app; auto. Qed.

Lemma shrunk_reach a b x y : shrunk a b -> reach b x y -> reach a x y.
Proof.
  intro S. induction 1 as [|x n v y G Hv R IH]; [constructor|].
  destruct (shrunk_get _ _ _ _ S G) as (m & Gm & Sm). econstructor; eauto. eapply sub_in; eauto.
Qed.

Lemma shrunk_acyclic a b : shrunk a b -> acyclic a -> acyclic b.
Proof.
  intros S A id n v G Hv R. destruct (shrunk_get _ _ _ _ S G) as (m & Gm & Sm).
  apply (A id m v Gm); [eapply sub_in; eauto|]. eapply shrunk_reach; eauto.
Qed.
Lemma shrunk_closed a b : shrunk a b -> closed a -> closed b.
Proof.
  intros S A id n v G Hv. destruct (shrunk_get _ _ _ _ S G) as (m & Gm & Sm). rewrite <- (shrunk_len _ _ S).
  apply (A id m v Gm); eapply sub_in; eauto.
Qed.
Lemma shrunk_semiclosed a b : shrunk a b -> semiclosed a -> semiclosed b.
Proof.
  intros S A id n v G Hv. destruct (shrunk_get _ _ _ _ S G) as (m & Gm & Sm). rewrite <- (shrunk_len _ _ S).
  apply (A id m v Gm); eapply sub_in; eauto.
Qed.
Lemma shrunk_wf a b : shrunk a b -> wfnodes a -> wfnodes b.
Proof.
  intros S. induction S as [|x y a b (I & R & l & P) Hr IH]; auto. intros W n [<-|Hn].
  - destruct y as [yi yr yv]. cbn in *. subst. apply wfnode_copy; [apply W; left; auto|].
    intros v Hv. exists v. split; auto. eapply Permutation_in; [symmetry; exact P|]. apply in_or_app; auto.
  - apply IH; auto. intros m Hm. apply W. right; auto.
Qed.
Lemma shrunk_unshared a b : shrunk a b -> unshared a -> unshared b.
Proof.
  unfold unshared. intros S U. assert (exists l, Permutation (refs a) (refs b ++ l)) as (l & P).
  { clear U. induction S as [|x y a b (I & R & l & P) Hr (l2 & IH)]; [exists []; constructor|].
    exists (map vid l ++ l2). unfold refs in *. cbn [flat_map]. rewrite P, IH, map_app, <- !app_assoc.
    apply Permutation_app_head. rewrite !app_assoc. apply Permutation_app_tail. apply Permutation_app_comm. }
  rewrite P in U. apply NoDup_app_inv in U. tauto.
Qed.

Lemma sub_swapRemove nn i v : nth_error (nvalues nn) i = Some v -> sub nn (withValues nn (swapRemove (nvalues nn) i)).
Proof.
  intro H. repeat split. exists [v]. cbn [nvalues withValues]. rewrite Permutation_app_comm. apply swapRemove_perm; auto.
Qed.

Lemma stripFrom_shrunk rec id : (forall ns j ns', rec ns j = Ok ns' -> shrunk ns ns') ->
  forall k ns j ns', stripFrom rec id k ns j = Ok ns' -> shrunk ns ns'.
Proof.
  intros IH. induction k as [|k IHk]; intros ns j ns'; cbn [stripFrom].
  - injection 1 as <-. apply shrunk_refl.
  - destruct (getNode ns id) as [nn|]; [|discriminate]. destruct (nth_error _ j) as [v|].
    + destruct (rec ns (vid v)) as [ns1| |] eqn:E; try discriminate. cbn [bind]. intro H.
      eapply shrunk_trans; eauto.
    + injection 1 as <-. apply shrunk_refl.
Qed.

Lemma stripLoop_shrunk rec id key : (forall ns j ns', rec ns j = Ok ns' -> shrunk ns ns') ->
  forall k ns j ns', stripLoop rec id key k ns j = Ok ns' -> shrunk ns ns'.
Proof.
  intros IH. induction k as [|k IHk]; intros ns j ns'; cbn [stripLoop].
  - injection 1 as <-. apply shrunk_refl.
  - destruct (getNode ns id) as [nn|] eqn:G; [|discriminate]. destruct (nth_error _ j) as [v|] eqn:Ej; [|discriminate].
    destruct (bseqb key (vkey v)).
    + intro H. apply stripFrom_shrunk in H; auto. eapply shrunk_trans; [|exact H].
      eapply shrunk_put; eauto. eapply sub_swapRemove; eauto.
    + destruct (rec ns (vid v)) as [ns1| |] eqn:E; try discriminate. cbn [bind]. intro H.
      eapply shrunk_trans; eauto.
Qed.

Lemma strip_shrunk key : forall f ns id ns', strip f key ns id = Ok ns' -> shrunk ns ns'.
Proof.
  induction f as [|f IH]; intros ns id ns'; cbn [strip]; [discriminate|].
  destruct (getNode ns id) as [nn|]; [|injection 1 as <-; apply shrunk_refl].
  destruct (info_IsObject (ninfo nn)); [|injection 1 as <-; apply shrunk_refl].
  apply stripLoop_shrunk; auto.
Qed.

(* nodes outside the subtree are untouched *)
Definition outside (base : list node) (id : N) (ns ns' : list node) : Prop :=
  forall x, ~ reach base id x -> getNode ns' x = getNode ns x.

Lemma outside_trans base id a b c : outside base id a b -> outside base id b c -> outside base id a c.
Proof. intros H1 H2 x Hx. rewrite H2, H1; auto. Qed.

Lemma child_outside base id n v ns ns' : getNode base id = Some n -> In v (nvalues n) ->
  outside base (vid v) ns ns' -> outside base id ns ns'.
Proof. intros G Hv H x Hx. apply H. intro R. apply Hx. econstructor; eauto. Qed.

Lemma stripFrom_outside rec id base : (forall ns j ns', rec ns j = Ok ns' -> shrunk base ns -> outside base j ns ns' /\ shrunk ns ns') ->
  forall k ns j ns', stripFrom rec id k ns j = Ok ns' -> shrunk base ns -> outside base id ns ns'.
Proof.
  intros IH. induction k as [|k IHk]; intros ns j ns'; cbn [stripFrom].
  - injection 1 as <-. intros _ x _. reflexivity.
  - destruct (getNode ns id) as [nn|] eqn:G; [|discriminate]. destruct (nth_error _ j) as [v|] eqn:Ej.
    + destruct (rec ns (vid v)) as [ns1| |] eqn:E; try discriminate. cbn [bind]. intros H S.
      destruct (IH _ _ _ E S) as (O1 & S1).
      destruct (shrunk_get _ _ _ _ S G) as (m & Gm & Sm).
      eapply outside_trans; [eapply child_outside; eauto; eapply sub_in; eauto; eapply nth_error_In; eauto|].
      eapply IHk; eauto. eapply shrunk_trans; eauto.
    + injection 1 as <-. intros _ x _. reflexivity.
Qed.

Lemma stripLoop_outside rec id key base : (forall ns j ns', rec ns j = Ok ns' -> shrunk base ns -> outside base j ns ns' /\ shrunk ns ns') ->
  forall k ns j ns', stripLoop rec id key k ns j = Ok ns' -> shrunk base ns -> outside base id ns ns'.
Proof.
  intros IH. induction k as [|k IHk]; intros ns j ns'; cbn [stripLoop].
  - injection 1 as <-. intros _ x _. reflexivity.
  - destruct (getNode ns id) as [nn|] eqn:G; [|discriminate]. destruct (nth_error _ j) as [v|] eqn:Ej; [|discriminate].
    destruct (bseqb key (vkey v)).
    + intros H S. assert (S1 : shrunk ns (putNode ns id (withValues nn (swapRemove (nvalues nn) j)))).
      { eapply shrunk_put; eauto. eapply sub_swapRemove; eauto. }
      apply (stripFrom_outside rec id base) in H; auto; [|eapply shrunk_trans; eauto].
      eapply outside_trans; [|exact H]. intros x Hx. apply getNode_put_other. intros ->. apply Hx. constructor.
    + destruct (rec ns (vid v)) as [ns1| |] eqn:E; try discriminate. cbn [bind]. intros H S.
      destruct (IH _ _ _ E S) as (O1 & S1).
      destruct (shrunk_get _ _ _ _ S G) as (m & Gm & Sm).
      eapply outside_trans; [eapply child_outside; eauto; eapply sub_in; eauto; eapply nth_error_In; eauto|].
      eapply IHk; eauto. eapply shrunk_trans; eauto.
Qed.

Lemma strip_outside key base : forall f ns id ns', strip f key ns id = Ok ns' -> shrunk base ns -> outside base id ns ns'.
Proof.
  induction f as [|f IH]; intros ns id ns'; cbn [strip]; [discriminate|].
  destruct (getNode ns id) as [nn|] eqn:G; [|injection 1 as <-; intros _ x _; reflexivity].
  destruct (info_IsObject (ninfo nn)); [|injection 1 as <-; intros _ x _; reflexivity].
  intros H S. eapply stripLoop_outside; eauto. intros a j b E Sa. split; [eapply IH; eauto|eapply strip_shrunk; eauto].
Qed.

(* ---- depth of acyclic documents ---- *)

Inductive depth (ns : list node) : nat -> N -> Prop :=
| dep k id : (forall n v, getNode ns id = Some n -> In v (nvalues n) -> depth ns k (vid v)) -> depth ns (S k) id.

Lemma depth_mono ns k id : depth ns k id -> forall k', k <= k' -> depth ns k' id.
Proof.
  induction 1 as [k id H IH]. intros [|k'] L; [lia|]. constructor. intros n v G Hv. eapply IH; eauto. lia.
Qed.

Lemma acyclic_depth ns id : acyclic ns -> depth ns (S (length ns)) id.
Proof.
  intro A.
  assert (G : forall m p id, length ns - length p <= m -> NoDup p ->
    (forall x, In x p -> (x < lenN ns)%N /\ x <> id /\ reach ns x id) -> depth ns (S (length ns - length p)) id).
  { induction m as [|m IH]; intros p i Hm Hp Hx; destruct (N.lt_ge_cases i (lenN ns)) as [L|L].
    2,4: constructor; intros n v G; rewrite getNode_none in G by auto; discriminate.
    all: assert (B : length (i :: p) <= length ns) by
      (apply nodup_bound; [constructor; auto; intro Hi; apply Hx in Hi as (_ & Hi & _); congruence|
        intros y [<-|Hy]; [exact L|]; apply Hx in Hy; tauto]); cbn [length] in B.
    - lia.
    - constructor. intros n v G Hv.
      replace (length ns - length p) with (S (length ns - length (i :: p))) by (cbn [length]; lia).
      apply IH; [cbn [length]; lia| |].
      + constructor; auto. intro Hi. apply Hx in Hi as (_ & Hi & _). congruence.
      + assert (S1 : reach ns i (vid v)) by (econstructor; eauto; constructor).
        assert (Hne : forall x, reach ns x i -> x <> vid v) by (intros x Hr ->; apply (A i n v G Hv Hr)).
        intros y [<-|Hy].
        * split; auto. split; auto. apply Hne. constructor.
        * apply Hx in Hy as (Y1 & Y2 & Y3). split; auto. split; [apply Hne; auto|]. eapply reach_trans; eauto. }
  specialize (G (length ns) [] id). cbn [length] in G. rewrite Nat.sub_0_r in G. apply G; [lia|constructor|intros x []].
Qed.

Lemma appendJSON_depth ns k : forall id dst, depth ns k id -> appendJSON k ns dst (getNode ns id) <> None.
Proof.
  induction k as [|k IH]; intros id dst D; inversion D as [? ? H]; subst. cbn [appendJSON].
  destruct (getNode ns id) as [n|]; [|discriminate].
  assert (V : forall keys first vs dst, (forall v, In v vs -> In v (nvalues n)) ->
    appendValues (appendJSON k ns) ns keys first vs dst <> None).
  { intros keys first vs. revert first. induction vs as [|v vs IHv]; intros first d Hs; cbn [appendValues]; [discriminate|].
    pose proof (fun dd => IH (vid v) dd (H n v eq_refl (Hs v (or_introl eq_refl)))) as Hr.
    match goal with |- context [appendJSON k ns ?d0 ?x] => specialize (Hr d0); destruct (appendJSON k ns d0 x) as [[o [|]]|] eqn:E end; try congruence.
    apply IHv. intros; apply Hs; right; auto. }
  pose proof (V true true (nvalues n) (dst ++ [delimBeginObject]) (fun v H => H)) as V1.
  pose proof (V false true (nvalues n) (dst ++ [delimBeginArray]) (fun v H => H)) as V2.
  destruct (_ =? TypeObject)%N.
  { destruct (appendValues _ ns true true _ _) as [[o [|]]|]; congruence. }
  destruct (_ =? TypeArray)%N.
  { destruct (appendValues _ ns false true _ _) as [[o [|]]|]; congruence. }
  destruct (_ =? TypeString)%N; discriminate.
Qed.

Lemma depth_shrunk a b k id : shrunk a b -> depth a k id -> depth b k id.
Proof.
  intros S. induction 1 as [k id H IH]. constructor. intros n v G Hv.
  destruct (shrunk_get _ _ _ _ S G) as (m & Gm & Sm). eapply IH; eauto. eapply sub_in; eauto.
Qed.

(* Strip returns on acyclic documents. *)
Lemma strip_total key base : acyclic base -> forall k ns id, shrunk base ns -> depth base k id ->
  exists ns', strip k key ns id = Ok ns'.
Proof.
  intros A. induction k as [|k IH]; intros ns id S D; inversion D as [? ? H]; subst. cbn [strip].
  destruct (getNode ns id) as [nn|] eqn:G; [|eauto]. destruct (info_IsObject (ninfo nn)); [|eauto].
  destruct (shrunk_get _ _ _ _ S G) as (m & Gm & Sm).
  (* calls on children keep this node *)
  assert (Hc : forall ns1 nn1 v, shrunk base ns1 -> getNode ns1 id = Some nn1 -> In v (nvalues nn1) ->
      exists ns2, strip k key ns1 (vid v) = Ok ns2 /\ shrunk base ns2 /\ getNode ns2 id = Some nn1).
  { intros ns1 nn1 v S1 G1 Hv. destruct (shrunk_get _ _ _ _ S1 G1) as (m1 & Gm1 & Sm1).
    assert (m1 = m) by congruence. subst m1. pose proof (sub_in _ _ _ Sm1 Hv) as Hv'.
    destruct (IH ns1 (vid v) S1 (H m v Gm Hv')) as (ns2 & E). exists ns2. split; auto.
    split; [eapply shrunk_trans; eauto; eapply strip_shrunk; eauto|].
    rewrite (strip_outside key base _ _ _ _ E S1 id); auto. eapply A; eauto. }
  assert (F : forall j k' ns1 nn1, shrunk base ns1 -> getNode ns1 id = Some nn1 ->
      exists ns2, stripFrom (strip k key) id k' ns1 j = Ok ns2).
  { intros j k'. revert j. induction k' as [|k' IHk]; intros j ns1 nn1 S1 G1; cbn [stripFrom]; [eauto|].
    rewrite G1. destruct (nth_error (nvalues nn1) j) as [v|] eqn:Ej; [|eauto].
    destruct (Hc ns1 nn1 v S1 G1 (nth_error_In _ _ Ej)) as (ns2 & -> & S2 & G2). cbn [bind]. eapply IHk; eauto. }
  assert (Lp : forall k' i ns1 nn1, shrunk base ns1 -> getNode ns1 id = Some nn1 -> k' + i = length (nvalues nn1) ->
      exists ns2, stripLoop (strip k key) id key k' ns1 i = Ok ns2).
  { induction k' as [|k' IHk]; intros i ns1 nn1 S1 G1 Hl; cbn [stripLoop]; [eauto|].
    rewrite G1. destruct (nth_error (nvalues nn1) i) as [v|] eqn:Ei; [|apply nth_error_None in Ei; lia].
    destruct (bseqb key (vkey v)).
    - eapply F.
      + eapply shrunk_trans; [exact S1|]. eapply shrunk_put; eauto. eapply sub_swapRemove; eauto.
      + apply getNode_put_same. eapply getNode_lt; eauto.
    - destruct (Hc ns1 nn1 v S1 G1 (nth_error_In _ _ Ei)) as (ns2 & -> & S2 & G2). cbn [bind]. eapply IHk; eauto. lia. }
  eapply Lp; eauto.
Qed.
