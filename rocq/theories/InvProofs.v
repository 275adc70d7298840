(* Invariants of documents (well-formed nodes, closed references, no cycle, no sharing) and their
   preservation by the ways nodes change. *)
From Coq Require Import Permutation.
From Verif Require Import Bytes Tables Types JsonSpec Parser LexProofs ParserProofs Doc DocSpec DocProofs ParserThms CopyProofs.

(* ---- well-formed nodes ---- *)

Definition wfnode (n : node) : Prop :=
  let t := info_Type (ninfo n) in
  ((t = TypeString \/ t = TypeNumber) /\ nvalues n = []) \/
  (t = TypeBoolean /\ nvalues n = [] /\ (nraw n = str "true" \/ nraw n = str "false")) \/
  (t = TypeNull /\ nvalues n = [] /\ nraw n = str "null") \/
  (t = TypeArray /\ nraw n = [] /\ forall v, In v (nvalues n) -> vkey v = []) \/
  (t = TypeObject /\ nraw n = []).

Definition wfnodes (ns : list node) : Prop := forall n, In n ns -> wfnode n.

Lemma wfnode_unflag n : wfnode (unflag n) <-> wfnode n.
Proof. unfold wfnode. cbn. rewrite info_Type_idem. reflexivity. Qed.

Lemma wfnodes_unflag a b : map unflag a = map unflag b -> wfnodes b -> wfnodes a.
Proof.
  intros E H n Hn. apply wfnode_unflag. apply (in_map unflag) in Hn. rewrite E in Hn.
  apply in_map_iff in Hn as (m & <- & Hm). apply wfnode_unflag. auto.
Qed.

Lemma wfnodes_app a b : wfnodes a -> wfnodes b -> wfnodes (a ++ b).
Proof. intros H1 H2 n Hn. apply in_app_or in Hn as [Hn|Hn]; auto. Qed.

Lemma wfnode_copy n vs : wfnode n -> (forall v, In v vs -> exists u, In u (nvalues n) /\ vkey u = vkey v) ->
  wfnode (mkNode (ninfo n) (nraw n) vs).
Proof.
  intros H Hs. assert (Hn : nvalues n = [] -> vs = []).
  { intro E. destruct vs as [|v vs]; auto. destruct (Hs v (or_introl eq_refl)) as (u & Hu & _).
    rewrite E in Hu. destruct Hu. }
  unfold wfnode in *. cbn. destruct H as [(T & Hv)|[(T & Hv & R)|[(T & Hv & R)|[(T & R & K)|(T & R)]]]]; auto 10.
  do 3 right. left. split; auto. split; auto. intros v Hv. destruct (Hs v Hv) as (u & Hu & <-). auto.
Qed.

Lemma getNode_In ns id n : getNode ns id = Some n -> In n ns.
Proof. unfold getNode. destruct (id <? lenN ns)%N; [|discriminate]. apply nth_error_In. Qed.

(* Properties of nodes that survive copying: they ignore flags and hold for fewer values. *)
Definition inherited (P : node -> Prop) : Prop :=
  (forall n, P (unflag n) <-> P n) /\
  forall n vs, P n -> (forall v, In v vs -> exists u, In u (nvalues n) /\ vkey u = vkey v) -> P (mkNode (ninfo n) (nraw n) vs).
Definition eachnode (P : node -> Prop) (ns : list node) : Prop := forall n, In n ns -> P n.
Lemma wfnode_inherited : inherited wfnode.
Proof. split; [apply wfnode_unflag|apply wfnode_copy]. Qed.
Lemma eachnode_app P a b : eachnode P a -> eachnode P b -> eachnode P (a ++ b).
Proof. intros H1 H2 n Hn. apply in_app_or in Hn as [Hn|Hn]; auto. Qed.
Lemma eachnode_unflag P a b : inherited P -> map unflag a = map unflag b -> eachnode P b -> eachnode P a.
Proof.
  intros [U _] E H n Hn. apply U. apply (in_map unflag) in Hn. rewrite E in Hn.
  apply in_map_iff in Hn as (m & <- & Hm). apply U. auto.
Qed.

Lemma copyValues_wf P f :
  (forall other ns n ns' id, ncopy f other ns n = Some (ns', id) -> eachnode P ns ->
     eachnode P (match other with Some o => o | None => [] end) -> P n -> eachnode P ns') ->
  forall other vs ns acc ns' acc', copyValues (ncopy f other) other vs ns acc = Some (ns', acc') ->
  eachnode P ns -> eachnode P (match other with Some o => o | None => [] end) ->
  eachnode P ns' /\ forall v, In v acc' -> In v acc \/ exists u, In u vs /\ vkey u = vkey v.
Proof.
  intros IH other vs. induction vs as [|v vs IHvs]; intros ns acc ns' acc'; simpl.
  - injection 1 as <- <-. auto.
  - destruct (getNode _ (vid v)) as [c|] eqn:Ec.
    2:{ intros H W1 W2. apply IHvs in H as (A & B); auto. split; auto. intros u Hu. destruct (B u Hu) as [|(x & ? & ?)]; eauto. }
    destruct (ncopy f other ns c) as [[ns1 cid]|] eqn:E; [|discriminate].
    intros H W1 W2. apply IH in E; auto.
    2:{ apply getNode_In in Ec. destruct other; auto. }
    apply IHvs in H as (A & B); auto. split; auto. intros u Hu. destruct (B u Hu) as [Hb|(x & ? & ?)]; eauto.
    apply in_app_or in Hb as [Hb|[<-|[]]]; eauto.
Qed.

Lemma setValues_cases ns i vs m : In m (setValues ns i vs) -> In m ns \/ exists n, nth_error ns i = Some n /\ m = mkNode (ninfo n) (nraw n) vs.
Proof.
  revert i; induction ns as [|x ns IH]; intros [|i]; cbn [setValues In]; try contradiction.
  - intros [<-|H]; [right; exists x; auto|auto].
  - intros [<-|H]; auto. apply IH in H as [H|(n & Hn & ->)]; auto. right. exists n. auto.
Qed.

Lemma ncopy_wf P f : inherited P -> forall other ns n ns' id, ncopy f other ns n = Some (ns', id) -> eachnode P ns ->
  eachnode P (match other with Some o => o | None => [] end) -> P n -> eachnode P ns'.
Proof.
  intros [_ HC]. induction f as [|f IH]; intros other ns n ns' id; [discriminate|].
  cbn [ncopy]. destruct (copyValues _ _ _ _ _) as [[ns1 vs]|] eqn:E; [|discriminate].
  injection 1 as <- <-. intros W1 W2 Wn.
  pose proof E as E1. apply (copyValues_fresh _ (ncopy_fresh f)) in E1 as (new & add & -> & -> & _).
  apply (copyValues_wf P f IH) in E as (A & B); auto.
  2:{ apply eachnode_app; auto. intros m [<-|[]]. apply HC; auto. intros v []. }
  rewrite <- app_assoc in *. cbn [app] in *. rewrite setValues_at. cbn [ninfo nraw].
  intros m Hm. apply in_app_or in Hm as [Hm|[<-|Hm]].
  - apply A. apply in_or_app. auto.
  - apply HC; auto. intros v Hv. apply (B v) in Hv as [[]|]; auto.
  - apply A. apply in_or_app. simpl. auto.
Qed.

(* ---- trees are exactly the acyclic closed well-formed nodes ---- *)

Lemma denotes_wf ns id t n : denotes ns id t -> getNode ns id = Some n -> wfnode n.
Proof.
  intros H E. unfold wfnode. inversion H as [? m Em T Vs|? m Em T Vs|? m Em T Vs R|? m Em T Vs R|? m Em T Vs R|? m vs Em T R L|? m vs Em T R L];
    subst; rewrite E in Em; injection Em as <-; auto 10.
  do 3 right. left. split; auto. split; auto. clear -L.
  remember (nvalues n) as l. clear Heql. induction L; intros u []; subst; auto.
Qed.

Lemma mk_denotes_list ns l : (forall v, In v l -> vkey v = [] /\ exists t, denotes ns (vid v) t) ->
  exists ts, denotes_list ns l ts.
Proof.
  induction l as [|v l IH]; intro H.
  - exists []. constructor.
  - destruct (H v (or_introl eq_refl)) as (K & t & D). destruct IH as (ts & L); [intros; apply H; simpl; auto|].
    exists (t :: ts). constructor; auto.
Qed.
Lemma mk_denotes_members ns l : (forall v, In v l -> exists t, denotes ns (vid v) t) ->
  exists ts, denotes_members ns l ts.
Proof.
  induction l as [|v l IH]; intro H.
  - exists []. constructor.
  - destruct (H v (or_introl eq_refl)) as (t & D). destruct IH as (ts & L); [intros; apply H; simpl; auto|].
    exists ((vkey v, t) :: ts). constructor; auto.
Qed.

Lemma mk_denotes ns id n : getNode ns id = Some n -> wfnode n ->
  (forall v, In v (nvalues n) -> exists t, denotes ns (vid v) t) -> exists t, denotes ns id t.
Proof.
  intros E W C. destruct W as [([T|T] & Hv)|[(T & Hv & [R|R])|[(T & Hv & R)|[(T & R & K)|(T & R)]]]].
  - eexists. eapply d_str; eauto.
  - eexists. eapply d_num; eauto.
  - eexists. eapply d_true; eauto.
  - eexists. eapply d_false; eauto.
  - eexists. eapply d_null; eauto.
  - destruct (mk_denotes_list ns (nvalues n)) as (ts & L); [intros v Hv; auto|].
    eexists. eapply d_arr; eauto.
  - destruct (mk_denotes_members ns (nvalues n)) as (ts & L); auto.
    eexists. eapply d_obj; eauto.
Qed.

(* Following references from a path of distinct nodes. *)
Lemma acyclic_path ns (P : N -> Prop) :
  (forall id n, getNode ns id = Some n -> (forall v, In v (nvalues n) -> (vid v < lenN ns)%N -> P (vid v)) -> P id) ->
  acyclic ns -> forall id, (id < lenN ns)%N -> P id.
Proof.
  intros HP Ha.
  assert (G : forall k p id, NoDup p -> (forall x, In x p -> (x < lenN ns)%N /\ x <> id /\ reach ns x id) ->
    length ns < k + S (length p) -> (id < lenN ns)%N -> P id).
  { induction k as [|k IH]; intros p id Hp Hx Hk Hid.
    - exfalso. assert (B : length (id :: p) <= length ns).
      { apply nodup_bound.
        - constructor; auto. intro Hi. apply Hx in Hi as (_ & Hi & _). congruence.
        - intros y [<-|Hy]; [exact Hid|]. apply Hx in Hy. tauto. }
      simpl in B. lia.
    - destruct (getNode_some ns id Hid) as (n & En). apply (HP id n En). intros v Hv Hlt.
      apply (IH (id :: p)); auto.
      + constructor; auto. intro Hi. apply Hx in Hi as (_ & Hi & _). congruence.
      + assert (S1 : reach ns id (vid v)) by (econstructor; eauto; constructor).
        assert (forall x, reach ns x id -> x <> vid v) as Hne.
        { intros x Hr ->. apply (Ha id n v En Hv Hr). }
        intros y [<-|Hy].
        * split; auto. split; auto. apply Hne. constructor.
        * apply Hx in Hy as (A & B & C). split; auto. split; [apply Hne; auto|]. eapply reach_trans; eauto.
      + simpl. lia. }
  intros id Hid. apply (G (S (length ns)) [] id); auto.
  - constructor.
  - intros x [].
  - simpl. lia.
Qed.

Lemma trees_of_invariants ns : wfnodes ns -> closed ns -> acyclic ns -> all_trees ns.
Proof.
  intros W C A. unfold all_trees. apply acyclic_path; auto.
  intros id n En H. apply (mk_denotes ns id n); auto.
  - apply W. eapply getNode_In; eauto.
  - intros v Hv. apply H; auto. eapply C; eauto.
Qed.

Lemma all_trees_wf ns : all_trees ns -> wfnodes ns.
Proof.
  intros H n Hn. apply In_nth_error in Hn as (i & Hi).
  assert (E : getNode ns (N.of_nat i) = Some n).
  { rewrite getNode_nth; [rewrite Nat2N.id; auto|]. unfold lenN. apply nth_error_lt in Hi. lia. }
  destruct (H (N.of_nat i)) as (t & D); [eapply getNode_lt; eauto|]. eapply denotes_wf; eauto.
Qed.
Lemma all_trees_closed ns : all_trees ns -> closed ns.
Proof.
  intros H id n v E Hv. destruct (H id) as (t & D); [eapply getNode_lt; eauto|].
  eapply reach_lt; eauto. econstructor; eauto. constructor.
Qed.
Lemma all_trees_acyclic ns : all_trees ns -> acyclic ns.
Proof.
  intros H id n v E Hv R. destruct (H id) as (t & D); [eapply getNode_lt; eauto|].
  eapply child_not_reach; eauto.
Qed.

(* ---- appending a forward block ---- *)

(* Dangling references can only be to maxUint. *)
Definition semiclosed (ns : list node) : Prop :=
  forall id n v, getNode ns id = Some n -> In v (nvalues n) -> (vid v < lenN ns)%N \/ vid v = maxUint.

Lemma closed_semi ns : closed ns -> semiclosed ns.
Proof. intros H id n v E Hv. left. eauto. Qed.

Lemma getNode_app_cases ns new id n : getNode (ns ++ new) id = Some n ->
  (getNode ns id = Some n /\ (id < lenN ns)%N) \/
  (exists i, nth_error new i = Some n /\ id = (lenN ns + N.of_nat i)%N).
Proof.
  intro E. destruct (N.lt_ge_cases id (lenN ns)) as [L|L].
  - left. rewrite getNode_app1 in E by auto. auto.
  - right. pose proof (getNode_lt _ _ _ E) as Lt. rewrite getNode_nth in E by auto.
    exists (N.to_nat id - length ns). rewrite nth_error_app2 in E by (unfold lenN in L; lia). split; auto.
    unfold lenN in *. lia.
Qed.

Lemma closed_app ns new : closed ns -> forward (lenN ns) new -> closed (ns ++ new).
Proof.
  intros C F id n v E Hv. apply getNode_app_cases in E as [(E & L)|(i & E & ->)].
  - specialize (C id n v E Hv). nsimpl. lia.
  - specialize (F i n v E Hv). nsimpl. lia.
Qed.
Lemma semiclosed_app ns new : semiclosed ns -> forward (lenN ns) new -> semiclosed (ns ++ new).
Proof.
  intros C F id n v E Hv. apply getNode_app_cases in E as [(E & L)|(i & E & ->)].
  - destruct (C id n v E Hv); auto. left. nsimpl. lia.
  - specialize (F i n v E Hv). left. nsimpl. lia.
Qed.

Lemma acyclic_app ns new : acyclic ns -> semiclosed ns -> forward (lenN ns) new ->
  (lenN (ns ++ new) <= maxUint)%N -> acyclic (ns ++ new).
Proof.
  intros A C F M.
  assert (R1 : forall a b, reach (ns ++ new) a b -> (lenN ns <= a)%N -> (a <= b)%N).
  { induction 1 as [|a n v b E Hv R IH]; [lia|]. intro L. apply getNode_app_cases in E as [(E & L')|(i & E & ->)]; [lia|].
    specialize (F i n v E Hv). specialize (IH ltac:(lia)). lia. }
  assert (R2 : forall a b, reach (ns ++ new) a b -> (b < lenN ns)%N -> reach ns a b).
  { induction 1 as [|a n v b E Hv R IH]; [constructor|]. intro L. apply getNode_app_cases in E as [(E & L')|(i & E & ->)].
    - econstructor; eauto.
    - specialize (F i n v E Hv). specialize (R1 _ _ R ltac:(lia)). lia. }
  intros id n v E Hv R. apply getNode_app_cases in E as [(E & L')|(i & E & ->)].
  - apply R2 in R; auto. eapply A; eauto.
  - specialize (F i n v E Hv). apply R1 in R; lia.
Qed.

Lemma unshared_app ns new : unshared ns -> semiclosed ns -> forward (lenN ns) new -> NoDup (refs new) ->
  (lenN (ns ++ new) <= maxUint)%N -> unshared (ns ++ new).
Proof.
  intros U C F D M. unfold unshared. rewrite refs_app. apply NoDup_app; auto.
  intros x Hx Hx2. apply forward_refsin in F. apply (refsin_refs _ _ _ _ F) in Hx2.
  apply in_refs in Hx as (n & v & Hn & Hv & <-). apply In_nth_error in Hn as (i & Hi).
  destruct (C (N.of_nat i) n v) as [H|H]; auto.
  - rewrite getNode_nth; [rewrite Nat2N.id; auto|]. unfold lenN. apply nth_error_lt in Hi. lia.
  - lia.
  - nsimpl. lia.
Qed.

(* ---- flags do not matter ---- *)

Lemma unflag_getNode ns ns' id n : map unflag ns' = map unflag ns -> getNode ns' id = Some n ->
  exists m, getNode ns id = Some m /\ nvalues m = nvalues n /\ unflag m = unflag n.
Proof.
  intros E G. pose proof (getNode_map unflag ns' id) as H1. pose proof (getNode_map unflag ns id) as H2.
  rewrite E, G in H1. rewrite H1 in H2. destruct (getNode ns id) as [m|]; [|discriminate].
  exists m. split; auto. simpl in H2. split; [|congruence]. injection H2; intros; congruence.
Qed.

Lemma unflag_reach ns ns' a b : map unflag ns' = map unflag ns -> reach ns' a b -> reach ns a b.
Proof.
  intros E. induction 1 as [|a n v b G Hv R IH]; [constructor|].
  apply (unflag_getNode _ _ _ _ E) in G as (m & G & V & _). rewrite <- V in Hv. econstructor; eauto.
Qed.

Lemma acyclic_unflag ns ns' : map unflag ns' = map unflag ns -> acyclic ns -> acyclic ns'.
Proof.
  intros E A id n v G Hv R. apply (unflag_getNode _ _ _ _ E) in G as (m & G & V & _). rewrite <- V in Hv.
  apply (unflag_reach _ _ _ _ E) in R. eapply A; eauto.
Qed.
Lemma closed_unflag ns ns' : map unflag ns' = map unflag ns -> closed ns -> closed ns'.
Proof.
  intros E A id n v G Hv. rewrite (map_unflag_len _ _ E). apply (unflag_getNode _ _ _ _ E) in G as (m & G & V & _).
  rewrite <- V in Hv. eapply A; eauto.
Qed.
Lemma semiclosed_unflag ns ns' : map unflag ns' = map unflag ns -> semiclosed ns -> semiclosed ns'.
Proof.
  intros E A id n v G Hv. rewrite (map_unflag_len _ _ E). apply (unflag_getNode _ _ _ _ E) in G as (m & G & V & _).
  rewrite <- V in Hv. eapply A; eauto.
Qed.
Lemma refs_unflag ns : refs (map unflag ns) = refs ns.
Proof. unfold refs. induction ns; simpl; congruence. Qed.
Lemma refs_flag ns ns' : map unflag ns' = map unflag ns -> refs ns' = refs ns.
Proof. intro E. rewrite <- (refs_unflag ns), <- E, refs_unflag. reflexivity. Qed.

(* ---- changing the values of one node ---- *)

Lemma reach_put ns id x a b : (id < lenN ns)%N -> reach (putNode ns id x) a b ->
  reach ns a b \/ (reach ns a id /\ exists v, In v (nvalues x) /\ reach ns (vid v) b).
Proof.
  intros L. induction 1 as [|a n v b G Hv R IH]; [left; constructor|].
  destruct (N.eq_dec a id) as [->|Hne].
  - rewrite getNode_put_same in G by auto. injection G as <-. right. split; [constructor|].
    destruct IH as [IH|(_ & u & Hu & IH)]; eauto.
  - rewrite getNode_put_other in G by auto. destruct IH as [IH|(IH1 & u & Hu & IH2)].
    + left. econstructor; eauto.
    + right. split; eauto. econstructor; eauto.
Qed.

Lemma acyclic_put ns id x : (id < lenN ns)%N -> acyclic ns ->
  (forall v, In v (nvalues x) -> ~ reach ns (vid v) id) -> acyclic (putNode ns id x).
Proof.
  intros L A H y n v G Hv R. destruct (N.eq_dec y id) as [->|Hne].
  - rewrite getNode_put_same in G by auto. injection G as <-.
    apply reach_put in R as [R|(R & _)]; auto; eapply H; eauto.
  - rewrite getNode_put_other in G by auto. apply reach_put in R as [R|(R & u & Hu & R2)]; auto.
    + eapply A; eauto.
    + apply (H u Hu). eapply reach_trans; [exact R2|]. econstructor; eauto.
Qed.

Lemma closed_put ns id x : (id < lenN ns)%N -> closed ns ->
  (forall v, In v (nvalues x) -> (vid v < lenN ns)%N) -> closed (putNode ns id x).
Proof.
  intros L A H y n v G Hv. rewrite lenN_putNode. destruct (N.eq_dec y id) as [->|Hne].
  - rewrite getNode_put_same in G by auto. injection G as <-. auto.
  - rewrite getNode_put_other in G by auto. eapply A; eauto.
Qed.
Lemma semiclosed_put ns id x : (id < lenN ns)%N -> semiclosed ns ->
  (forall v, In v (nvalues x) -> (vid v < lenN ns)%N \/ vid v = maxUint) -> semiclosed (putNode ns id x).
Proof.
  intros L A H y n v G Hv. rewrite lenN_putNode. destruct (N.eq_dec y id) as [->|Hne].
  - rewrite getNode_put_same in G by auto. injection G as <-. auto.
  - rewrite getNode_put_other in G by auto. eapply A; eauto.
Qed.

Lemma putNode_split ns id : (id < lenN ns)%N -> exists a n b, ns = a ++ n :: b /\ lenN a = id /\
  getNode ns id = Some n /\ forall x, putNode ns id x = a ++ x :: b.
Proof.
  intro L. destruct (getNode_some ns id L) as (n & E). pose proof E as E1.
  rewrite getNode_nth in E1 by auto. apply nth_error_split in E1 as (a & b & -> & La).
  exists a, n, b. split; auto. split; [unfold lenN; lia|]. split; auto.
  intro x. unfold putNode. rewrite <- La. apply replaceNth_app.
Qed.

Lemma wfnodes_put ns id x : wfnodes ns -> wfnode x -> wfnodes (putNode ns id x).
Proof.
  intros W Wx n Hn. unfold putNode in Hn. apply In_nth_error in Hn as (i & Hi).
  destruct (Nat.eq_dec (N.to_nat id) i) as [<-|Hne].
  - pose proof (nth_error_lt _ _ _ Hi) as L. rewrite replaceNth_length in L.
    rewrite nth_error_replaceNth_same in Hi by auto. injection Hi as <-. auto.
  - rewrite nth_error_replaceNth_other in Hi by auto. apply W. eapply nth_error_In; eauto.
Qed.

(* [moved old add new]: the references new are some of old and add, each used at most once. *)
Definition moved (old add new : list N) : Prop := exists dropped, Permutation (old ++ add) (new ++ dropped).

Lemma moved_in old add new x : moved old add new -> In x new -> In x old \/ In x add.
Proof.
  intros (d & P) H. apply in_app_or. eapply Permutation_in; [symmetry; exact P|]. apply in_or_app; auto.
Qed.

Lemma NoDup_app_inv {A} (a b : list A) : NoDup (a ++ b) -> NoDup a /\ NoDup b /\ forall x, In x a -> ~ In x b.
Proof.
  induction a as [|x a IH]; simpl; intro H; [split; [constructor|auto]|].
  inversion H as [|? ? Hx Hr]; subst. apply IH in Hr as (Ha & Hb & D). rewrite in_app_iff in Hx.
  split; [constructor; auto|]. split; auto. intros y [<-|Hy]; auto.
Qed.

Lemma unshared_put ns id n x add : getNode ns id = Some n -> unshared ns ->
  moved (map vid (nvalues n)) add (map vid (nvalues x)) -> NoDup add -> (forall y, In y add -> ~ In y (refs ns)) ->
  unshared (putNode ns id x).
Proof.
  intros G U (dr & P) Na Da. destruct (putNode_split ns id (getNode_lt _ _ _ G)) as (a & m & b & E & La & G' & Hp).
  assert (m = n) by congruence. subst m. rewrite Hp. unfold unshared in *. subst ns.
  rewrite refs_app in *. cbn [refs flat_map] in *. fold (refs b) in *.
  assert (N1 : NoDup ((map vid (nvalues x) ++ dr) ++ refs a ++ refs b)).
  { eapply Permutation_NoDup; [apply Permutation_app_tail; exact P|].
    apply Permutation_NoDup with ((refs a ++ map vid (nvalues n) ++ refs b) ++ add).
    - rewrite <- !app_assoc. rewrite (Permutation_app_comm (refs b) add).
      rewrite !app_assoc. apply Permutation_app_tail.
      rewrite <- !app_assoc. rewrite (Permutation_app_comm (refs a)), <- app_assoc. reflexivity.
    - apply NoDup_app; auto. intros y Hy Hy2. eapply Da; eauto. }
  rewrite <- app_assoc in N1. apply Permutation_NoDup with (l' := dr ++ refs a ++ map vid (nvalues x) ++ refs b) in N1.
  - apply NoDup_app_inv in N1. tauto.
  - rewrite app_assoc. rewrite (Permutation_app_comm (map vid (nvalues x)) dr). rewrite <- app_assoc.
    apply Permutation_app_head. rewrite !app_assoc. apply Permutation_app_tail. apply Permutation_app_comm.
Qed.
