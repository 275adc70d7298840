(* Concrete worlds for the examples and refutations of PropsDoc.v. *)
From Coq Require Import Permutation.
From Verif Require Import Bytes Tables Types JsonSpec Parser Doc DocSpec DocProofs Api OpProofs HistSpec HistProofs HistThms OpThms TravThms DocDec.

Definition q : bytes := [x22].
Definition k_a : bytes := str "a".
Definition k_b : bytes := str "b".
(* node id of document r, at revision 0 *)
Definition nd (r : ref) (id : N) : Node := mkN id 0 (Some r).

(* Document 0: {"a":[1,true],"b":null} in nodes 0-4, an empty array 5, a string 6, an empty object 7, all
   roots; document 1: [1,[2]] in nodes 0-3. *)
Definition calls0 : list call :=
  [CNewDoc; CNewDoc;
   CParse 0 (str "{" ++ q ++ k_a ++ q ++ str ":[1,true]," ++ q ++ k_b ++ q ++ str ":null}");
   CArray 0; CTextRaw 0 (str "hi"); CObject 0; CParse 1 (str "[1,[2]]")].
Definition w0 : world := Eval vm_compute in made calls0.
Definition t0 : jval := JObj [(k_a, JArr [JNum (str "1"); JTrue]); (k_b, JNull)].
Definition t1 : jval := JArr [JNum (str "1"); JArr [JNum (str "2")]].

Lemma w0_run : run [] calls0 = Ok w0. Proof. vm_compute. reflexivity. Qed.
Lemma w0_fits : fits w0. Proof. apply fitsb_sound. vm_compute. reflexivity. Qed.
Lemma w0_t0 : tree_of w0 (nd 0 0) t0. Proof. apply treeN_sound. vm_compute. reflexivity. Qed.
Lemma w0_a : tree_of w0 (nd 0 1) (JArr [JNum (str "1"); JTrue]). Proof. apply treeN_sound. vm_compute. reflexivity. Qed.
Lemma w0_hi : tree_of w0 (nd 0 6) (JStr (str "hi")). Proof. apply treeN_sound. vm_compute. reflexivity. Qed.
Lemma w0_obj : tree_of w0 (nd 0 7) (JObj []). Proof. apply treeN_sound. vm_compute. reflexivity. Qed.
Lemma w0_t1 : tree_of w0 (nd 1 0) t1. Proof. apply treeN_sound. vm_compute. reflexivity. Qed.
Lemma w0_unshared : docs unshared w0.
Proof.
  intros [|[|[|r]]] d E; try discriminate; injection E as <-; vm_compute; repeat constructor;
    (intro H; repeat (destruct H as [H|H]; [discriminate|]); exact H).
Qed.
(* the string is adopted by the object and contains nothing *)
Lemma w0_hi_leaf d : nth_error w0 0 = Some d -> ~ reach (dnodes d) 6 0.
Proof. injection 1 as <-. intro R. inversion R as [|? n v ? G Hv]; subst. vm_compute in G. injection G as <-. destruct Hv. Qed.

Definition getw (r : res world) : world := match r with Ok w => w | _ => [] end.

(* ---- refutations ---- *)

(* d.Null(); a := d.Array(); b := d.Object(); a.Append(b): then b.Set("x", a) *)
Definition wcyc : world := Eval vm_compute in made [CNewDoc; CNull 0; CArray 0; CObject 0; CAppend (nd 0 1) [nd 0 2]].
Lemma C12_refuted_lem : exists cs w n k v ms t w', run [] cs = Ok w /\ tree_of w n (JObj ms) /\ tree_of w v t /\
  Node_Set w n k v = Ok w' /\ fits w' /\ (forall t', ~ tree_of w' (Node_Get w' n k) t').
Proof.
  exists [CNewDoc; CNull 0; CArray 0; CObject 0; CAppend (nd 0 1) [nd 0 2]], wcyc, (nd 0 2), (str "x"), (nd 0 1), [], (JArr [JObj []]),
    (getw (Node_Set wcyc (nd 0 2) (str "x") (nd 0 1))).
  split; [vm_compute; reflexivity|]. split; [apply treeN_sound; vm_compute; reflexivity|]. split; [apply treeN_sound; vm_compute; reflexivity|].
  split; [vm_compute; reflexivity|]. split; [apply fitsb_sound; vm_compute; reflexivity|].
  intros t' (r & d & E1 & E2 & E3 & D). vm_compute in E1. injection E1 as <-. vm_compute in E2. injection E2 as <-.
  match type of D with denotes ?ns ?i _ => change ns with (dnodes (mkDoc ns 0)) in D; replace i with 1%N in D by (vm_compute; reflexivity) end.
  cbn [dnodes] in D. eapply child_not_reach in D; [|vm_compute; reflexivity|left; reflexivity]. apply D. cbn [vid].
  eapply reach_step; [vm_compute; reflexivity|left; reflexivity|]. cbn. constructor.
Qed.

Definition dup : bytes := str "{" ++ q ++ k_a ++ q ++ str ":1," ++ q ++ k_a ++ q ++ str ":2}".
Lemma C14_refuted_lem : exists cs w n k ms t, run [] cs = Ok w /\ fits w /\ tree_of w n (JObj ms) /\
  tree_of (Node_Del w n k) (Node_Get (Node_Del w n k) n k) t.
Proof.
  exists [CNewDoc; CParse 0 dup], (made [CNewDoc; CParse 0 dup]), (nd 0 0), k_a, [(k_a, JNum (str "1")); (k_a, JNum (str "2"))], (JNum (str "2")).
  split; [vm_compute; reflexivity|]. split; [apply fitsb_sound; vm_compute; reflexivity|].
  split; apply treeN_sound; vm_compute; reflexivity.
Qed.

Lemma C15_refuted_lem : exists cs w n v ts t w', run [] cs = Ok w /\ tree_of w n (JArr ts) /\ tree_of w v t /\
  Node_Append w n [v] = Ok w' /\ fits w' /\ (forall t', ~ tree_of w' n t').
Proof.
  set (cs := [CNewDoc; CNull 0; CArray 0; CArray 0; CAppend (nd 0 1) [nd 0 2]]).
  exists cs, (made cs), (nd 0 2), (nd 0 1), [], (JArr [JArr []]), (getw (Node_Append (made cs) (nd 0 2) [nd 0 1])).
  split; [vm_compute; reflexivity|]. split; [apply treeN_sound; vm_compute; reflexivity|]. split; [apply treeN_sound; vm_compute; reflexivity|].
  split; [vm_compute; reflexivity|]. split; [apply fitsb_sound; vm_compute; reflexivity|].
  intros t' (r & d & E1 & E2 & E3 & D). vm_compute in E1. injection E1 as <-. vm_compute in E2. injection E2 as <-.
  cbn [dnodes nd nid] in D. eapply child_not_reach in D; [|vm_compute; reflexivity|left; reflexivity]. apply D. cbn [vid].
  eapply reach_step; [vm_compute; reflexivity|left; reflexivity|]. cbn. constructor.
Qed.

Lemma C16_refuted_lem : exists cs w n ts i j, run [] cs = Ok w /\ tree_of w n (JArr ts) /\ (0 <= i <= j)%Z /\ (j <= Z.of_nat (length ts))%Z /\
  ~ tree_of (Node_Slice w n i j) n (JArr (firstn (Z.to_nat j - Z.to_nat i) (skipn (Z.to_nat i) ts))).
Proof.
  set (cs := [CNewDoc; CParse 0 (str "[1,2]")]).
  exists cs, (made cs), (nd 0 0), [JNum (str "1"); JNum (str "2")], 1%Z, 2%Z.
  split; [vm_compute; reflexivity|]. assert (T : tree_of (made cs) (nd 0 0) (JArr [JNum (str "1"); JNum (str "2")])) by (apply treeN_sound; vm_compute; reflexivity).
  split; auto. split; [lia|]. split; [cbn; lia|]. intro H.
  replace (Node_Slice (made cs) (nd 0 0) 1 2) with (made cs) in H by (vm_compute; reflexivity).
  destruct T as (r & d & E1 & E2 & _ & D), H as (r' & d' & E1' & E2' & _ & D'). assert (r' = r) by congruence. subst.
  assert (d' = d) by congruence. subst. pose proof (denotes_det _ _ _ _ D D') as E. cbn in E. discriminate.
Qed.

Lemma C17_refuted_lem : exists cs w n, run [] cs = Ok w /\ fits w /\ ~ docs acyclic w /\ Node_AppendJSON w n [] = Diverge.
Proof.
  set (cs := [CNewDoc; CNull 0; CArray 0; CArray 0; CAppend (nd 0 1) [nd 0 2]; CAppend (nd 0 2) [nd 0 1]]).
  exists cs, (made cs), (nd 0 1). split; [vm_compute; reflexivity|]. split; [apply fitsb_sound; vm_compute; reflexivity|].
  split; [|vm_compute; reflexivity]. intro A. specialize (A 0 _ eq_refl 1%N). eapply A; [vm_compute; reflexivity|left; reflexivity|].
  cbn [vid]. eapply reach_step; [vm_compute; reflexivity|left; reflexivity|]. cbn. constructor.
Qed.

(* A parsed root copied into another document keeps its root flag; setting it again from there shares it. *)
Lemma C18_refuted_lem : exists cs w n k m k' t s, run [] cs = Ok w /\ fits w /\ ~ docs unshared w /\
  (* the same node is under two keys, and an update through one path shows through the other *)
  tree_of w n t /\ Node_Get w n k = Node_Get w m k' /\ (n, k) <> (m, k') /\
  exists t', tree_of (Node_SetStringRaw w (Node_Get w n k) s) (Node_Get (Node_SetStringRaw w (Node_Get w n k) s) m k') t' /\ t' = JStr s /\
    tree_of w (Node_Get w m k') (JNum (str "1")).
Proof.
  set (cs := [CNewDoc; CNewDoc; CObject 0; CParse 1 (str "1"); CSet (nd 0 0) k_a (nd 1 0); CSet (nd 0 0) k_b (nd 0 1)]).
  exists cs, (made cs), (nd 0 0), k_a, (nd 0 0), k_b, (JObj [(k_a, JNum (str "1")); (k_b, JNum (str "1"))]), (str "s").
  split; [vm_compute; reflexivity|]. split; [apply fitsb_sound; vm_compute; reflexivity|].
  split.
  { intro U. specialize (U 0 _ eq_refl). vm_compute in U. inversion U as [|? ? H _]. apply H. left. reflexivity. }
  split; [apply treeN_sound; vm_compute; reflexivity|]. split; [vm_compute; reflexivity|]. split; [intro H; injection H as H; discriminate|].
  eexists. split; [|split; [reflexivity|]]; apply treeN_sound; vm_compute; reflexivity.
Qed.

Definition nest : bytes := str "{" ++ q ++ k_b ++ q ++ str ":{" ++ q ++ k_a ++ q ++ str ":1}}".
Lemma C19_refuted_lem : exists cs w n k m t w', run [] cs = Ok w /\ fits w /\ docs unshared w /\ tree_of w m t /\ ~ contains w m n /\
  step w (CStrip n k) = Ok w' /\ ~ tree_of w' m t.
Proof.
  set (cs := [CNewDoc; CParse 0 nest]).
  exists cs, (made cs), (nd 0 0), k_a, (nd 0 1), (JObj [(k_a, JNum (str "1"))]), (getw (step (made cs) (CStrip (nd 0 0) k_a))).
  split; [vm_compute; reflexivity|]. split; [apply fitsb_sound; vm_compute; reflexivity|].
  split. { intros [|[|r]] d E; try discriminate; injection E as <-; vm_compute; repeat constructor;
    (intro H; repeat (destruct H as [H|H]; [discriminate|]); exact H). }
  split; [apply treeN_sound; vm_compute; reflexivity|].
  split. { intros (r & d & E1 & _ & Ed & R). injection E1 as <-. vm_compute in Ed. injection Ed as <-. cbn [nid nd dnodes] in R.
    inversion R as [|? n v ? G Hv R']; subst. vm_compute in G. injection G as <-. destruct Hv as [<-|[]]. cbn [vid] in R'.
    inversion R' as [|? n v ? G Hv _]; subst. vm_compute in G. injection G as <-. destruct Hv. }
  split; [vm_compute; reflexivity|]. intro H.
  assert (T : tree_of (getw (step (made cs) (CStrip (nd 0 0) k_a))) (nd 0 1) (JObj [])) by (apply treeN_sound; vm_compute; reflexivity).
  destruct T as (r & d & E1 & E2 & _ & D), H as (r' & d' & E1' & E2' & _ & D'). assert (r' = r) by congruence. subst.
  assert (d' = d) by congruence. subst. pose proof (denotes_det _ _ _ _ D D') as E. discriminate.
Qed.

Definition inarr : bytes := str "{" ++ q ++ k_b ++ q ++ str ":[{" ++ q ++ k_a ++ q ++ str ":1}]}".
Lemma C21_refuted_lem : exists cs w n k t w' t', run [] cs = Ok w /\ fits w /\ docs unshared w /\ tree_of w n t /\
  Node_Strip w n k = Ok w' /\ tree_of w' n t' /\ has_key k t'.
Proof.
  set (cs := [CNewDoc; CParse 0 inarr]). set (t := JObj [(k_b, JArr [JObj [(k_a, JNum (str "1"))]])]).
  exists cs, (made cs), (nd 0 0), k_a, t, (getw (Node_Strip (made cs) (nd 0 0) k_a)), t.
  split; [vm_compute; reflexivity|]. split; [apply fitsb_sound; vm_compute; reflexivity|].
  split. { intros [|[|r]] d E; try discriminate; injection E as <-; vm_compute; repeat constructor;
    (intro H; repeat (destruct H as [H|H]; [discriminate|]); exact H). }
  split; [apply treeN_sound; vm_compute; reflexivity|]. split; [vm_compute; reflexivity|].
  split; [apply treeN_sound; vm_compute; reflexivity|].
  eapply hk_member; [left; reflexivity|]. eapply hk_elem; [left; reflexivity|]. apply hk_here. left. reflexivity.
Qed.
Lemma C21_dup_refuted_lem : exists cs w n k t w' t', run [] cs = Ok w /\ fits w /\ docs unshared w /\ tree_of w n t /\
  Node_Strip w n k = Ok w' /\ tree_of w' n t' /\ t' = JObj [(k, JNum (str "2"))].
Proof.
  set (cs := [CNewDoc; CParse 0 dup]).
  exists cs, (made cs), (nd 0 0), k_a, (JObj [(k_a, JNum (str "1")); (k_a, JNum (str "2"))]), (getw (Node_Strip (made cs) (nd 0 0) k_a)), (JObj [(k_a, JNum (str "2"))]).
  split; [vm_compute; reflexivity|]. split; [apply fitsb_sound; vm_compute; reflexivity|].
  split. { intros [|[|r]] d E; try discriminate; injection E as <-; vm_compute; repeat constructor;
    (intro H; repeat (destruct H as [H|H]; [discriminate|]); exact H). }
  split; [apply treeN_sound; vm_compute; reflexivity|]. split; [vm_compute; reflexivity|].
  split; [apply treeN_sound; vm_compute; reflexivity|auto].
Qed.

Lemma C22_refuted_lem : exists w n t p p' t' t2, fits w /\ tree_of w n t /\
  follow t p = None /\ tree_of w (Node_Lookup w n p) t' /\
  follow t p' = None /\ tree_of w (Node_Lookup w n p') t2 /\ p = [[]] /\ p' = [str "18446744073709551617"].
Proof.
  exists w0, (nd 1 0), t1, [[]], [str "18446744073709551617"], (JNum (str "1")), (JArr [JNum (str "2")]).
  split; [apply w0_fits|]. split; [apply w0_t1|]. split; [reflexivity|]. split; [apply treeN_sound; vm_compute; reflexivity|].
  split.
  - unfold t1. cbn [follow]. replace (decimal (str "18446744073709551617")) with (Some 18446744073709551617%N) by (vm_compute; reflexivity).
    rewrite (proj2 (nth_error_None _ _)); auto. cbn [length]. lia.
  - split; [apply treeN_sound; vm_compute; reflexivity|auto].
Qed.

(* ---- examples ---- *)

Lemma ex_adopt_ok : forall r d, ndoc (nd 0 0) = Some r -> nth_error w0 r = Some d -> adopts w0 r (nid (nd 0 0)) (nd 0 6) ->
  ~ reach (dnodes d) (nid (nd 0 6)) (nid (nd 0 0)).
Proof. intros r d E Ed _. injection E as <-. apply w0_hi_leaf; auto. Qed.
Lemma ex_adopts : adopts w0 0 0 (nd 0 6).
Proof. split; auto. eexists. split; [vm_compute; reflexivity|]. split; [reflexivity|]. split; discriminate. Qed.
Lemma ex_copies : ~ adopts w0 0 0 (nd 1 0).
Proof. intros (E & _). discriminate. Qed.

(* ---- combined statements used by PropsDoc.v ---- *)

Lemma assign_facts : forall (k : bytes) (t : jval) ms,
  assoc k (assign k t ms) = Some t /\
  (forall k', k' <> k -> assoc k' (assign k t ms) = assoc k' ms) /\
  (In k (map fst ms) -> map fst (assign k t ms) = map fst ms) /\
  (~ In k (map fst ms) -> assign k t ms = ms ++ [(k, t)]).
Proof.
  intros. split; [apply assign_same|]. split; [intros; apply assign_other; auto|]. split; [apply assign_keys_in|apply assign_keys_new].
Qed.

(* Set, seen through Get. *)
Lemma Set_get w n k v ms t : tree_of w n (JObj ms) -> tree_of w v t -> fits w ->
  (forall r d, ndoc n = Some r -> nth_error w r = Some d -> adopts w r (nid n) v -> ~ reach (dnodes d) (nid v) (nid n)) ->
  exists w', Node_Set w n k v = Ok w' /\ (fits w' ->
    tree_of w' (Node_Get w' n k) t /\
    forall k', k' <> k ->
      (forall t', tree_of w (Node_Get w n k') t' -> tree_of w' (Node_Get w' n k') t') /\
      (absent w (Node_Get w n k') -> absent w' (Node_Get w' n k'))).
Proof.
  intros T Tv Fi S. destruct (Set_tree w n k v ms t T Tv S) as (w' & E & H). exists w'. split; auto. intro Fi'. specialize (H Fi').
  split.
  - pose proof (Get_tree w' n k _ H Fi') as G. rewrite assign_same in G. exact G.
  - intros k' Hk. pose proof (Get_tree w' n k' _ H Fi') as G'. rewrite assign_other in G' by auto.
    pose proof (Get_tree w n k' _ T Fi) as G. split.
    + intros t' Ht. destruct (assoc k' ms) as [t2|].
      * replace t' with t2; auto. destruct G as (r & d & E1 & E2 & _ & D), Ht as (r' & d' & E1' & E2' & _ & D').
        assert (r' = r) by congruence. subst. assert (d' = d) by congruence. subst. eapply denotes_det; eauto.
      * exfalso. unfold absent in G. destruct Ht as (r & d & E1 & E2 & E3 & D). apply denotes_get in D as (x & D).
        unfold Node_get in G. rewrite E1 in G. cbn [getDoc] in G. rewrite E2, E3, N.eqb_refl in G. congruence.
    + intro A. destruct (assoc k' ms) as [t2|]; auto. exfalso. unfold absent in A. destruct G as (r & d & E1 & E2 & E3 & D). apply denotes_get in D as (x & D).
        unfold Node_get in A. rewrite E1 in A. cbn [getDoc] in A. rewrite E2, E3, N.eqb_refl in A. congruence.
Qed.

(* A set value that contains its new parent makes a cycle. *)
Lemma Del_one w n k ms : tree_of w n (JObj ms) -> fits w -> (forall a t b, ms = a ++ (k, t) :: b -> ~ In k (map fst (a ++ b))) ->
  absent (Node_Del w n k) (Node_Get (Node_Del w n k) n k) /\
  (~ In k (map fst ms) -> Node_Del w n k = w) /\
  (forall t, assoc k ms = Some t -> exists ms', tree_of (Node_Del w n k) n (JObj ms') /\ Permutation ms ((k, t) :: ms') /\ ~ In k (map fst ms')).
Proof.
  intros T Fi One. pose proof (Del_tree w n k ms T) as (D1 & D2).
  assert (Fi' : fits (Node_Del w n k)).
  { unfold Node_Del. destruct (Node_get w n) as [x|] eqn:G; auto. destruct (info_IsObject _); auto. destruct (keyIndex _ _); auto.
    apply get_live in G as (r & d & L & G). rewrite (live_put _ _ _ _ _ L). apply docs_putNodes; auto.
    rewrite lenN_putNode. pose proof L as (_ & Ed & _). eapply Fi; eauto. }
  assert (K : forall t, assoc k ms = Some t -> exists ms', tree_of (Node_Del w n k) n (JObj ms') /\ Permutation ms ((k, t) :: ms') /\ ~ In k (map fst ms')).
  { intros t Ht. assert (exists a b, ms = a ++ (k, t) :: b /\ ~ In k (map fst a)) as (a & b & E & Ha).
    { clear - Ht. induction ms as [|[k' t'] ms IH]; cbn in Ht; [discriminate|]. destruct (bseqb k k') eqn:E.
      - apply bseqb_true in E. injection Ht as ->. exists [], ms. subst. auto.
      - destruct (IH Ht) as (a & b & -> & Ha). exists ((k', t') :: a), b. split; auto. cbn. intros [->|H]; auto. rewrite bseqb_refl in E. discriminate. }
    exists (plug a b). split; [apply (D1 a t b E Ha)|]. specialize (One a t b E). split.
    - rewrite E. rewrite <- Permutation_middle. constructor. apply plug_perm.
    - intro H. apply One. eapply Permutation_in; [|exact H]. apply Permutation_map. symmetry. apply plug_perm. }
  split; auto.
  destruct (assoc k ms) as [t|] eqn:E.
  - destruct (K t eq_refl) as (ms' & T' & _ & Hk). pose proof (Get_tree _ n k _ T' Fi') as G.
    apply assoc_none in Hk. rewrite Hk in G. exact G.
  - pose proof E as Hk. apply assoc_none in Hk. rewrite (D2 Hk). pose proof (Get_tree _ n k _ T Fi) as G. rewrite E in G. exact G.
Qed.

Lemma hist_step ok w c w' : history ok w -> ok w c -> step w c = Ok w' -> fitsb w' = true -> history ok w'.
Proof. intros. econstructor; eauto. apply fitsb_sound; auto. Qed.

Lemma trivial_ok (P : Prop) w c : receiver c = None -> (no_ancestor w c /\ valid_values w c) /\ (no_parent w c /\ valid_values w c).
Proof.
  intro R. assert (valid_values w c) by (destruct c; cbn in *; auto; discriminate).
  repeat split; auto; intros n v r d E; congruence.
Qed.

Lemma made_history (ok : world -> call -> Prop) : (forall w c, receiver c = None -> ok w c) ->
  let w1 := made [CNewDoc; CNull 0; CArray 0; CObject 0] in
  ok w1 (CAppend (nd 0 1) [nd 0 2]) ->
  history ok (made [CNewDoc; CNull 0; CArray 0; CObject 0; CAppend (nd 0 1) [nd 0 2]]).
Proof.
  intros T w1 L. eapply (hist_step _ w1); [|exact L|vm_compute; reflexivity|vm_compute; reflexivity].
  eapply (hist_step _ (made [CNewDoc; CNull 0; CArray 0]) (CObject 0)); [|apply T; reflexivity|vm_compute; reflexivity|vm_compute; reflexivity].
  eapply (hist_step _ (made [CNewDoc; CNull 0]) (CArray 0)); [|apply T; reflexivity|vm_compute; reflexivity|vm_compute; reflexivity].
  eapply (hist_step _ (made [CNewDoc]) (CNull 0)); [|apply T; reflexivity|vm_compute; reflexivity|vm_compute; reflexivity].
  eapply (hist_step _ [] CNewDoc); [constructor|apply T; reflexivity|vm_compute; reflexivity|vm_compute; reflexivity].
Qed.

Lemma ex_valid : valid_values (made [CNewDoc; CNull 0; CArray 0; CObject 0]) (CAppend (nd 0 1) [nd 0 2]).
Proof. intros v [<-|[]]. vm_compute. discriminate. Qed.
Lemma C17_example_lem : history (fun w c => no_ancestor w c /\ valid_values w c)
  (made [CNewDoc; CNull 0; CArray 0; CObject 0; CAppend (nd 0 1) [nd 0 2]]).
Proof.
  apply made_history; [intros; apply (trivial_ok True); auto|]. split; [|apply ex_valid].
  intros n v r d En [<-|[]] E1 E2 _ R. injection En as <-. injection E1 as <-. vm_compute in E2. injection E2 as <-.
  inversion R as [|? m u ? G Hu]; subst. vm_compute in G. injection G as <-. destruct Hu.
Qed.
Lemma C18_example_lem : history (fun w c => no_parent w c /\ valid_values w c)
  (made [CNewDoc; CNull 0; CArray 0; CObject 0; CAppend (nd 0 1) [nd 0 2]]).
Proof.
  apply made_history; [intros; apply (trivial_ok True); auto|]. split; [|apply ex_valid].
  intros n v r d En [<-|[]] E1 E2 _ R. injection En as <-. injection E1 as <-. vm_compute in E2. injection E2 as <-.
  vm_compute in R. exact R.
Qed.
Lemma leaf4 d x : nth_error w0 0 = Some d -> reach (dnodes d) 4 x -> x = 4%N.
Proof. injection 1 as <-. intro R. inversion R as [|? n v ? G Hv]; subst; auto. vm_compute in G. injection G as <-. destruct Hv. Qed.
Lemma under1 d x : nth_error w0 0 = Some d -> reach (dnodes d) 1 x -> x = 1%N \/ x = 2%N \/ x = 3%N.
Proof.
  injection 1 as <-. intro R. inversion R as [|? n v ? G Hv R']; subst; auto. vm_compute in G. injection G as <-.
  destruct Hv as [<-|[<-|[]]]; cbn [vid] in R'; inversion R' as [|? n v ? G Hv]; subst; auto; vm_compute in G; injection G as <-; destruct Hv.
Qed.
Lemma C19_example_lem : tree_of w0 (nd 0 4) JNull /\ ~ contains w0 (nd 0 4) (nd 0 1) /\ ~ overlap w0 (nd 0 4) (nd 0 1) /\
  receiver (CAppend (nd 0 1) [nd 0 6]) = Some (nd 0 1).
Proof.
  split; [apply treeN_sound; vm_compute; reflexivity|]. split; [|split; auto].
  - intros (r & d & E1 & _ & Ed & R). injection E1 as <-. apply (leaf4 _ _ Ed) in R. discriminate.
  - intros (r & d & x & E1 & _ & Ed & R & R'). injection E1 as <-. apply (leaf4 _ _ Ed) in R. apply (under1 _ _ Ed) in R'.
    subst. destruct R' as [|[|]]; discriminate.
Qed.
Lemma C20_example_lem : tree_of w0 (nd 0 0) t0 /\ tree_of w0 (nd 1 0) t1 /\ ~ adopts w0 0 0 (nd 1 0) /\
  exists w' w'', Node_Set w0 (nd 0 0) k_a (nd 1 0) = Ok w' /\ tree_of w' (Node_Get w' (nd 0 0) k_a) t1 /\
    later (elsewhere 0 8 (nd 0 8)) w' w'' /\ tree_of w'' (nd 1 0) (JArr [JNull; JArr [JNum (str "2")]]).
Proof.
  split; [apply w0_t0|]. split; [apply w0_t1|]. split; [apply ex_copies|].
  exists (getw (Node_Set w0 (nd 0 0) k_a (nd 1 0))), (Node_SetNull (getw (Node_Set w0 (nd 0 0) k_a (nd 1 0))) (nd 1 1)).
  split; [vm_compute; reflexivity|]. split; [apply treeN_sound; vm_compute; reflexivity|].
  split; [|apply treeN_sound; vm_compute; reflexivity].
  eapply l_call with (c := CSetNull (nd 1 1)); [|reflexivity|constructor]. left. discriminate.
Qed.
Lemma C21_example_lem : tree_of w0 (nd 0 0) t0 /\ docs unshared w0 /\ strippable k_b t0 /\ has_key k_b t0.
Proof.
  split; [apply w0_t0|]. split; [apply w0_unshared|]. split.
  - apply sp_obj.
    + intros a t b E. destruct a as [|x a]; [discriminate|]. injection E as <- E. destruct a as [|y a].
      * injection E as _ <-. cbn. intros [H|[]]. discriminate.
      * injection E as _ E. destruct a; discriminate.
    + intros m [<-|[<-|[]]]; cbn [snd]; [apply sp_arr|constructor]. intro H. inversion H as [| |? v Hv Hk]; subst.
      destruct Hv as [<-|[<-|[]]]; inversion Hk.
  - apply hk_here. right. left. reflexivity.
Qed.

Lemma replaceNth_split {A} (l : list A) i x : i < length l -> replaceNth l i x = firstn i l ++ x :: skipn (S i) l.
Proof. revert i. induction l as [|y l IH]; intros [|i] H; cbn in *; try lia; auto. f_equal. apply IH. lia. Qed.
Lemma Replace_tree_at w n i v ts t : tree_of w n (JArr ts) -> tree_of w v t -> (0 <= i < Z.of_nat (length ts))%Z ->
  (forall r d, ndoc n = Some r -> nth_error w r = Some d -> adopts w r (nid n) v -> ~ reach (dnodes d) (nid v) (nid n)) ->
  exists w', Node_Replace w n i v = Ok w' /\ (fits w' -> tree_of w' n (JArr (firstn (Z.to_nat i) ts ++ t :: skipn (S (Z.to_nat i)) ts))).
Proof. intros T Tv Hi S. destruct (Replace_tree w n i v ts t T Tv Hi S) as (w' & E & H). exists w'. split; auto. rewrite replaceNth_split in H by lia. exact H. Qed.
