(* What each mutator does to the nodes of its document. *)
From Coq Require Import Permutation.
From Verif Require Import Bytes Tables Types JsonSpec Parser LexProofs ParserProofs Doc DocSpec DocProofs ParserThms
  CopyProofs InvProofs Api.

(* ---- live nodes ---- *)

Definition live (w : world) (n : Node) (r : ref) (d : doc) : Prop :=
  ndoc n = Some r /\ nth_error w r = Some d /\ drev d = nrev n.

Lemma live_get w n r d : live w n r d -> Node_get w n = getNode (dnodes d) (nid n).
Proof. intros (E1 & E2 & E3). unfold Node_get. rewrite E1. simpl. rewrite E2, E3, N.eqb_refl. reflexivity. Qed.
Lemma live_Document w n r d : live w n r d -> Node_Document w n = Some r.
Proof. intros (E1 & E2 & E3). unfold Node_Document. rewrite E1. simpl. rewrite E2, E3, N.eqb_refl. reflexivity. Qed.
Lemma live_nodes w n r d : live w n r d -> Node_nodes w n = dnodes d.
Proof. intros (E1 & E2 & E3). unfold Node_nodes. rewrite E1. simpl. rewrite E2. reflexivity. Qed.
Lemma live_put w n r d x : live w n r d -> Node_put w n x = putNodes w r (putNode (dnodes d) (nid n) x).
Proof. intros L. unfold Node_put. rewrite (live_nodes _ _ _ _ L). destruct L as (-> & _). reflexivity. Qed.
Lemma live_putNodes w n r d ns : live w n r d -> live (putNodes w r ns) n r (mkDoc ns (drev d)).
Proof. intros (E1 & E2 & E3). split; auto. split; auto. apply putNodes_same; auto. Qed.
Lemma get_live w n nn : Node_get w n = Some nn -> exists r d, live w n r d /\ getNode (dnodes d) (nid n) = Some nn.
Proof.
  unfold Node_get. destruct (ndoc n) as [r|] eqn:E1; simpl; [|discriminate].
  destruct (nth_error w r) as [d|] eqn:E2; [|discriminate]. destruct (N.eqb_spec (drev d) (nrev n)); [|discriminate].
  intro G. exists r, d. split; auto. split; auto.
Qed.
Lemma live_det w n r d r' d' : live w n r d -> live w n r' d' -> r' = r /\ d' = d.
Proof. intros (A & B & C) (A' & B' & C'). assert (r' = r) by congruence. subst. split; congruence. Qed.

Lemma tree_live w n t : tree_of w n t <-> exists r d, live w n r d /\ denotes (dnodes d) (nid n) t.
Proof. unfold tree_of, live. split; intros (r & d & H); exists r, d; tauto. Qed.

Lemma tree_putNodes w r d ns m t : nth_error w r = Some d -> tree_of w m t ->
  (ndoc m = Some r -> denotes (dnodes d) (nid m) t -> denotes ns (nid m) t) -> tree_of (putNodes w r ns) m t.
Proof.
  intros Ed (r' & d' & E1 & E2 & E3 & D) H. destruct (Nat.eq_dec r' r) as [->|Hne].
  - assert (d' = d) by congruence. subst d'. exists r, (mkDoc ns (drev d)). split; auto. split; [apply putNodes_same; auto|]. simpl. auto.
  - exists r', d'. repeat split; auto. rewrite putNodes_other; auto.
Qed.

(* ---- growing a document by copies and adoptions ---- *)

Definition unroot (n : node) : node := mkNode (N.ldiff (ninfo n) infRoot) (nraw n) (nvalues n).

Lemma unflag_unroot n : unflag (unroot n) = unflag n.
Proof. unfold unflag, unroot. cbn. rewrite info_Type_unroot. reflexivity. Qed.

Lemma unroot_not_root n : info_IsRoot (ninfo (unroot n)) = false.
Proof.
  unfold unroot, info_IsRoot. cbn [ninfo]. unfold infRoot.
  replace (N.land (N.ldiff (ninfo n) 512) 512) with 0%N; [reflexivity|].
  symmetry. apply N.bits_inj. intro k. rewrite N.land_spec, N.ldiff_spec, N.bits_0.
  destruct (N.testbit 512 k); rewrite ?andb_false_r; auto.
Qed.

(* [grow w0 val to ns add ns']: values with ids add were copied or adopted (then satisfying val) one
   after the other; w0 is the world at the start. *)
Inductive grow (w0 : world) (val : N -> Prop) (to : N) (bad : Prop) : list node -> list N -> list node -> Prop :=
| g_nil ns : grow w0 val to bad ns [] ns
| g_adopt ns id n add ns' : getNode ns id = Some n -> info_IsRoot (ninfo n) = true -> id <> 0%N -> id <> to ->
    val id -> grow w0 val to bad (putNode ns id (unroot n)) add ns' -> grow w0 val to bad ns (id :: add) ns'
| g_copy ns new add ns' : new <> [] -> forward (lenN ns) new -> NoDup (refs new) ->
    (forall P, inherited P -> eachnode P ns -> docs (eachnode P) w0 -> eachnode P new) ->
    grow w0 val to bad (ns ++ new) add ns' -> grow w0 val to bad ns (lenN ns :: add) ns'
| g_bad ns add ns' : bad -> grow w0 val to bad ns add ns' -> grow w0 val to bad ns (maxUint :: add) ns'.

(* An adopted id was named by one of the values and, unless it is of a node created meanwhile, it was
   already adoptable at the start. *)
Definition valid_of (w0 : world) (r : ref) (to : N) (vals : list Node) (id : N) : Prop :=
  exists v, In v vals /\ nid v = id /\ Node_Document w0 v = Some r /\ (forall d, nth_error w0 r = Some d -> (id < lenN (dnodes d))%N -> adopts w0 r to v).

(* Some value is invalid. *)
Definition bad_of (w0 : world) (vals : list Node) : Prop := exists v, In v vals /\ Node_get w0 v = None.

Lemma grow_ext w0 val to bad ns add ns' : grow w0 val to bad ns add ns' -> ext ns ns'.
Proof.
  induction 1 as [ns|ns id n add ns' G R Z T V H IH|ns new add ns' N F D W H IH|ns add ns' B H IH]; auto.
  - apply ext_refl.
  - eapply ext_trans; [|exact IH]. apply ext_unflag. eapply map_unflag_put; eauto. apply unflag_unroot.
  - eapply ext_trans; [|exact IH]. apply ext_app. apply forward_refsin in F. eapply refsin_mono; [| |exact F]; lia.
Qed.

Lemma grow_max w0 val to bad ns add ns' : grow w0 val to bad ns add ns' -> (lenN ns' <= maxUint)%N -> In maxUint add -> bad.
Proof.
  induction 1 as [ns|ns id n add ns' G R Z T V H IH|ns new add ns' N F D W H IH|ns add ns' B H IH]; auto; intros M Hx; [destruct Hx| |]; destruct Hx as [Hx|Hx]; auto.
  - pose proof (getNode_lt _ _ _ G). apply grow_ext, ext_len in H. rewrite lenN_putNode in H. lia.
  - apply grow_ext, ext_len in H. rewrite lenN_app in H. assert (0 < lenN new)%N by (destruct new; [congruence|nsimpl; lia]). lia.
Qed.

Lemma adopts_back w0 r d0 ns v to : nth_error w0 r = Some d0 ->
  (forall id n, (id < lenN (dnodes d0))%N -> getNode ns id = Some n -> info_IsRoot (ninfo n) = true ->
     exists n0, getNode (dnodes d0) id = Some n0 /\ info_IsRoot (ninfo n0) = true) ->
  adopts (putNodes w0 r ns) r to v -> (nid v < lenN (dnodes d0))%N -> adopts w0 r to v.
Proof.
  intros E H (A & n & G & R & Z & T) L. split; auto.
  apply get_live in G as (r' & d' & Lv & G). pose proof Lv as (E1 & E2 & E3).
  assert (r' = r) by congruence. subst r'. rewrite (putNodes_same _ _ _ _ E) in E2. injection E2 as <-. simpl in *.
  destruct (H _ _ L G R) as (n0 & G0 & R0). exists n0. split; auto.
  rewrite (live_get w0 v r d0); auto. split; auto.
Qed.

(* Root flags of old nodes are never set. *)
Definition roots_old (L : N) (ns ns' : list node) : Prop :=
  forall id n, (id < L)%N -> getNode ns' id = Some n -> info_IsRoot (ninfo n) = true ->
     exists n0, getNode ns id = Some n0 /\ info_IsRoot (ninfo n0) = true.

Lemma roots_old_refl L ns : roots_old L ns ns.
Proof. intros id n _ G R. eauto. Qed.
Lemma roots_old_trans L a b c : roots_old L a b -> roots_old L b c -> roots_old L a c.
Proof. intros H1 H2 id n Hl G R. destruct (H2 id n Hl G R) as (m & G2 & R2). eauto. Qed.
Lemma roots_old_app L ns new : (L <= lenN ns)%N -> roots_old L ns (ns ++ new).
Proof. intros Hl id n Hid G R. rewrite getNode_app1 in G by lia. eauto. Qed.
Lemma roots_old_unroot L ns id n : getNode ns id = Some n -> roots_old L ns (putNode ns id (unroot n)).
Proof.
  intros E i m Hi G R. destruct (N.eq_dec id i) as [->|Hne].
  - rewrite getNode_put_same in G by (eapply getNode_lt; eauto). injection G as <-.
    rewrite unroot_not_root in R. discriminate.
  - rewrite getNode_put_other in G by auto. eauto.
Qed.

Lemma grow_roots w0 val to bad ns add ns' L : grow w0 val to bad ns add ns' -> (L <= lenN ns)%N -> roots_old L ns ns'.
Proof.
  induction 1 as [ns|ns id n add ns' G R Z T V H IH|ns new add ns' N F D W H IH|ns add ns' B H IH]; auto; intro HL.
  - apply roots_old_refl.
  - eapply roots_old_trans; [|apply IH; rewrite lenN_putNode; auto]. apply roots_old_unroot; auto.
  - eapply roots_old_trans; [|apply IH; nsimpl; lia]. apply roots_old_app; auto.
Qed.

Lemma grow_snoc w0 val to bad ns add ns1 add2 ns2 : grow w0 val to bad ns add ns1 -> grow w0 val to bad ns1 add2 ns2 ->
  grow w0 val to bad ns (add ++ add2) ns2.
Proof.
  induction 1; simpl; auto; intro.
  - eapply g_adopt; eauto.
  - eapply g_copy; eauto.
  - eapply g_bad; eauto.
Qed.

Lemma copyOrAdopt_grow w0 r d0 ns vals v to w' id :
  nth_error w0 r = Some d0 -> roots_old (lenN (dnodes d0)) (dnodes d0) ns -> (lenN (dnodes d0) <= lenN ns)%N -> In v vals ->
  copyOrAdopt (putNodes w0 r ns) r (Node_Document (putNodes w0 r ns) v) (nid v) to = Ok (w', id) ->
  exists ns', w' = putNodes w0 r ns' /\ grow w0 (valid_of w0 r to vals) to (bad_of w0 vals) ns [id] ns'.
Proof.
  intros E Ro HL Hin H. pose proof (putNodes_same w0 r ns d0 E) as Ed.
  apply (copyOrAdopt_gen _ _ _ _ _ _ _ Ed) in H as [(Gb & -> & ->)|(n & G & ns' & -> & Hc)]; simpl in *.
  - exists ns. split; auto. apply g_bad; [|constructor]. exists v. split; auto.
    destruct (Node_get w0 v) as [x|] eqn:Gx; auto. exfalso. apply get_live in Gx as (r' & d' & (L1 & L2 & L3) & Gx).
    destruct (Nat.eq_dec r' r) as [->|Hr].
    + assert (d' = d0) by congruence. subst d'. rewrite (live_get (putNodes w0 r ns) v r (mkDoc ns (drev d0))) in Gb.
      * cbn in Gb. apply getNode_lt in Gx. destruct (getNode_some ns (nid v)) as (y & Gy); [lia|congruence].
      * split; auto.
    + rewrite (live_get (putNodes w0 r ns) v r' d') in Gb; [congruence|]. split; auto. split; auto.
      rewrite putNodes_other; auto.
  - exists ns'. split; [apply putNodes_twice|].
    destruct Hc as [(A & -> & _ & ->)|(A & -> & o & f & other & new & Ho & Hv & Hn & Hoth & -> & Hne & F & D)].
    + pose proof A as (Hdoc & m & Gm & R & Z & T). assert (m = n) by congruence. subst m.
      eapply g_adopt; eauto.
      * apply get_live in G as (r' & d' & Lv & G). destruct Lv as (E1 & E2 & _).
        assert (r' = r) by congruence. subst r'. rewrite Ed in E2. injection E2 as <-. exact G.
      * exists v. split; auto. split; auto. split.
        { apply get_live in G as (r' & d' & (L1 & L2 & L3) & _). assert (r' = r) by congruence. subst r'.
          rewrite Ed in L2. injection L2 as <-. apply (live_Document w0 v r d0). split; auto. }
        intros d Hd L. assert (d = d0) by congruence. subst d.
        eapply adopts_back; eauto.
      * constructor.
    + apply g_copy with (new := new); auto; [|constructor].
      intros P HP W1 W2. assert (Wall : eachnode P (ns ++ new)).
      { eapply ncopy_wf; eauto.
        - subst other. destruct (Nat.eqb_spec o r) as [->|Hor]; [intros ? []|].
          rewrite putNodes_other by auto. destruct (nth_error w0 o) as [od|] eqn:Eo; [|intros ? []].
          simpl. eapply W2; eauto.
        - apply get_live in G as (r' & d' & Lv & G). destruct Lv as (E1 & E2 & _).
          apply getNode_In in G. destruct (Nat.eq_dec r' r) as [->|Hr].
          + rewrite Ed in E2. injection E2 as <-. apply W1; auto.
          + rewrite putNodes_other in E2 by auto. eapply W2; eauto. }
      intros m Hm. apply Wall. apply in_or_app; auto.
Qed.

Lemma appendIds_grow w0 r d0 to all : nth_error w0 r = Some d0 ->
  forall vals ns vv w' vv', (forall v, In v vals -> In v all) ->
  roots_old (lenN (dnodes d0)) (dnodes d0) ns -> (lenN (dnodes d0) <= lenN ns)%N ->
  appendIds (putNodes w0 r ns) r to vals vv = Ok (w', vv') ->
  exists add ns', w' = putNodes w0 r ns' /\ grow w0 (valid_of w0 r to all) to (bad_of w0 all) ns add ns' /\
    vv' = vv ++ map (fun id => mkV id []) add /\ length add = length vals.
Proof.
  intros E vals. induction vals as [|v vals IH]; intros ns vv w' vv' Hall Ro HL; simpl.
  - injection 1 as <- <-. exists [], ns. rewrite app_nil_r. repeat split; auto. constructor.
  - destruct (copyOrAdopt _ _ _ _ _) as [[w1 id]| |] eqn:Ec; simpl; try discriminate.
    intro H. apply copyOrAdopt_grow with (vals := all) (d0 := d0) in Ec as (ns1 & -> & G1); auto; [|apply Hall; simpl; auto].
    apply IH in H as (add & ns' & -> & G2 & -> & Hl).
    + exists (id :: add), ns'. split; auto. split; [|split; [|simpl; congruence]].
      * change (id :: add) with ([id] ++ add). eapply grow_snoc; eauto.
      * cbn [map]. rewrite <- app_assoc. reflexivity.
    + intros; apply Hall; simpl; auto.
    + eapply roots_old_trans; [exact Ro|]. eapply grow_roots; eauto.
    + pose proof (ext_len _ _ (grow_ext _ _ _ _ _ _ _ G1)). lia.
Qed.

(* ---- effects of mutators (Strip excepted) ---- *)

(* vals are the stored values, risky those whose validity is not checked. *)
Inductive effect (w : world) (n : Node) (vals risky : list Node) : world -> Prop :=
| ef_none : effect w n vals risky w
| ef_grow r d add ns1 : live w n r d ->
    grow w (valid_of w r (nid n) vals) (nid n) (bad_of w vals) (dnodes d) add ns1 ->
    effect w n vals risky (putNodes w r ns1)
| ef_put r d nn add ns1 nn1 x : live w n r d -> getNode (dnodes d) (nid n) = Some nn ->
    grow w (valid_of w r (nid n) vals) (nid n) (bad_of w vals) (dnodes d) add ns1 ->
    getNode ns1 (nid n) = Some nn1 ->
    moved (map vid (nvalues nn1)) add (map vid (nvalues x)) ->
    (wfnode nn1 -> wfnode x) ->
    ((lenN ns1 <= maxUint)%N -> In maxUint add -> bad_of w risky) ->
    effect w n vals risky (putNodes w r (putNode ns1 (nid n) x)).

Lemma effect_put w n r d nn x vals risky : live w n r d -> getNode (dnodes d) (nid n) = Some nn ->
  moved (map vid (nvalues nn)) [] (map vid (nvalues x)) -> (wfnode nn -> wfnode x) ->
  effect w n vals risky (Node_put w n x).
Proof.
  intros L G M W. rewrite (live_put _ _ _ _ _ L). eapply ef_put; eauto; [constructor|intros _ []].
Qed.

Lemma moved_nil old : moved old [] [].
Proof. exists old. rewrite app_nil_r. reflexivity. Qed.

Lemma assignKey_moved key id vs : moved (map vid vs) [id] (map vid (assignKey key id vs)).
Proof.
  induction vs as [|v vs (dr & P)]; simpl.
  - exists []. rewrite app_nil_r. reflexivity.
  - destruct (bseqb (vkey v) key); simpl.
    + exists [vid v]. cbn [app]. rewrite !(Permutation_app_comm (map vid vs)). cbn [app]. apply perm_swap.
    + exists dr. cbn [app]. constructor. exact P.
Qed.
Lemma assignKey_keys key id vs v : In v (assignKey key id vs) -> vkey v = key \/ exists u, In u vs /\ vkey u = vkey v.
Proof.
  induction vs as [|u vs IH]; simpl.
  - intros [<-|[]]; auto.
  - destruct (bseqb (vkey u) key); simpl; intros [<-|H]; eauto. apply IH in H as [|(x & ? & ?)]; eauto.
Qed.

Lemma replaceNth_moved k id key vs : k < length vs -> moved (map vid vs) [id] (map vid (replaceNth vs k (mkV id key))).
Proof.
  revert k. induction vs as [|v vs IH]; intros [|k]; simpl; intro L; try lia.
  - exists [vid v]. cbn [app]. rewrite !(Permutation_app_comm (map vid vs)). cbn [app]. apply perm_swap.
  - destruct (IH k ltac:(lia)) as (dr & P). exists dr. cbn [app]. constructor. exact P.
Qed.
Lemma replaceNth_in {A} k (x : A) vs v : In v (replaceNth vs k x) -> v = x \/ In v vs.
Proof.
  revert k. induction vs as [|u vs IH]; intros [|k]; simpl; auto.
  - intros [|]; auto.
  - intros [|H]; auto. apply IH in H as [|]; auto.
Qed.

Lemma moved_sub {A} (f : A -> N) (a b c : list A) : Permutation a (b ++ c) -> moved (map f a) [] (map f b).
Proof. intro P. exists (map f c). rewrite app_nil_r, <- map_app. apply Permutation_map; auto. Qed.

Lemma slice_perm {A} (l : list A) i j : exists r, Permutation l (skipn i (firstn j l) ++ r).
Proof.
  exists (firstn i (firstn j l) ++ skipn j l). rewrite app_assoc.
  rewrite (Permutation_app_comm (skipn i (firstn j l))). rewrite firstn_skipn, firstn_skipn. reflexivity.
Qed.
Lemma removeNth_perm {A} (l : list A) k x : nth_error l k = Some x -> Permutation l (removeNth l k ++ [x]).
Proof.
  intro H. apply nth_error_split in H as (a & b & -> & <-). unfold removeNth.
  rewrite firstn_app_exact by auto. replace (skipn (S (length a)) (a ++ x :: b)) with b.
  - rewrite <- app_assoc. apply Permutation_app_head. apply Permutation_cons_append.
  - change (S (length a)) with (1 + length a). rewrite Nat.add_comm, skipn_app, skipn_all2 by lia.
    replace (length a + 1 - length a) with 1 by lia. reflexivity.
Qed.

Lemma removelast_last {A} (l : list A) x : removelast (l ++ [x]) = l.
Proof. rewrite removelast_app by discriminate. simpl. apply app_nil_r. Qed.

Lemma swapRemove_perm vs i v : nth_error vs i = Some v -> Permutation vs (v :: swapRemove vs i).
Proof.
  intro H. destruct vs as [|x0 vs0] using rev_ind; [destruct i; discriminate|]. clear IHvs0.
  unfold swapRemove. rewrite last_last. destruct (Nat.lt_ge_cases i (length vs0)) as [L|L].
  - rewrite nth_error_app1 in H by auto. apply nth_error_split in H as (a & b & -> & <-).
    rewrite <- app_assoc. cbn [app]. rewrite replaceNth_app.
    change (a ++ x0 :: b ++ [x0]) with (a ++ (x0 :: b) ++ [x0]). rewrite app_assoc, removelast_last.
    rewrite <- (Permutation_middle a (b ++ [x0]) v). constructor. apply Permutation_app_head.
    symmetry. apply Permutation_cons_append.
  - rewrite nth_error_app2 in H by auto. assert (i = length vs0).
    { destruct (i - length vs0) eqn:Ei; [lia|]. simpl in H. destruct n; discriminate. }
    subst i. rewrite Nat.sub_diag in H. injection H as ->. rewrite replaceNth_app, removelast_last.
    symmetry. apply Permutation_cons_append.
Qed.

Lemma keyIndex_some key vs i : keyIndex key vs = Some i -> exists v, nth_error vs i = Some v /\ vkey v = key.
Proof.
  revert i. induction vs as [|v vs IH]; intro i; simpl; [discriminate|].
  destruct (bseqb (vkey v) key) eqn:E.
  - injection 1 as <-. exists v. split; auto. apply bseqb_true; auto.
  - destruct (keyIndex key vs); simpl; [|discriminate]. injection 1 as <-. apply IH; auto.
Qed.

Lemma info_Type_or_flags t f : In t [vString; vNumber; vBoolean; vNull] -> info_Type (N.lor t (info_Flags f)) = t.
Proof.
  intro H. unfold info_Type, info_Flags.
  change 256%N with (2 ^ 8)%N. rewrite <- N.land_ones. rewrite N.land_lor_distr_l.
  rewrite <- N.land_assoc. change (N.land 65280 (N.ones 8)) with 0%N. rewrite N.land_0_r, N.lor_0_r.
  destruct H as [<-|[<-|[<-|[<-|[]]]]]; reflexivity.
Qed.

Lemma wfnode_scalar t raw f : (t = vString \/ t = vNumber) \/ (t = vBoolean /\ (raw = strTrue \/ raw = strFalse)) \/
  (t = vNull /\ raw = strNull) -> wfnode (mkNode (N.lor t (info_Flags f)) raw []).
Proof.
  intro H. unfold wfnode. cbn [ninfo nraw nvalues]. rewrite info_Type_or_flags.
  - destruct H as [[->| ->]|[(-> & [->| ->])|(-> & ->)]]; cbn.
    + left. auto.
    + left. auto.
    + right. left. auto.
    + right. left. auto.
    + do 2 right. left. auto.
  - destruct H as [[->| ->]|[(-> & _)|(-> & _)]]; cbn; auto 10.
Qed.

Lemma setScalar_effect w n t raw vals risky : (t = vString \/ t = vNumber) \/ (t = vBoolean /\ (raw = strTrue \/ raw = strFalse)) \/
  (t = vNull /\ raw = strNull) -> effect w n vals risky (setScalar w n t raw).
Proof.
  intro H. unfold setScalar. destruct (Node_get w n) as [nn|] eqn:G; [|constructor].
  apply get_live in G as (r & d & L & G). eapply effect_put; eauto.
  - apply moved_nil.
  - intros _. apply wfnode_scalar; auto.
Qed.

Lemma inRange_some i len k : inRange i len = Some k -> k < len /\ i = Z.of_nat k.
Proof.
  unfold inRange. destruct ((0 <=? i)%Z && (i <? Z.of_nat len)%Z) eqn:E; [|discriminate].
  injection 1 as <-. apply andb_prop in E as [E1 E2]. lia.
Qed.

Lemma IsArray_type i : info_IsArray i = true -> info_Type i = TypeArray.
Proof. apply N.eqb_eq. Qed.
Lemma IsObject_type i : info_IsObject i = true -> info_Type i = TypeObject.
Proof. apply N.eqb_eq. Qed.

Lemma ext_values ns ns' id n n' : ext ns ns' -> getNode ns id = Some n -> getNode ns' id = Some n' ->
  unflag n' = unflag n /\ nvalues n' = nvalues n /\ info_Type (ninfo n') = info_Type (ninfo n) /\ nraw n' = nraw n.
Proof.
  intros X G G'. destruct (ext_getNode _ _ _ _ X G) as (m & Gm & U). assert (m = n') by congruence. subst m.
  split; auto. injection U; auto.
Qed.

Lemma wfnode_arr n vs : info_Type (ninfo n) = TypeArray -> (forall v, In v vs -> vkey v = [] \/ In v (nvalues n)) ->
  wfnode n -> wfnode (withValues n vs).
Proof.
  intros T H W. unfold wfnode in *. cbn. rewrite T in *.
  destruct W as [([W|W] & _)|[(W & _)|[(W & _)|[(_ & R & K)|(W & _)]]]]; try discriminate W.
  do 3 right. left. split; auto. split; auto. intros v Hv. destruct (H v Hv); auto.
Qed.
Lemma wfnode_obj n vs : info_Type (ninfo n) = TypeObject -> wfnode n -> wfnode (withValues n vs).
Proof.
  intros T W. unfold wfnode in *. cbn. rewrite T in *.
  destruct W as [([W|W] & _)|[(W & _)|[(W & _)|[(W & _)|(_ & R)]]]]; try discriminate W. auto 10.
Qed.

Lemma step_effect w c n w' : receiver c = Some n -> (forall m k, c <> CStrip m k) -> step w c = Ok w' ->
  effect w n (stored c) (match c with CAppend _ vs => vs | _ => [] end) w'.
Proof.
  intros Hr Hs. destruct c; try discriminate Hr; injection Hr as ->; cbn [step stored]; intro H.
  - (* Set *) unfold Node_Set in H. destruct (Node_get w n) as [nn|] eqn:G; [|injection H as <-; constructor].
    apply get_live in G as (r & d & L & G). pose proof L as (En & Ed & _). rewrite En in H.
    destruct (info_IsObject (ninfo nn)) eqn:T; [|injection H as <-; constructor].
    destruct (copyOrAdopt _ _ _ _ _) as [[w1 id]| |] eqn:Ec; try discriminate H. cbn [bind] in H.
    assert (Ew : putNodes w r (dnodes d) = w) by (apply putNodes_self; auto). rewrite <- Ew in Ec.
    apply copyOrAdopt_grow with (vals := [v]) (d0 := d) in Ec as (ns1 & -> & Gr); auto using roots_old_refl; [|lia|simpl; auto].
    pose proof (grow_ext _ _ _ _ _ _ _ Gr) as X.
    destruct (N.ltb_spec id maxUint) as [Hm|Hm]; [|injection H as <-; eapply ef_grow; eauto].
    pose proof (live_putNodes _ _ _ _ ns1 L) as L1. rewrite (live_get _ _ _ _ L1) in H. cbn [dnodes] in H.
    destruct (ext_getNode _ _ _ _ X G) as (nn1 & G1 & U). rewrite G1 in H.
    rewrite (live_put _ _ _ _ _ L1), putNodes_twice in H. injection H as <-.
    apply IsObject_type in T. pose proof (ext_values _ _ _ _ _ X G G1) as (_ & V1 & T1 & _).
    eapply ef_put; eauto.
    + apply assignKey_moved.
    + apply wfnode_obj. congruence.
    + intros _ [Hx|[]]. lia.
  - (* Append *) unfold Node_Append in H. destruct vs as [|v0 vs0]; [injection H as <-; constructor|].
    remember (v0 :: vs0) as vs. clear Heqvs.
    destruct (Node_get w n) as [nn|] eqn:G; [|injection H as <-; constructor].
    apply get_live in G as (r & d & L & G). pose proof L as (En & Ed & _). rewrite En in H.
    destruct (info_IsArray (ninfo nn)) eqn:T; [|injection H as <-; constructor].
    destruct (appendIds _ _ _ _ _) as [[w1 vv]| |] eqn:Ec; try discriminate H. cbn [bind] in H.
    assert (Ew : putNodes w r (dnodes d) = w) by (apply putNodes_self; auto). rewrite <- Ew in Ec.
    apply appendIds_grow with (all := vs) (d0 := d) in Ec as (add & ns1 & -> & Gr & -> & _); auto using roots_old_refl; [|lia].
    pose proof (grow_ext _ _ _ _ _ _ _ Gr) as X.
    pose proof (live_putNodes _ _ _ _ ns1 L) as L1. rewrite (live_get _ _ _ _ L1) in H. cbn [dnodes] in H.
    destruct (ext_getNode _ _ _ _ X G) as (nn1 & G1 & U). rewrite G1 in H.
    rewrite (live_put _ _ _ _ _ L1), putNodes_twice in H. injection H as <-.
    apply IsArray_type in T. pose proof (ext_values _ _ _ _ _ X G G1) as (_ & V1 & T1 & _).
    eapply ef_put; eauto.
    + cbn [nvalues withValues]. rewrite V1, map_app, map_map. cbn [vid]. rewrite map_id. exists []. rewrite app_nil_r. reflexivity.
    + apply wfnode_arr; [congruence|]. intros u Hu. rewrite V1. apply in_app_or in Hu as [Hu|Hu]; auto.
      apply in_map_iff in Hu as (? & <- & _). auto.
    + intros M Hx. eapply grow_max; eauto.
  - (* Slice *) injection H as <-. unfold Node_Slice. destruct (Node_get w n) as [nn|] eqn:G; [|constructor].
    destruct (info_IsArray (ninfo nn)) eqn:T; cbn [andb]; [|constructor]. destruct (_ && _)%bool; [|constructor].
    apply get_live in G as (r & d & L & G). eapply effect_put; eauto.
    + destruct (slice_perm (nvalues nn) (Z.to_nat i) (Z.to_nat j)) as (rest & P). eapply moved_sub; eauto.
    + apply wfnode_arr; [apply IsArray_type; auto|]. intros u Hu. right.
      destruct (slice_perm (nvalues nn) (Z.to_nat i) (Z.to_nat j)) as (rest & P).
      eapply Permutation_in; [symmetry; exact P|]. apply in_or_app; auto.
  - (* Replace *) unfold Node_Replace in H. destruct (Node_get w n) as [nn|] eqn:G; [|injection H as <-; constructor].
    apply get_live in G as (r & d & L & G). pose proof L as (En & Ed & _). rewrite En in H.
    destruct (info_IsArray (ninfo nn)) eqn:T; [|injection H as <-; constructor].
    destruct (inRange _ _) as [k|] eqn:Ek; [|injection H as <-; constructor].
    apply inRange_some in Ek as (Hk & _).
    destruct (copyOrAdopt _ _ _ _ _) as [[w1 id]| |] eqn:Ec; try discriminate H. cbn [bind] in H.
    assert (Ew : putNodes w r (dnodes d) = w) by (apply putNodes_self; auto). rewrite <- Ew in Ec.
    apply copyOrAdopt_grow with (vals := [v]) (d0 := d) in Ec as (ns1 & -> & Gr); auto using roots_old_refl; [|lia|simpl; auto].
    pose proof (grow_ext _ _ _ _ _ _ _ Gr) as X.
    destruct (N.ltb_spec id maxUint) as [Hm|Hm]; [|injection H as <-; eapply ef_grow; eauto].
    pose proof (live_putNodes _ _ _ _ ns1 L) as L1. rewrite (live_get _ _ _ _ L1) in H. cbn [dnodes] in H.
    destruct (ext_getNode _ _ _ _ X G) as (nn1 & G1 & U). rewrite G1 in H.
    pose proof (ext_values _ _ _ _ _ X G G1) as (_ & V1 & T1 & _).
    destruct (k <? length (nvalues nn1)) eqn:Ek; [|discriminate H]. apply Nat.ltb_lt in Ek.
    rewrite (live_put _ _ _ _ _ L1), putNodes_twice in H. injection H as <-.
    apply IsArray_type in T. eapply ef_put; eauto.
    + apply replaceNth_moved; auto.
    + apply wfnode_arr; [congruence|]. intros u Hu. cbn in Hu. apply replaceNth_in in Hu as [->|]; auto.
    + intros _ [Hx|[]]. lia.
  - (* Remove *) injection H as <-. unfold Node_Remove. destruct (Node_get w n) as [nn|] eqn:G; [|constructor].
    destruct (info_IsArray (ninfo nn)) eqn:T; cbn [andb]; [|constructor].
    destruct (inRange _ _) as [k|] eqn:Ek; [|constructor]. apply inRange_some in Ek as (Hk & _).
    destruct (nth_error (nvalues nn) k) as [u|] eqn:Eu; [|apply nth_error_None in Eu; lia].
    apply removeNth_perm in Eu.
    apply get_live in G as (r & d & L & G). eapply effect_put; eauto.
    + eapply moved_sub; eauto.
    + apply wfnode_arr; [apply IsArray_type; auto|]. intros u' Hu. right.
      eapply Permutation_in; [symmetry; exact Eu|]. apply in_or_app; auto.
  - exfalso. eapply Hs; eauto.
  - (* Del *) injection H as <-. unfold Node_Del. destruct (Node_get w n) as [nn|] eqn:G; [|constructor].
    destruct (info_IsObject (ninfo nn)) eqn:T; cbn [andb]; [|constructor].
    destruct (keyIndex _ _) as [k|] eqn:Ek; [|constructor]. apply keyIndex_some in Ek as (u & Hu & _).
    apply swapRemove_perm in Hu.
    apply get_live in G as (r & d & L & G). eapply effect_put; eauto.
    + apply moved_sub with (c := [u]). rewrite Permutation_app_comm. exact Hu.
    + apply wfnode_obj; apply IsObject_type; auto.
  - injection H as <-. apply setScalar_effect. auto.
  - injection H as <-. apply setScalar_effect. auto.
  - injection H as <-. apply setScalar_effect. auto.
  - injection H as <-. apply setScalar_effect. auto.
  - injection H as <-. apply setScalar_effect. auto.
Qed.
