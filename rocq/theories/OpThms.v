(* What the mutators and accessors do to trees: C12 to C16, C20, C25. *)
From Coq Require Import Permutation.
From Verif Require Import Bytes Tables Types JsonSpec Parser LexProofs ParserProofs Doc DocSpec DocProofs ParserThms
  CopyProofs InvProofs Api OpProofs HistSpec HistProofs HistThms.

(* ---- entries as Forall2 ---- *)

Definition elem (ns : list node) (v : V) (t : jval) : Prop := vkey v = [] /\ denotes ns (vid v) t.
Definition memb (ns : list node) (v : V) (m : bytes * jval) : Prop := vkey v = fst m /\ denotes ns (vid v) (snd m).

Lemma list_F2 ns l ts : denotes_list ns l ts <-> Forall2 (elem ns) l ts.
Proof.
  split; [induction 1; constructor; auto; split; auto|]. induction 1 as [|v t l ts (K & D)]; constructor; auto.
Qed.
Lemma memb_F2 ns l ms : denotes_members ns l ms <-> Forall2 (memb ns) l ms.
Proof.
  split.
  - induction 1; constructor; auto. split; auto.
  - induction 1 as [|v [k t] l ms (K & D)]; [constructor|]. cbn in *. subst k. constructor; auto.
Qed.

Lemma F2_nth {A B} (R : A -> B -> Prop) l l' i : Forall2 R l l' ->
  match nth_error l i, nth_error l' i with Some a, Some b => R a b | None, None => True | _, _ => False end.
Proof. intro H. revert i. induction H; intros [|i]; simpl; auto. apply IHForall2. Qed.
Lemma F2_replace {A B} (R : A -> B -> Prop) l l' i x y : Forall2 R l l' -> R x y -> Forall2 R (replaceNth l i x) (replaceNth l' i y).
Proof. intros H HR. revert i. induction H; intros [|i]; simpl; constructor; auto. Qed.
Lemma F2_firstn {A B} (R : A -> B -> Prop) l l' i : Forall2 R l l' -> Forall2 R (firstn i l) (firstn i l').
Proof. intro H. revert i. induction H; intros [|i]; simpl; constructor; auto. Qed.
Lemma F2_skipn {A B} (R : A -> B -> Prop) l l' i : Forall2 R l l' -> Forall2 R (skipn i l) (skipn i l').
Proof. intro H. revert i. induction H; intros [|i]; simpl; auto. Qed.
Lemma F2_app {A B} (R : A -> B -> Prop) a b a' b' : Forall2 R a b -> Forall2 R a' b' -> Forall2 R (a ++ a') (b ++ b').
Proof. apply Forall2_app. Qed.
Lemma F2_mono {A B} (R S : A -> B -> Prop) l l' : (forall a b, In a l -> R a b -> S a b) -> Forall2 R l l' -> Forall2 S l l'.
Proof. intros HS H. induction H; constructor; auto. apply HS; simpl; auto. apply IHForall2. intros; apply HS; simpl; auto. Qed.
Lemma F2_len {A B} (R : A -> B -> Prop) l l' : Forall2 R l l' -> length l = length l'.
Proof. induction 1; simpl; auto. Qed.

Lemma denotes_obj_inv ns id ms n : denotes ns id (JObj ms) -> getNode ns id = Some n ->
  info_Type (ninfo n) = TypeObject /\ nraw n = [] /\ Forall2 (memb ns) (nvalues n) ms.
Proof. intros H G. inversion H as [| | | | | |? m ? Em Tm Rm Dm]; subst. assert (m = n) by congruence. subst. rewrite <- memb_F2. auto. Qed.
Lemma denotes_arr_inv ns id ts n : denotes ns id (JArr ts) -> getNode ns id = Some n ->
  info_Type (ninfo n) = TypeArray /\ nraw n = [] /\ Forall2 (elem ns) (nvalues n) ts.
Proof. intros H G. inversion H as [| | | | |? m ? Em Tm Rm Dm|]; subst. assert (m = n) by congruence. subst. rewrite <- list_F2. auto. Qed.

Lemma denotes_get ns id t : denotes ns id t -> exists n, getNode ns id = Some n.
Proof. intro H. apply getNode_some. eapply denotes_lt; eauto. Qed.

(* ---- replacing the entries of one node ---- *)

Lemma put_frame ns id x i t : denotes ns i t -> ~ reach ns i id -> denotes (putNode ns id x) i t.
Proof.
  intros D R. eapply frame; eauto. intros y Hy. unfold agree. rewrite getNode_put_other; auto. intros <-. auto.
Qed.

Lemma put_obj ns id x ms : (id < lenN ns)%N -> info_Type (ninfo x) = TypeObject -> nraw x = [] ->
  Forall2 (memb ns) (nvalues x) ms -> (forall v, In v (nvalues x) -> ~ reach ns (vid v) id) ->
  denotes (putNode ns id x) id (JObj ms).
Proof.
  intros L T R F N. eapply d_obj; [apply getNode_put_same; auto|auto|auto|]. apply memb_F2.
  eapply F2_mono; [|exact F]. intros v m Hv (K & D). split; auto. apply put_frame; auto.
Qed.
Lemma put_arr ns id x ts : (id < lenN ns)%N -> info_Type (ninfo x) = TypeArray -> nraw x = [] ->
  Forall2 (elem ns) (nvalues x) ts -> (forall v, In v (nvalues x) -> ~ reach ns (vid v) id) ->
  denotes (putNode ns id x) id (JArr ts).
Proof.
  intros L T R F N. eapply d_arr; [apply getNode_put_same; auto|auto|auto|]. apply list_F2.
  eapply F2_mono; [|exact F]. intros v m Hv (K & D). split; auto. apply put_frame; auto.
Qed.

Lemma assign_F2 ns k id t vs ms : Forall2 (memb ns) vs ms -> denotes ns id t ->
  Forall2 (memb ns) (assignKey k id vs) (assign k t ms).
Proof.
  intros F D. induction F as [|v [k' t'] vs ms (K & Dv) F IH]; cbn in *.
  - constructor; [split; auto|constructor].
  - rewrite K. destruct (bseqb k' k) eqn:E; constructor; auto.
    + split; auto.
    + split; auto.
Qed.

Lemma assignKey_in k id vs v : In v (assignKey k id vs) -> vid v = id \/ In v vs.
Proof.
  induction vs as [|u vs IH]; simpl.
  - intros [<-|[]]; auto.
  - destruct (bseqb (vkey u) k); simpl; intros [<-|H]; auto. apply IH in H as [|]; auto.
Qed.

(* ---- Set ---- *)

(* The id stored by copyOrAdopt denotes the value's tree and does not reach the receiver. *)
Lemma stored_tree w n r d v t : live w n r d -> (nid n < lenN (dnodes d))%N -> tree_of w v t ->
  (adopts w r (nid n) v -> ~ reach (dnodes d) (nid v) (nid n)) ->
  exists ns' id, copyOrAdopt w r (Node_Document w v) (nid v) (nid n) = Ok (putNodes w r ns', id) /\
    ext (dnodes d) ns' /\ denotes ns' id t /\ ~ reach ns' id (nid n) /\
    ((adopts w r (nid n) v /\ id = nid v) \/ (~ adopts w r (nid n) v /\ id = lenN (dnodes d))).
Proof.
  intros L Ln T S. pose proof L as (En & Ed & Er).
  destruct (copyOrAdopt_tree _ _ _ _ _ (nid n) Ed T) as (ns' & id & E & X & D & H).
  exists ns', id. repeat (split; auto). destruct H as [(A & ->)|(A & ->)].
  - intro R. apply (S A). destruct A as (Ev & _).
    destruct T as (r' & d' & E1 & E2 & E3 & Dv). assert (r' = r) by congruence. subst r'. assert (d' = d) by congruence. subst d'.
    eapply ext_reach; eauto.
  - intro R. pose proof (ext_fresh _ _ _ _ X (N.le_refl _) R). lia.
Qed.

Lemma fits_len w r d ns : fits (putNodes w r ns) -> nth_error w r = Some d -> (lenN ns <= maxUint)%N.
Proof. intros F E. apply (F r (mkDoc ns (drev d))). apply putNodes_same; auto. Qed.

Lemma IsObject_of i : info_Type i = TypeObject -> info_IsObject i = true.
Proof. intro H. unfold info_IsObject. rewrite H. reflexivity. Qed.
Lemma IsArray_of i : info_Type i = TypeArray -> info_IsArray i = true.
Proof. intro H. unfold info_IsArray. rewrite H. reflexivity. Qed.

Lemma Set_tree w n k v ms t : tree_of w n (JObj ms) -> tree_of w v t ->
  (forall r d, ndoc n = Some r -> nth_error w r = Some d -> adopts w r (nid n) v -> ~ reach (dnodes d) (nid v) (nid n)) ->
  exists w', Node_Set w n k v = Ok w' /\ (fits w' -> tree_of w' n (JObj (assign k t ms))).
Proof.
  intros T Tv S. apply tree_live in T as (r & d & L & D). pose proof L as (En & Ed & Er).
  destruct (denotes_get _ _ _ D) as (nn & G). destruct (denotes_obj_inv _ _ _ _ D G) as (Ty & Rw & F).
  destruct (stored_tree _ _ _ _ _ _ L (getNode_lt _ _ _ G) Tv (S _ _ En Ed)) as (ns' & id & Ec & X & Did & NR & _).
  unfold Node_Set. rewrite (live_get _ _ _ _ L), G, En, (IsObject_of _ Ty), Ec. cbn [bind].
  destruct (N.ltb_spec id maxUint) as [Lt|Ge].
  2: { eexists. split; [reflexivity|]. intro Fi. pose proof (fits_len _ _ _ _ Fi Ed). pose proof (denotes_lt _ _ _ Did). lia. }
  pose proof (live_putNodes _ _ _ _ ns' L) as L'.
  rewrite (live_get _ _ _ _ L'). cbn [dnodes].
  destruct (ext_getNode _ _ _ _ X G) as (n1 & G1 & _). rewrite G1.
  pose proof (ext_values _ _ _ _ _ X G G1) as (_ & Ev & Et & Ew).
  eexists. split; [reflexivity|]. intros _. rewrite (live_put _ _ _ _ _ L'), putNodes_twice. cbn [dnodes].
  apply tree_live. exists r, (mkDoc (putNode ns' (nid n) (withValues n1 (assignKey k id (nvalues n1)))) (drev d)).
  split; [apply live_putNodes; auto|]. cbn [dnodes].
  pose proof (ext_denotes _ _ _ _ X D) as D1.
  pose proof (denotes_obj_inv _ _ _ _ D1 G1) as (_ & _ & F1).
  apply put_obj; cbn [ninfo nraw nvalues withValues]; try congruence.
  - eapply getNode_lt; eauto.
  - apply assign_F2; auto.
  - intros u Hu. apply assignKey_in in Hu as [->|Hu]; auto. eapply child_not_reach; eauto.
Qed.

(* Ordered map facts about assign. *)
Lemma assign_same {A} k (x : A) l : assoc k (assign k x l) = Some x.
Proof.
  induction l as [|[k' y] l IH]; cbn.
  - rewrite bseqb_refl. auto.
  - destruct (bseqb k' k) eqn:E; cbn.
    + apply bseqb_true in E. subst. rewrite bseqb_refl. auto.
    + replace (bseqb k k') with false; auto. symmetry. apply bseqb_false. intros ->. rewrite bseqb_refl in E. discriminate.
Qed.
Lemma assign_other {A} k k' (x : A) l : k' <> k -> assoc k' (assign k x l) = assoc k' l.
Proof.
  intro H. induction l as [|[j y] l IH]; cbn.
  - replace (bseqb k' k) with false; auto. symmetry. apply bseqb_false. auto.
  - destruct (bseqb j k) eqn:E; cbn.
    + apply bseqb_true in E. subst. replace (bseqb k' k) with false; auto. symmetry. apply bseqb_false. auto.
    + rewrite IH. auto.
Qed.
Lemma assign_keys_in {A} k (x : A) l : In k (map fst l) -> map fst (assign k x l) = map fst l.
Proof.
  induction l as [|[j y] l IH]; cbn; [tauto|]. destruct (bseqb j k) eqn:E; cbn; auto.
  intros [->|H]; [rewrite bseqb_refl in E; discriminate|]. f_equal. auto.
Qed.
Lemma assign_keys_new {A} k (x : A) l : ~ In k (map fst l) -> assign k x l = l ++ [(k, x)].
Proof.
  induction l as [|[j y] l IH]; cbn; auto. intro H. destruct (bseqb j k) eqn:E; cbn.
  - apply bseqb_true in E. tauto.
  - f_equal. auto.
Qed.
Lemma assoc_none {A} k (l : list (bytes * A)) : assoc k l = None <-> ~ In k (map fst l).
Proof.
  induction l as [|[j y] l IH]; cbn; [tauto|]. destruct (bseqb k j) eqn:E.
  - apply bseqb_true in E. subst. split; [discriminate|tauto].
  - rewrite IH. split; [|tauto]. intros H [->|X]; auto. rewrite bseqb_refl in E. discriminate.
Qed.

(* ---- Get and Index ---- *)

Lemma max_absent w n : fits w -> absent w (Node_With n maxUint).
Proof.
  intro F. unfold absent, Node_get, Node_With. cbn. destruct (ndoc n) as [r|]; auto. cbn.
  destruct (nth_error w r) as [d|] eqn:E; auto. destruct (drev d =? nrev n)%N; auto. apply getNode_none. eapply F; eauto.
Qed.

Lemma findKey_split key vs : match findKey key vs with
  | Some v => exists a b, vs = a ++ v :: b /\ vkey v = key /\ ~ In key (map vkey a)
  | None => ~ In key (map vkey vs) end.
Proof.
  induction vs as [|u vs IH]; cbn; [tauto|]. destruct (bseqb key (vkey u)) eqn:E.
  - apply bseqb_true in E. exists [], vs. subst. auto.
  - assert (Hne : vkey u <> key) by (intros <-; rewrite bseqb_refl in E; discriminate).
    destruct (findKey key vs) as [v|].
    + destruct IH as (a & b & -> & <- & H). exists (u :: a), b. split; auto. split; auto. cbn. tauto.
    + tauto.
Qed.

Lemma findKey_first key a v b : vkey v = key -> ~ In key (map vkey a) -> findKey key (a ++ v :: b) = Some v.
Proof.
  intros K. induction a as [|u a IH]; cbn; intro H.
  - rewrite K, bseqb_refl. auto.
  - replace (bseqb key (vkey u)) with false; auto. symmetry. apply bseqb_false. intuition.
Qed.

Lemma Get_first w n nn k a v b : Node_get w n = Some nn -> info_Type (ninfo nn) = TypeObject ->
  nvalues nn = a ++ v :: b -> vkey v = k -> ~ In k (map vkey a) -> Node_Get w n k = Node_With n (vid v).
Proof. intros G T E K H. unfold Node_Get. rewrite G, (IsObject_of _ T), E, findKey_first; auto. Qed.

Lemma Get_absent w n k : fits w ->
  (forall nn, Node_get w n = Some nn -> info_Type (ninfo nn) = TypeObject -> ~ In k (map vkey (nvalues nn))) ->
  absent w (Node_Get w n k).
Proof.
  intros F H. unfold Node_Get. destruct (Node_get w n) as [nn|] eqn:G; [|apply max_absent; auto].
  destruct (info_IsObject (ninfo nn)) eqn:E; [|apply max_absent; auto].
  pose proof (findKey_split k (nvalues nn)) as S. destruct (findKey k (nvalues nn)) as [v|]; [|apply max_absent; auto].
  destruct S as (a & b & Ev & K & _). exfalso. eapply H; eauto; [apply IsObject_type; auto|].
  rewrite Ev, map_app, <- K. apply in_or_app. cbn. auto.
Qed.

Lemma F2_assoc ns vs ms k : Forall2 (memb ns) vs ms ->
  match findKey k vs, assoc k ms with Some v, Some t => denotes ns (vid v) t | None, None => True | _, _ => False end.
Proof.
  induction 1 as [|v [k' t] vs ms (K & D) F IH]; cbn in *; auto. rewrite K. destruct (bseqb k k'); auto.
Qed.

Lemma Get_tree w n k ms : tree_of w n (JObj ms) -> fits w ->
  match assoc k ms with Some t => tree_of w (Node_Get w n k) t | None => absent w (Node_Get w n k) end.
Proof.
  intros T Fi. apply tree_live in T as (r & d & L & D). destruct (denotes_get _ _ _ D) as (nn & G).
  destruct (denotes_obj_inv _ _ _ _ D G) as (Ty & _ & F). unfold Node_Get.
  rewrite (live_get _ _ _ _ L), G, (IsObject_of _ Ty). pose proof (F2_assoc _ _ _ k F) as H.
  destruct (findKey k (nvalues nn)) as [v|], (assoc k ms) as [t|]; try contradiction.
  - apply tree_live. exists r, d. split; auto.
  - apply max_absent; auto.
Qed.

Lemma inRange_of k len : k < len -> inRange (Z.of_nat k) len = Some k.
Proof. intro H. unfold inRange. destruct (Z.leb_spec 0 (Z.of_nat k)), (Z.ltb_spec (Z.of_nat k) (Z.of_nat len)); try lia. cbn. f_equal. lia. Qed.
Lemma inRange_Z i len : (0 <= i < Z.of_nat len)%Z -> inRange i len = Some (Z.to_nat i).
Proof. intro H. unfold inRange. destruct (Z.leb_spec 0 i), (Z.ltb_spec i (Z.of_nat len)); try lia. auto. Qed.
Lemma inRange_out i len : (i < 0 \/ Z.of_nat len <= i)%Z -> inRange i len = None.
Proof. intro H. unfold inRange. destruct (Z.leb_spec 0 i), (Z.ltb_spec i (Z.of_nat len)); try lia; auto. Qed.
Lemma inRange_cases i len : (exists k, i = Z.of_nat k /\ k < len /\ inRange i len = Some k) \/
  ((i < 0 \/ Z.of_nat len <= i)%Z /\ inRange i len = None).
Proof.
  destruct (Z.ltb_spec i 0); [right; split; [lia|apply inRange_out; lia]|].
  destruct (Z.ltb_spec i (Z.of_nat len)); [|right; split; [lia|apply inRange_out; lia]].
  left. exists (Z.to_nat i). assert (i = Z.of_nat (Z.to_nat i)) by lia. repeat split; auto; [lia|].
  rewrite H1 at 1. apply inRange_of. lia.
Qed.

Lemma Index_tree w n i ts : tree_of w n (JArr ts) ->
  (forall t, (0 <= i)%Z -> nth_error ts (Z.to_nat i) = Some t -> tree_of w (Node_Index w n i) t) /\
  ((i < 0 \/ Z.of_nat (length ts) <= i)%Z -> fits w -> absent w (Node_Index w n i)).
Proof.
  intros T. apply tree_live in T as (r & d & L & D). destruct (denotes_get _ _ _ D) as (nn & G).
  destruct (denotes_arr_inv _ _ _ _ D G) as (Ty & _ & F). pose proof (F2_len _ _ _ F) as Le. unfold Node_Index.
  rewrite (live_get _ _ _ _ L), G, (IsArray_of _ Ty). split.
  - intros t Hi Ht. pose proof (nth_error_lt _ _ _ Ht). rewrite inRange_Z by lia.
    pose proof (F2_nth _ _ _ (Z.to_nat i) F) as HH. rewrite Ht in HH.
    destruct (nth_error (nvalues nn) (Z.to_nat i)) as [v|]; [|contradiction]. destruct HH as (_ & HH).
    apply tree_live. exists r, d. split; auto.
  - intros Hi Fi. rewrite inRange_out by lia. apply max_absent; auto.
Qed.

Lemma Index_notarray w n i : fits w -> (forall nn, Node_get w n = Some nn -> info_Type (ninfo nn) <> TypeArray) ->
  absent w (Node_Index w n i).
Proof.
  intros F H. unfold Node_Index. destruct (Node_get w n) as [nn|]; [|apply max_absent; auto].
  destruct (info_IsArray (ninfo nn)) eqn:E; [|apply max_absent; auto]. exfalso. eapply H; eauto. apply IsArray_type; auto.
Qed.

(* ---- Append ---- *)

Lemma tree_ext w r d ns v t : nth_error w r = Some d -> ext (dnodes d) ns -> tree_of w v t -> tree_of (putNodes w r ns) v t.
Proof. intros E X T. eapply tree_putNodes; eauto. intros _ D. eapply ext_denotes; eauto. Qed.

Lemma adopts_back w r d to ns v t : nth_error w r = Some d -> tree_of w v t -> roots_old (lenN (dnodes d)) (dnodes d) ns ->
  adopts (putNodes w r ns) r to v -> adopts w r to v.
Proof.
  intros E (r' & d' & E1 & E2 & E3 & D) Ro (Ev & x & G & R & Z & T). assert (r' = r) by congruence. subst r'. assert (d' = d) by congruence. subst d'.
  split; auto. assert (L : live w v r d) by (split; auto).
  rewrite (live_get _ _ _ _ (live_putNodes _ _ _ _ ns L)) in G. cbn [dnodes] in G.
  destruct (Ro _ x (denotes_lt _ _ _ D) G R) as (y & Gy & Ry).
  exists y. split; auto. rewrite (live_get _ _ _ _ L). auto.
Qed.

Lemma ext_roots w r d v to ns' id n0 :
  nth_error w r = Some d -> In v n0 -> copyOrAdopt w r (Node_Document w v) (nid v) to = Ok (putNodes w r ns', id) ->
  forall L, (L <= lenN (dnodes d))%N -> roots_old L (dnodes d) ns'.
Proof.
  intros E Hin H L HL.
  assert (E1 : putNodes w r (dnodes d) = w) by (apply putNodes_self; auto).
  rewrite <- E1 in H at 1 2.
  pose proof (copyOrAdopt_grow w r d (dnodes d) n0 v to (putNodes w r ns') id E (roots_old_refl _ _) (N.le_refl _) Hin H) as (ns1 & Ew & Gr).
  assert (ns1 = ns').
  { pose proof (putNodes_same w r ns' d E) as P1. rewrite Ew in P1. rewrite (putNodes_same w r ns1 d E) in P1. congruence. }
  subst. eapply grow_roots; eauto.
Qed.

Lemma appendIds_tree w r d to vs ts : nth_error w r = Some d -> Forall2 (tree_of w) vs ts ->
  forall ns vv, ext (dnodes d) ns -> roots_old (lenN (dnodes d)) (dnodes d) ns ->
  exists ns' add, appendIds (putNodes w r ns) r to vs vv = Ok (putNodes w r ns', vv ++ map (fun id => mkV id []) add) /\
    ext ns ns' /\ Forall2 (denotes ns') add ts /\
    (forall id, In id add -> (lenN (dnodes d) <= id)%N \/ exists v t, In v vs /\ adopts w r to v /\ nid v = id /\ tree_of w v t).
Proof.
  intros E F. induction F as [|v t vs ts T F IH]; intros ns vv X Ro; cbn [appendIds].
  - exists ns, []. rewrite app_nil_r. split; auto. split; [apply ext_refl|]. split; [constructor|intros ? []].
  - pose proof (putNodes_same _ _ ns _ E) as E1.
    destruct (copyOrAdopt_tree _ _ _ _ _ to E1 (tree_ext _ _ _ _ _ _ E X T)) as (ns1 & id & Ec & X1 & D1 & Hid).
    cbn [dnodes] in X1. rewrite putNodes_twice in Ec.
    rewrite Ec. cbn [bind].
    assert (Ro1 : roots_old (lenN (dnodes d)) ns ns1).
    { pose proof (ext_roots (putNodes w r ns) r _ v to ns1 id [v] E1 (or_introl eq_refl)) as K.
      rewrite putNodes_twice in K. apply K; auto. cbn. eapply ext_len; eauto. }
    destruct (IH ns1 (vv ++ [mkV id []])) as (ns2 & add & Ea & X2 & F2 & Ha).
    { eapply ext_trans; eauto. }
    { eapply roots_old_trans; eauto. }
    exists ns2, (id :: add). split; [rewrite Ea; cbn; rewrite <- app_assoc; reflexivity|].
    split; [eapply ext_trans; eauto|]. split; [constructor; auto; eapply ext_denotes; eauto|].
    intros j [<-|Hj].
    + destruct Hid as [(A & ->)|(A & ->)].
      * right. exists v, t. split; [simpl; auto|]. split; [eapply adopts_back; eauto|]. auto.
      * left. cbn [dnodes]. eapply ext_len; eauto.
    + destruct (Ha _ Hj) as [|(u & tu & Hu & ?)]; auto. right. exists u, tu. split; [simpl; auto|auto].
Qed.

Lemma Append_tree w n vs ts ts0 : tree_of w n (JArr ts0) -> Forall2 (tree_of w) vs ts ->
  (forall v r d, In v vs -> ndoc n = Some r -> nth_error w r = Some d -> adopts w r (nid n) v -> ~ reach (dnodes d) (nid v) (nid n)) ->
  exists w', Node_Append w n vs = Ok w' /\ tree_of w' n (JArr (ts0 ++ ts)).
Proof.
  intros T Tv S. unfold Node_Append. destruct vs as [|v0 vs0].
  { inversion Tv; subst. rewrite app_nil_r. eauto. }
  remember (v0 :: vs0) as vs. clear Heqvs.
  apply tree_live in T as (r & d & L & D). pose proof L as (En & Ed & Er).
  destruct (denotes_get _ _ _ D) as (nn & G). destruct (denotes_arr_inv _ _ _ _ D G) as (Ty & Rw & F).
  rewrite (live_get _ _ _ _ L), G, En, (IsArray_of _ Ty).
  destruct (appendIds_tree w r d (nid n) vs ts Ed Tv (dnodes d) (nvalues nn) (ext_refl _) (roots_old_refl _ _)) as (ns' & add & Ea & X & Fa & Ha).
  rewrite putNodes_self in Ea by auto. rewrite Ea. cbn [bind].
  pose proof (live_putNodes _ _ _ _ ns' L) as L'. rewrite (live_get _ _ _ _ L'). cbn [dnodes].
  destruct (ext_getNode _ _ _ _ X G) as (n1 & G1 & _). rewrite G1.
  pose proof (ext_values _ _ _ _ _ X G G1) as (_ & Ev & Et & Ew).
  eexists. split; [reflexivity|]. rewrite (live_put _ _ _ _ _ L'), putNodes_twice. cbn [dnodes].
  apply tree_live. eexists r, (mkDoc _ (drev d)). split; [apply live_putNodes; eauto|]. cbn [dnodes].
  pose proof (ext_denotes _ _ _ _ X D) as D1.
  pose proof (denotes_arr_inv _ _ _ _ D1 G1) as (_ & _ & F1).
  apply put_arr; cbn [ninfo nraw nvalues withValues]; try congruence.
  - eapply getNode_lt; eauto.
  - apply F2_app; [rewrite <- Ev; auto|]. clear - Fa. induction Fa; constructor; auto. split; auto.
  - intros u Hu. apply in_app_or in Hu as [Hu|Hu].
    + eapply child_not_reach; eauto. rewrite Ev; auto.
    + apply in_map_iff in Hu as (id & <- & Hid). cbn [vid]. destruct (Ha _ Hid) as [Hf|(v & t & Hv & A & <- & (r' & d' & E1 & E2 & E3 & Dv))].
      * intro R. pose proof (ext_fresh _ _ _ _ X Hf R). pose proof (getNode_lt _ _ _ G). lia.
      * intro R. pose proof A as (Ev' & _). assert (r' = r) by congruence. subst r'. assert (d' = d) by congruence. subst d'.
        eapply S; eauto. eapply ext_reach; eauto.
Qed.

(* ---- Replace ---- *)

Lemma Replace_tree w n i v ts t : tree_of w n (JArr ts) -> tree_of w v t -> (0 <= i < Z.of_nat (length ts))%Z ->
  (forall r d, ndoc n = Some r -> nth_error w r = Some d -> adopts w r (nid n) v -> ~ reach (dnodes d) (nid v) (nid n)) ->
  exists w', Node_Replace w n i v = Ok w' /\ (fits w' -> tree_of w' n (JArr (replaceNth ts (Z.to_nat i) t))).
Proof.
  intros T Tv Hi S. apply tree_live in T as (r & d & L & D). pose proof L as (En & Ed & Er).
  destruct (denotes_get _ _ _ D) as (nn & G). destruct (denotes_arr_inv _ _ _ _ D G) as (Ty & Rw & F).
  pose proof (F2_len _ _ _ F) as Le.
  destruct (stored_tree _ _ _ _ _ _ L (getNode_lt _ _ _ G) Tv (S _ _ En Ed)) as (ns' & id & Ec & X & Did & NR & _).
  unfold Node_Replace. rewrite (live_get _ _ _ _ L), G, En, (IsArray_of _ Ty), Ec.
  rewrite inRange_Z by lia. cbn [bind].
  destruct (N.ltb_spec id maxUint) as [Lt|Ge].
  2: { eexists. split; [reflexivity|]. intro Fi. pose proof (fits_len _ _ _ _ Fi Ed). pose proof (denotes_lt _ _ _ Did). lia. }
  pose proof (live_putNodes _ _ _ _ ns' L) as L'.
  rewrite (live_get _ _ _ _ L'). cbn [dnodes].
  destruct (ext_getNode _ _ _ _ X G) as (n1 & G1 & _). rewrite G1.
  pose proof (ext_values _ _ _ _ _ X G G1) as (_ & Ev & Et & Ew). rewrite Ev.
  replace (Z.to_nat i <? length (nvalues nn)) with true by (symmetry; apply Nat.ltb_lt; lia).
  eexists. split; [reflexivity|]. intros _. rewrite (live_put _ _ _ _ _ L'), putNodes_twice. cbn [dnodes].
  apply tree_live. eexists r, (mkDoc _ (drev d)). split; [apply live_putNodes; eauto|]. cbn [dnodes].
  pose proof (ext_denotes _ _ _ _ X D) as D1.
  pose proof (denotes_arr_inv _ _ _ _ D1 G1) as (_ & _ & F1). rewrite Ev in F1.
  apply put_arr; cbn [ninfo nraw nvalues withValues]; try congruence.
  - eapply getNode_lt; eauto.
  - apply F2_replace; auto. split; auto.
  - intros u Hu. apply replaceNth_in in Hu as [->|Hu]; auto. eapply child_not_reach; eauto. rewrite Ev; auto.
Qed.

Lemma Replace_out w n i v ts : tree_of w n (JArr ts) -> (i < 0 \/ Z.of_nat (length ts) <= i)%Z -> Node_Replace w n i v = Ok w.
Proof.
  intros T Hi. apply tree_live in T as (r & d & L & D). pose proof L as (En & Ed & Er).
  destruct (denotes_get _ _ _ D) as (nn & G). destruct (denotes_arr_inv _ _ _ _ D G) as (Ty & Rw & F).
  pose proof (F2_len _ _ _ F) as Le. unfold Node_Replace. rewrite (live_get _ _ _ _ L), G, En, (IsArray_of _ Ty).
  rewrite inRange_out by lia. auto.
Qed.

(* ---- operations that only rearrange the entries ---- *)

Lemma rearr_arr w n r d nn x ts' : live w n r d -> (exists t, denotes (dnodes d) (nid n) t) -> getNode (dnodes d) (nid n) = Some nn ->
  info_Type (ninfo x) = TypeArray -> nraw x = [] ->
  (forall v, In v (nvalues x) -> In v (nvalues nn)) -> Forall2 (elem (dnodes d)) (nvalues x) ts' ->
  tree_of (Node_put w n x) n (JArr ts').
Proof.
  intros L (t & D) G T R I F. rewrite (live_put _ _ _ _ _ L). apply tree_live. eexists r, (mkDoc _ (drev d)).
  split; [apply live_putNodes; auto|]. cbn [dnodes]. apply put_arr; auto.
  - eapply getNode_lt; eauto.
  - intros v Hv. eapply child_not_reach; eauto.
Qed.
Lemma rearr_obj w n r d nn x ms' : live w n r d -> (exists t, denotes (dnodes d) (nid n) t) -> getNode (dnodes d) (nid n) = Some nn ->
  info_Type (ninfo x) = TypeObject -> nraw x = [] ->
  (forall v, In v (nvalues x) -> In v (nvalues nn)) -> Forall2 (memb (dnodes d)) (nvalues x) ms' ->
  tree_of (Node_put w n x) n (JObj ms').
Proof.
  intros L (t & D) G T R I F. rewrite (live_put _ _ _ _ _ L). apply tree_live. eexists r, (mkDoc _ (drev d)).
  split; [apply live_putNodes; auto|]. cbn [dnodes]. apply put_obj; auto.
  - eapply getNode_lt; eauto.
  - intros v Hv. eapply child_not_reach; eauto.
Qed.

Lemma in_skipn {A} (x : A) i l : In x (skipn i l) -> In x l.
Proof. intro H. rewrite <- (firstn_skipn i l). apply in_or_app; auto. Qed.
Lemma in_firstn {A} (x : A) i l : In x (firstn i l) -> In x l.
Proof. intro H. rewrite <- (firstn_skipn i l). apply in_or_app; auto. Qed.

Lemma Remove_tree w n i ts : tree_of w n (JArr ts) ->
  ((0 <= i < Z.of_nat (length ts))%Z ->
     tree_of (Node_Remove w n i) n (JArr (firstn (Z.to_nat i) ts ++ skipn (S (Z.to_nat i)) ts))) /\
  ((i < 0 \/ Z.of_nat (length ts) <= i)%Z -> Node_Remove w n i = w).
Proof.
  intros T. apply tree_live in T as (r & d & L & D). pose proof L as (En & Ed & Er).
  destruct (denotes_get _ _ _ D) as (nn & G). destruct (denotes_arr_inv _ _ _ _ D G) as (Ty & Rw & F).
  pose proof (F2_len _ _ _ F) as Le. unfold Node_Remove. rewrite (live_get _ _ _ _ L), G, (IsArray_of _ Ty). split; intro Hi.
  - rewrite inRange_Z by lia.
    eapply rearr_arr; eauto; cbn [nvalues withValues].
    + unfold removeNth. intros v Hv. apply in_app_or in Hv as [Hv|Hv]; [eapply in_firstn|eapply in_skipn]; eauto.
    + apply F2_app; [apply F2_firstn|apply F2_skipn]; auto.
  - rewrite inRange_out by lia. auto.
Qed.

Lemma Slice_tree w n i j ts : tree_of w n (JArr ts) ->
  ((0 <= i < j)%Z -> (j < Z.of_nat (length ts))%Z ->
     tree_of (Node_Slice w n i j) n (JArr (firstn (Z.to_nat j - Z.to_nat i) (skipn (Z.to_nat i) ts)))) /\
  (~ ((0 <= i < j)%Z /\ (j < Z.of_nat (length ts))%Z) -> Node_Slice w n i j = w).
Proof.
  intros T. apply tree_live in T as (r & d & L & D). pose proof L as (En & Ed & Er).
  destruct (denotes_get _ _ _ D) as (nn & G). destruct (denotes_arr_inv _ _ _ _ D G) as (Ty & Rw & F).
  pose proof (F2_len _ _ _ F) as Le. unfold Node_Slice. rewrite (live_get _ _ _ _ L), G, (IsArray_of _ Ty), Le. cbn [andb]. split.
  - intros Hi Hj. replace ((0 <=? i)%Z && (i <? j)%Z && (j <? Z.of_nat (length ts))%Z) with true by (symmetry; rewrite !andb_true_iff; lia).
    eapply rearr_arr; eauto; cbn [nvalues withValues].
    + intros v Hv. eapply in_firstn, in_skipn; eauto.
    + rewrite <- skipn_firstn_comm. replace (Z.to_nat i + (Z.to_nat j - Z.to_nat i)) with (Z.to_nat j) by lia.
      apply F2_skipn, F2_firstn; auto.
  - intros Hn. replace ((0 <=? i)%Z && (i <? j)%Z && (j <? Z.of_nat (length ts))%Z) with false; auto.
    symmetry. apply not_true_is_false. rewrite !andb_true_iff. intro. apply Hn. lia.
Qed.

(* ---- Del ---- *)

Lemma app_inj_length {A} (a a' b b' : list A) : length a = length a' -> a ++ b = a' ++ b' -> a = a' /\ b = b'.
Proof. revert a'. induction a as [|x a IH]; intros [|y a']; cbn; try discriminate; auto. injection 1 as H. injection 1 as -> E. apply IH in E as (-> & ->); auto. Qed.

Lemma plug_nil {A} (a : list A) : plug a [] = a. Proof. apply app_nil_r. Qed.
Lemma plug_snoc {A} (a b : list A) x : plug a (b ++ [x]) = a ++ x :: b.
Proof. unfold plug, tailswap. rewrite rev_app_distr. cbn. rewrite removelast_last. reflexivity. Qed.

Lemma plug_perm {A} (a b : list A) : Permutation (a ++ b) (plug a b).
Proof.
  destruct b as [|x b _] using rev_ind; [rewrite plug_nil, app_nil_r; auto|]. rewrite plug_snoc.
  apply Permutation_app_head. symmetry. apply Permutation_cons_append.
Qed.

Lemma swapRemove_plug a v b : swapRemove (a ++ v :: b) (length a) = plug a b.
Proof.
  unfold swapRemove. rewrite replaceNth_app. destruct b as [|x b _] using rev_ind.
  - rewrite plug_nil, removelast_last. auto.
  - rewrite plug_snoc. change (v :: b ++ [x]) with ((v :: b) ++ [x]). rewrite app_assoc, last_last.
    change (x :: b ++ [x]) with ((x :: b) ++ [x]). rewrite app_assoc, removelast_last. auto.
Qed.

Lemma keyIndex_split k vs : match keyIndex k vs with
  | Some i => exists a v b, vs = a ++ v :: b /\ length a = i /\ vkey v = k /\ ~ In k (map vkey a)
  | None => ~ In k (map vkey vs) end.
Proof.
  induction vs as [|u vs IH]; cbn; [tauto|]. destruct (bseqb (vkey u) k) eqn:E.
  - apply bseqb_true in E. exists [], u, vs. auto.
  - assert (Hne : vkey u <> k) by (intros <-; rewrite bseqb_refl in E; discriminate).
    destruct (keyIndex k vs) as [i|]; cbn.
    + destruct IH as (a & v & b & -> & <- & <- & H). exists (u :: a), v, b. cbn. intuition.
    + tauto.
Qed.

Lemma F2_plug {A B} (R : A -> B -> Prop) a b a' b' : Forall2 R a a' -> Forall2 R b b' -> Forall2 R (plug a b) (plug a' b').
Proof.
  intros Ha Hb. destruct b as [|x b _] using rev_ind.
  - inversion Hb; subst. rewrite !plug_nil. auto.
  - apply Forall2_app_inv_l in Hb as (b1 & b2 & Hb1 & Hb2 & ->). inversion Hb2 as [|? y ? ? Hxy Hn]; subst. inversion Hn; subst.
    rewrite !plug_snoc. apply F2_app; auto.
Qed.

Lemma memb_keys ns vs ms : Forall2 (memb ns) vs ms -> map vkey vs = map fst ms.
Proof. induction 1 as [|v m vs ms (K & _)]; cbn; congruence. Qed.

Lemma Del_tree w n k ms : tree_of w n (JObj ms) ->
  (forall a t b, ms = a ++ (k, t) :: b -> ~ In k (map fst a) -> tree_of (Node_Del w n k) n (JObj (plug a b))) /\
  (~ In k (map fst ms) -> Node_Del w n k = w).
Proof.
  intros T. apply tree_live in T as (r & d & L & D). pose proof L as (En & Ed & Er).
  destruct (denotes_get _ _ _ D) as (nn & G). destruct (denotes_obj_inv _ _ _ _ D G) as (Ty & Rw & F).
  unfold Node_Del. rewrite (live_get _ _ _ _ L), G, (IsObject_of _ Ty). pose proof (keyIndex_split k (nvalues nn)) as S.
  pose proof (memb_keys _ _ _ F) as Ks.
  destruct (keyIndex k (nvalues nn)) as [i|].
  - destruct S as (a & v & b & Ev & <- & Kv & Ha). split.
    + intros a' t b' Em Ha'. rewrite Ev, Em in F.
      apply Forall2_app_inv_l in F as (a1 & x1 & Fa & Fx & E1). inversion Fx as [|? m1 ? b1 Mv Fb]; subst.
      assert (Hl : length a1 = length a').
      { pose proof (memb_keys _ _ _ Fa) as Ka. destruct Mv as (Mv & _).
        destruct (Nat.lt_trichotomy (length a1) (length a')) as [Hl|[Hl|Hl]]; auto; exfalso.
        - apply Ha'. apply (f_equal (fun l => nth_error l (length a1))) in E1. rewrite nth_error_app1 in E1 by auto.
          rewrite nth_error_app2, Nat.sub_diag in E1 by auto. cbn in E1. apply nth_error_In in E1. apply (in_map fst) in E1. rewrite <- Mv in E1. exact E1.
        - apply Ha. rewrite Ka. apply (f_equal (fun l => nth_error l (length a'))) in E1.
          rewrite nth_error_app2, Nat.sub_diag in E1 by auto. rewrite nth_error_app1 in E1 by auto. cbn in E1. symmetry in E1.
          apply nth_error_In in E1. apply (in_map fst) in E1. exact E1. }
      apply app_inj_length in E1 as (<- & E1); auto. injection E1 as E1 E2; subst.
      rewrite Ev, swapRemove_plug. eapply rearr_obj; eauto; cbn [nvalues withValues].
      * intros u Hu. apply (Permutation_in _ (Permutation_sym (plug_perm _ _))) in Hu. rewrite Ev. apply in_or_app. cbn. apply in_app_or in Hu. tauto.
      * apply F2_plug; auto.
    + intro H. exfalso. apply H. rewrite <- Ks, Ev, map_app, <- Kv. apply in_or_app. cbn. auto.
  - split; auto. intros a t b -> _. exfalso. apply S. rewrite Ks, map_app. apply in_or_app. cbn. auto.
Qed.

(* ---- scalar setters ---- *)

Lemma setScalar_tree w n info raw x : Node_get w n = Some x ->
  exists r d, live w n r d /\ setScalar w n info raw = putNodes w r (putNode (dnodes d) (nid n) (mkNode (N.lor info (info_Flags (ninfo x))) raw [])) /\
    (nid n < lenN (dnodes d))%N.
Proof.
  intro G. pose proof G as G'. apply get_live in G as (r & d & L & G). exists r, d. split; auto.
  unfold setScalar. rewrite G', (live_put _ _ _ _ _ L). split; auto. eapply getNode_lt; eauto.
Qed.

Definition scalar_info (t : jval) : option (N * bytes) :=
  match t with
  | JStr s => Some (vString, s) | JNum s => Some (vNumber, s)
  | JTrue => Some (vBoolean, strTrue) | JFalse => Some (vBoolean, strFalse) | JNull => Some (vNull, strNull)
  | _ => None
  end.

Lemma setScalar_denotes w n x t info raw : Node_get w n = Some x -> scalar_info t = Some (info, raw) ->
  tree_of (setScalar w n info raw) n t.
Proof.
  intros G S. destruct (setScalar_tree w n info raw x G) as (r & d & L & -> & Lt). apply tree_live.
  eexists r, (mkDoc _ (drev d)). split; [apply live_putNodes; auto|]. cbn [dnodes].
  pose proof (getNode_put_same (dnodes d) (nid n) (mkNode (N.lor info (info_Flags (ninfo x))) raw []) Lt) as P.
  destruct t; cbn in S; try discriminate; injection S as <- <-.
  - eapply d_str in P; cbn [ninfo nraw nvalues] in *; auto. apply info_Type_or_flags. cbn; auto 10.
  - eapply d_num in P; cbn [ninfo nraw nvalues] in *; auto. apply info_Type_or_flags. cbn; auto 10.
  - eapply d_true in P; cbn [ninfo nraw nvalues] in *; auto. apply info_Type_or_flags. cbn; auto 10.
  - eapply d_false in P; cbn [ninfo nraw nvalues] in *; auto. apply info_Type_or_flags. cbn; auto 10.
  - eapply d_null in P; cbn [ninfo nraw nvalues] in *; auto. apply info_Type_or_flags. cbn; auto 10.
Qed.

(* Nothing but the node itself changes. *)
Lemma setScalar_others w n info raw m : (ndoc m, nid m) <> (ndoc n, nid n) -> Node_get (setScalar w n info raw) m = Node_get w m.
Proof.
  intros H. unfold setScalar. destruct (Node_get w n) as [x|] eqn:G; auto.
  apply get_live in G as (r & d & L & G). rewrite (live_put _ _ _ _ _ L). pose proof L as (En & Ed & Er).
  unfold Node_get. destruct (ndoc m) as [r'|] eqn:Em; auto. cbn. destruct (Nat.eq_dec r r') as [<-|Hr].
  - rewrite (putNodes_same _ _ _ _ Ed), Ed. cbn. destruct (drev d =? nrev m)%N; auto. apply getNode_put_other.
    intro E. apply H. congruence.
  - rewrite putNodes_other; auto.
Qed.
