(* copyOrAdopt and the mutators on memory. *)
From Coq Require Import Lia.
From Verif Require Import Bytes Tables Types JsonSpec Parser ParserProofs ParserThms Doc DocProofs CopyProofs Api
  Mem MemSpec MemHeap MemEff MemParse MemCopy MemInv MemOps.

(* ---- slices ---- *)
Lemma sread_sfrom : forall h s i, sread h (sfrom s i) = skipn i (sread h s).
Proof.
  intros h s i. unfold sread. simpl. destruct (sarr s); [|symmetry; apply skipn_nil].
  apply nth_error_ext. intro j. rewrite nth_error_firstn, !nth_error_skipn, nth_error_firstn, nth_error_skipn.
  rewrite <- Nat.add_assoc. destruct (Nat.ltb_spec j (slen s - i)); destruct (Nat.ltb_spec (i + j) (slen s)); auto; lia.
Qed.
Lemma inb_sto : forall h s j, inb h s -> j <= slen s -> inb h (sto s j).
Proof. intros h s j H L. unfold inb in *. simpl. destruct (sarr s); lia. Qed.
Lemma inb_sfrom : forall h s i, inb h s -> i <= slen s -> inb h (sfrom s i).
Proof. intros h s i H L. unfold inb in *. simpl. destruct (sarr s); lia. Qed.

Lemma overwrite_one : forall (l : list V) i v, i < length l -> overwrite l i [v] = replaceNth l i v.
Proof.
  intros l i v L. apply nth_error_ext. intro j. rewrite overwrite_nth, nth_error_replaceNth. simpl length.
  destruct (Nat.leb_spec i j); destruct (Nat.ltb_spec j (i + 1)); destruct (Nat.ltb_spec j (length l));
    destruct (Nat.eqb_spec i j); destruct (Nat.ltb_spec i (length l)); simpl; try lia; try reflexivity.
  subst. rewrite Nat.sub_diag. reflexivity.
Qed.
Lemma sread_wput : forall h s i v, inb h s -> i < slen s -> sread (wput h s i v) s = replaceNth (sread h s) i v.
Proof.
  intros h s i v Hb L. unfold wput. rewrite sread_wset_from by (auto; simpl; lia).
  apply overwrite_one. rewrite sread_length; assumption.
Qed.
Lemma sread_drop : forall h s v, sread (wput h s (slen s - 1) v) (sto s (slen s - 1)) = removelast (sread h s) \/ ~ inb h s.
Proof.
  intros h s v. unfold wput. rewrite sread_wset_past, sread_sto by lia.
  destruct (Nat.eq_dec (length (sread h s)) (slen s)) as [E|E].
  - left. rewrite removelast_firstn_len, E. f_equal. lia.
  - right. intro K. apply E. apply sread_length. exact K.
Qed.
Lemma sread_drop' : forall h s v, inb h s ->
  sread (wput h s (slen s - 1) v) (sto s (slen s - 1)) = removelast (sread h s).
Proof. intros h s v K. destruct (sread_drop h s v) as [E|E]; [exact E|contradiction]. Qed.

Lemma remove_list : forall (l : list V) k, k < length l ->
  removelast (overwrite l k (skipn (S k) l)) = removeNth l k.
Proof.
  intros l k L. rewrite removelast_firstn_len, overwrite_length.
  apply nth_error_ext. intro j. unfold removeNth. rewrite nth_error_firstn, overwrite_nth, skipn_length.
  destruct (Nat.lt_ge_cases j k) as [A|A].
  - rewrite nth_error_app1 by (rewrite firstn_length; lia). rewrite nth_error_firstn.
    destruct (Nat.ltb_spec j k); [|lia]. destruct (Nat.leb_spec k j); [lia|]. simpl.
    destruct (Nat.ltb_spec j (Nat.pred (length l))); [reflexivity|]. lia.
  - rewrite nth_error_app2 by (rewrite firstn_length; lia). rewrite firstn_length.
    replace (Nat.min k (length l)) with k by lia.
    destruct (Nat.ltb_spec j (Nat.pred (length l))).
    + destruct (Nat.leb_spec k j); [|lia]. destruct (Nat.ltb_spec j (k + (length l - S k))); [|lia].
      destruct (Nat.ltb_spec j (length l)); [|lia]. reflexivity.
    + symmetry. apply nth_error_None. rewrite skipn_length. lia.
Qed.

Lemma last_nth : forall (l : list V) d, last l d = nth (length l - 1) l d.
Proof.
  induction l as [|x [|y r] IH]; intro d; try reflexivity.
  change (last (x :: y :: r) d) with (last (y :: r) d). rewrite IH. simpl. rewrite Nat.sub_0_r. reflexivity.
Qed.

(* what the record updates need: same array or one nobody has *)
Lemma keep_arr : forall m (s : slice) t, sarr t = sarr s ->
  forall x, sarr t = Some x -> sarr s = Some x \/ unowned m x.
Proof. intros. left. congruence. Qed.

Lemma slot_inb : forall m r d i s, inv m -> nth_error (mdocs m) r = Some d ->
  sget (mheap m) (marr d, i) = Some s -> inb (mheap m) (svals s).
Proof. intros. eapply (proj1 (proj2 (proj2 (i_doc m H r d H0)))); eauto. Qed.

(* ---- dropping the last value ---- *)
Lemma drop_agree : forall m r d i s h1, inv m -> nth_error (mdocs m) r = Some d -> i < mlen d ->
  sget (mheap m) (marr d, i) = Some s -> wrel (sarr (svals s)) (mheap m) h1 ->
  let h' := m_dropLast h1 (marr d, i) s in
  inv (withHeap m h') /\ worldOf (withHeap m h') =
    putNodes (worldOf m) r (putNode (dnodes (sdoc (mheap m) d)) (N.of_nat i)
      (withValues (snode (mheap m) s) (removelast (sread h1 (svals s))))).
Proof.
  intros m r d i s h1 I D L G W h'. unfold h', m_dropLast.
  assert (Hb : inb h1 (svals s)) by (eapply wrel_inb; eauto; eapply slot_inb; eauto).
  destruct (inplace m r d i s (wput h1 (svals s) (slen (svals s) - 1) zeroV)
              (setVals s (sto (svals s) (slen (svals s) - 1))) I D L G) as [J1 J2].
  - eapply wrel_trans; eauto. apply wrel_wput.
  - apply inb_wset. apply inb_sto; [exact Hb|lia].
  - apply keep_arr. reflexivity.
  - split; [exact J1|]. rewrite J2. f_equal. f_equal. rewrite <- (sread_drop' h1 (svals s) zeroV Hb). reflexivity.
Qed.

Lemma swap_agree : forall m r d i s k, inv m -> nth_error (mdocs m) r = Some d -> i < mlen d ->
  sget (mheap m) (marr d, i) = Some s -> k < slen (svals s) ->
  let h' := m_swapRemove (mheap m) (marr d, i) s k in
  inv (withHeap m h') /\ worldOf (withHeap m h') =
    putNodes (worldOf m) r (putNode (dnodes (sdoc (mheap m) d)) (N.of_nat i)
      (withValues (snode (mheap m) s) (swapRemove (sread (mheap m) (svals s)) k))).
Proof.
  intros m r d i s k I D L G Hk h'. unfold h', m_swapRemove.
  pose proof (slot_inb m r d i s I D G) as Hb.
  set (v := nth (slen (svals s) - 1) (sread (mheap m) (svals s)) zeroV).
  destruct (drop_agree m r d i s (wput (mheap m) (svals s) k v) I D L G (wrel_wput _ _ _ _)) as [J1 J2].
  split; [exact J1|]. rewrite J2. unfold swapRemove. rewrite sread_wput by assumption.
  rewrite last_nth, sread_length by exact Hb. reflexivity.
Qed.

Lemma keyIndex_lt : forall key vs i, keyIndex key vs = Some i -> i < length vs.
Proof.
  induction vs as [|v r IH]; intros i H; simpl in *; [discriminate|].
  destruct (bseqb (vkey v) key); [injection H as <-; lia|].
  destruct (keyIndex key r) as [j|]; [|discriminate]. injection H as <-. specialize (IH j eq_refl). lia.
Qed.
Lemma assignKey_index : forall key id vs, assignKey key id vs =
  match keyIndex key vs with
  | Some i => replaceNth vs i (mkV id (vkey (nth i vs zeroV)))
  | None => vs ++ [mkV id key]
  end.
Proof.
  induction vs as [|v r IH]; simpl; [reflexivity|]. destruct (bseqb (vkey v) key); [reflexivity|].
  rewrite IH. destruct (keyIndex key r); reflexivity.
Qed.

Lemma inRange_lt : forall i n k, inRange i n = Some k -> k < n.
Proof.
  intros i n k H. unfold inRange in H. destruct ((0 <=? i) && (i <? Z.of_nat n))%Z eqn:E; [|discriminate].
  injection H as <-. apply andb_true_iff in E as [E1 E2]. apply Z.leb_le in E1. apply Z.ltb_lt in E2. lia.
Qed.

(* a Node's record *)
Ltac node_get m n I p :=
  let A := fresh "A" in
  pose proof (m_get_agree m n I) as A; destruct (m_get m n) as [p|];
  [destruct A as (r & d & s & Dn & D & Rv & -> & L & G & Gn & Gs); rewrite Gn
  |rewrite A; simpl; auto].

Lemma Node_put_id : forall m n r d x, inv m -> ndoc n = Some r -> nth_error (mdocs m) r = Some d ->
  Node_put (worldOf m) n x = putNodes (worldOf m) r (putNode (dnodes (sdoc (mheap m) d)) (nid n) x).
Proof.
  intros m n r d x I Dn D. unfold Node_put, Node_nodes. rewrite Dn, worldOf_get. simpl m_getDoc. rewrite D. reflexivity.
Qed.

Lemma agree_self : forall m, inv m -> agree (Ok m) (Ok (worldOf m)).
Proof. intros. split; auto. Qed.

Lemma Slice_agree : forall m n i j, inv m -> agree (m_Slice m n i j) (Ok (Node_Slice (worldOf m) n i j)).
Proof.
  intros m n i j I. unfold m_Slice, Node_Slice. node_get m n I p.
  pose proof (slot_inb m r d _ s I D G) as Hb. rewrite G. cbn [snode ninfo nvalues]. rewrite sread_length by exact Hb.
  destruct (info_IsArray (sinfo s)); [|apply agree_self; exact I]. simpl andb.
  destruct ((0 <=? i) && (i <? j) && (j <? Z.of_nat (slen (svals s))))%Z eqn:E; [|apply agree_self; exact I].
  apply andb_true_iff in E as [E E3]. apply andb_true_iff in E as [E1 E2].
  apply Z.leb_le in E1. apply Z.ltb_lt in E2, E3.
  destruct (inplace_node m n r d s (mheap m)
    (setVals s (sfrom (sto (svals s) (Z.to_nat j)) (Z.to_nat i))) I Dn D L G (wrel_refl _ _)) as [J1 J2].
  - apply inb_sfrom; [|simpl; lia]. apply inb_sto; [exact Hb|lia].
  - apply keep_arr. reflexivity.
  - split; [exact J1|]. rewrite J2. f_equal. unfold withValues, snode. simpl. f_equal.
    rewrite sread_sfrom, sread_sto by lia. reflexivity.
Qed.

Lemma Remove_agree : forall m n i, inv m -> agree (m_Remove m n i) (Ok (Node_Remove (worldOf m) n i)).
Proof.
  intros m n i I. unfold m_Remove, Node_Remove. node_get m n I p.
  pose proof (slot_inb m r d _ s I D G) as Hb. rewrite G. cbn [snode ninfo nvalues]. rewrite sread_length by exact Hb.
  destruct (info_IsArray (sinfo s)); [|apply agree_self; exact I].
  destruct (inRange i (slen (svals s))) as [k|] eqn:R; [|apply agree_self; exact I]. apply inRange_lt in R.
  set (h1 := if S k <? slen (svals s) then _ else _).
  assert (H1 : wrel (sarr (svals s)) (mheap m) h1 /\
               sread h1 (svals s) = overwrite (sread (mheap m) (svals s)) k (skipn (S k) (sread (mheap m) (svals s)))).
  { unfold h1. pose proof (sread_length _ _ Hb) as Ls. destruct (Nat.ltb_spec (S k) (slen (svals s))).
    - split; [apply (wrel_wset _ (sfrom (svals s) k))|]. rewrite sread_sfrom, sread_wset_from; auto.
      rewrite skipn_length. lia.
    - split; [apply wrel_refl|]. rewrite skipn_all2 by lia. rewrite overwrite_nil. reflexivity. }
  destruct H1 as [W R1]. destruct (drop_agree m r d _ s h1 I D L G W) as [J1 J2].
  split; [exact J1|]. rewrite J2, N2Nat.id, R1, remove_list by (rewrite sread_length; assumption).
  symmetry. rewrite (Node_put_id m n r d) by assumption. reflexivity.
Qed.

Lemma Del_agree : forall m n key, inv m -> agree (m_Del m n key) (Ok (Node_Del (worldOf m) n key)).
Proof.
  intros m n key I. unfold m_Del, Node_Del. node_get m n I p.
  pose proof (slot_inb m r d _ s I D G) as Hb. rewrite G. cbn [snode ninfo nvalues].
  destruct (info_IsObject (sinfo s)); [|apply agree_self; exact I].
  destruct (keyIndex key (sread (mheap m) (svals s))) as [k|] eqn:K; [|apply agree_self; exact I].
  apply keyIndex_lt in K. rewrite sread_length in K by exact Hb.
  destruct (swap_agree m r d _ s k I D L G K) as [J1 J2].
  split; [exact J1|]. rewrite J2, N2Nat.id. symmetry. rewrite (Node_put_id m n r d) by assumption. reflexivity.
Qed.

Lemma setScalar_agree : forall m n info raw, inv m ->
  agree (m_setScalar m n info raw) (Ok (setScalar (worldOf m) n info raw)).
Proof.
  intros m n info raw I. unfold m_setScalar, setScalar, s_reset, p_blank. node_get m n I p.
  pose proof (slot_inb m r d _ s I D G) as Hb. rewrite G.
  destruct (inplace_node m n r d s (wclear (mheap m) (svals s))
    (mkSlot (N.lor info (info_Flags (sinfo s))) raw (sto (svals s) 0)) I Dn D L G) as [J1 J2].
  - apply wrel_wset.
  - apply inb_wset. apply inb_sto; [exact Hb|lia].
  - apply keep_arr. reflexivity.
  - split; [exact J1|]. rewrite J2. f_equal. unfold snode. simpl. f_equal. unfold sread. simpl.
    destruct (sarr (svals s)); reflexivity.
Qed.

(* ---- Strip ---- *)
Definition heapOf (m : mem) (r : ref) (d : mdoc) (a : res heap) (b : res (list node)) : Prop :=
  match a, b with
  | Ok h, Ok ns => inv (withHeap m h) /\ worldOf (withHeap m h) = putNodes (worldOf m) r ns /\
                   dnodes (sdoc h d) = ns
  | Panic, Panic | Diverge, Diverge => True
  | _, _ => False
  end.

Lemma nodes_put : forall m r d ns, nth_error (mdocs m) r = Some d ->
  forall h, worldOf (withHeap m h) = putNodes (worldOf m) r ns -> dnodes (sdoc h d) = ns.
Proof.
  intros m r d ns D h H. assert (Q : nth_error (worldOf (withHeap m h)) r = Some (sdoc h d)).
  { rewrite worldOf_nth. simpl. rewrite D. reflexivity. }
  rewrite H in Q. unfold putNodes in Q. rewrite worldOf_nth, D in Q. cbn [option_map] in Q.
  rewrite nth_error_replaceNth, Nat.eqb_refl in Q. simpl andb in Q.
  assert (Lr : r <? length (worldOf m) = true).
  { apply Nat.ltb_lt. unfold worldOf. rewrite map_length. apply nth_error_Some. congruence. }
  rewrite Lr in Q. assert (Q' : sdoc h d = mkDoc ns (drev (sdoc (mheap m) d))) by congruence. rewrite Q'. reflexivity.
Qed.

Lemma heapOf_refl : forall m r d, inv m -> nth_error (mdocs m) r = Some d ->
  heapOf m r d (Ok (mheap m)) (Ok (dnodes (sdoc (mheap m) d))).
Proof.
  intros m r d I D. simpl. unfold withHeap. replace (mkM (mheap m) (mdocs m)) with m by (destruct m; reflexivity).
  split; [exact I|]. split; [|reflexivity]. unfold putNodes. rewrite worldOf_nth, D. cbn [option_map].
  symmetry. apply replaceNth_self. rewrite worldOf_nth, D. reflexivity.
Qed.

(* from a memory with the same documents *)
Lemma heapOf_from : forall m r d h ns a b, nth_error (mdocs m) r = Some d ->
  worldOf (withHeap m h) = putNodes (worldOf m) r ns ->
  heapOf (withHeap m h) r d a b -> heapOf m r d a b.
Proof.
  intros m r d h ns a b D H K. destruct a as [h'| |], b as [ns'| |]; simpl in *; auto.
  destruct K as (K1 & K2 & K3). split; [exact K1|]. split; [|exact K3].
  unfold withHeap in *. simpl in *. rewrite K2, H. apply putNodes_twice.
Qed.

Definition strips (d : mdoc) (r : ref) (mrec : heap -> N -> res heap) (rec : list node -> N -> res (list node)) : Prop :=
  forall m id, inv m -> nth_error (mdocs m) r = Some d ->
    heapOf m r d (mrec (mheap m) id) (rec (dnodes (sdoc (mheap m) d)) id).

Lemma bind_heapOf : forall m r d (a : res heap) (b : res (list node)) (f : heap -> res heap) g,
  nth_error (mdocs m) r = Some d -> heapOf m r d a b ->
  (forall h, inv (withHeap m h) -> heapOf (withHeap m h) r d (f h) (g (dnodes (sdoc h d)))) ->
  heapOf m r d (let! h := a in f h) (let! ns := b in g ns).
Proof.
  intros m r d a b f g D H K. destruct a as [h| |], b as [ns| |]; simpl in H; try contradiction; try exact Logic.I.
  destruct H as (H1 & H2 & H3). cbn [bind]. rewrite <- H3. exact (heapOf_from m r d h ns _ _ D H2 (K h H1)).
Qed.

Lemma getNode_slot : forall m r d id, inv m -> nth_error (mdocs m) r = Some d -> N.to_nat id < mlen d ->
  exists s, sget (mheap m) (marr d, N.to_nat id) = Some s /\
            getNode (dnodes (sdoc (mheap m) d)) id = Some (snode (mheap m) s).
Proof.
  intros m r d id I D L. pose proof (getNode_at m r d id I D) as G. unfold m_at in G.
  destruct (N.ltb_spec id (N.of_nat (mlen d))); [|lia]. exact G.
Qed.

Lemma stripFrom_sim : forall d r mrec rec id, strips d r mrec rec -> N.to_nat id < mlen d ->
  forall k m j, inv m -> nth_error (mdocs m) r = Some d ->
  heapOf m r d (m_stripFrom mrec (marr d, N.to_nat id) k (mheap m) j)
    (stripFrom rec id k (dnodes (sdoc (mheap m) d)) j).
Proof.
  intros d r mrec rec id HS Lid. induction k as [|k IH]; intros m j I D; cbn [m_stripFrom stripFrom].
  - apply heapOf_refl; assumption.
  - destruct (getNode_slot m r d id I D Lid) as (s & G & ->). rewrite G. cbn [snode nvalues].
    destruct (nth_error (sread (mheap m) (svals s)) j) as [v|]; [|apply heapOf_refl; assumption].
    apply bind_heapOf; auto. intros h Ih. apply (IH (withHeap m h) (S j) Ih D).
Qed.

Lemma stripLoop_sim : forall d r mrec rec id key, strips d r mrec rec -> N.to_nat id < mlen d ->
  forall k m i, inv m -> nth_error (mdocs m) r = Some d ->
  heapOf m r d (m_stripLoop mrec (marr d, N.to_nat id) key k (mheap m) i)
    (stripLoop rec id key k (dnodes (sdoc (mheap m) d)) i).
Proof.
  intros d r mrec rec id key HS Lid. induction k as [|k IH]; intros m i I D; cbn [m_stripLoop stripLoop].
  - apply heapOf_refl; assumption.
  - destruct (getNode_slot m r d id I D Lid) as (s & G & ->). rewrite G. cbn [snode nvalues].
    pose proof (slot_inb m r d _ s I D G) as Hb.
    destruct (nth_error (sread (mheap m) (svals s)) i) as [v|] eqn:Hi; [|exact Logic.I].
    assert (Li : i < slen (svals s)).
    { rewrite <- (sread_length _ _ Hb). apply nth_error_Some. congruence. }
    destruct (bseqb key (vkey v)).
    + cbv zeta. destruct (swap_agree m r d _ s i I D Lid G Li) as [J1 J2]. rewrite N2Nat.id in J2.
      set (h1 := m_swapRemove _ _ _ _) in *. pose proof (nodes_put m r d _ D h1 J2) as J3.
      fold (snode (mheap m) s). rewrite <- J3. eapply heapOf_from; [exact D|exact J2|].
      assert (Q : length (swapRemove (sread (mheap m) (svals s)) i) = slen (svals s) - 1).
      { unfold swapRemove. rewrite removelast_firstn_len, firstn_length, replaceNth_length, sread_length by exact Hb. lia. }
      rewrite Q. apply (stripFrom_sim d r mrec rec id HS Lid _ (withHeap m h1) i J1 D).
    + apply bind_heapOf; auto. intros h Ih. apply (IH (withHeap m h) (S i) Ih D).
Qed.

Lemma strip_sim : forall d r key f, strips d r (m_strip f d key) (strip f key).
Proof.
  intros d r key. induction f as [|f IH]; intros m id I D; [exact Logic.I|]. cbn [m_strip strip].
  pose proof (getNode_at m r d id I D) as GA. destruct (m_at d id) as [p|] eqn:A.
  - apply at_lt in A as [-> L]. destruct GA as (s & G & ->). rewrite G. cbn [snode ninfo nvalues].
    destruct (info_IsObject (sinfo s)); [|apply heapOf_refl; assumption].
    rewrite (sread_length _ _ (slot_inb m r d _ s I D G)). apply stripLoop_sim; auto.
  - rewrite GA. apply heapOf_refl; assumption.
Qed.

Lemma Strip_agree : forall m n key, inv m -> agree (m_Strip m n key) (Node_Strip (worldOf m) n key).
Proof.
  intros m n key I. unfold m_Strip, Node_Strip. node_get m n I p.
  rewrite Dn. cbn [m_getDoc]. rewrite D, Gs. unfold depthFuel. rewrite (nodes_length m r d I D).
  pose proof (strip_sim d r key (S (S (mlen d))) m (nid n) I D) as H.
  destruct (m_strip (S (S (mlen d))) d key (mheap m) (nid n)) as [h| |],
    (strip (S (S (mlen d))) key (dnodes (sdoc (mheap m) d)) (nid n)) as [ns| |]; simpl in H; try contradiction; try exact Logic.I.
  destruct H as (H1 & H2 & _). split; assumption.
Qed.
