(* Properties C11-C23: the document API.  Only statements, each closed by [exact]. *)
From Coq Require Import Permutation.
From Verif Require Import Bytes Tables Types JsonSpec Parser Doc DocSpec Api HistSpec HistThms OpThms TravThms DocDec DocExamples.

(* ---- C11 ---- *)

(* After 1 to 2^64 - 1 resets of its document, whatever else happened, a node is inert. *)
Theorem C11_stale : forall w w' cs n r d,
  nth_error w r = Some d -> ndoc n = Some r -> drev d = nrev n -> (drev d < two64)%N ->
  run w cs = Ok w' -> (0 < resets r cs)%N -> (resets r cs < two64)%N -> inert w' n.
Proof. exact C11_stale_lem. Qed.
Print Assumptions C11_stale.
Theorem C11_reads : forall w n, inert w n ->
  Node_Raw w n = [] /\ Node_Data w n = ([], TypeInvalid) /\ Node_ToBool w n = (false, false) /\ Node_Type w n = TypeInvalid /\
  (forall want, Node_TypeError w n want = TypeErr TypeInvalid want) /\
  (forall dst, Node_AppendJSON w n dst = Ok ([], Some (TypeErr TypeInvalid TypeAnyValue))) /\
  (forall k, inert w (Node_Get w n k)) /\ (forall i, inert w (Node_Index w n i)) /\ (forall p, inert w (Node_Lookup w n p)) /\
  snd (IterV_Next (Node_Values w n)) = false /\ IterV_Len (Node_Values w n) = 0 /\ inert w (IterV_Value (Node_Values w n)).
Proof. exact C11_inert_lem. Qed.
Print Assumptions C11_reads.
Theorem C11_mutators : forall w n c, inert w n -> receiver c = Some n -> step w c = Ok w.
Proof. exact C11_mutators_lem. Qed.
Print Assumptions C11_mutators.
Example C11_example : exists w', run w0 [CParse 0 (str "1"); CReset 0; CParse 0 (str "[1,2]")] = Ok w' /\
  tree_of w0 (nd 0 0) t0 /\ inert w' (nd 0 0) /\ tree_of w' (mkN 0 1 (Some 0)) (JArr [JNum (str "1"); JNum (str "2")]).
Proof.
  eexists. split; [vm_compute; reflexivity|]. split; [exact w0_t0|]. split.
  - intros d E. vm_compute in E. injection E as <-. discriminate.
  - apply treeN_sound. vm_compute. reflexivity.
Qed.

(* ---- C12 ---- *)

(* Full statement: as C12_set_partial without the hypothesis about adoption.  It is false: an object
   can be given one of its own ancestors. *)
Theorem C12_refuted : exists cs w n k v ms t w', run [] cs = Ok w /\ tree_of w n (JObj ms) /\ tree_of w v t /\
  Node_Set w n k v = Ok w' /\ fits w' /\ (forall t', ~ tree_of w' (Node_Get w' n k) t').
Proof. exact C12_refuted_lem. Qed.
Print Assumptions C12_refuted.
(* Missing from the full statement: values that are adopted (roots of the same document other than
   node 0) and contain the object. *)
Theorem C12_set_partial : forall w n k v ms t, tree_of w n (JObj ms) -> tree_of w v t ->
  (forall r d, ndoc n = Some r -> nth_error w r = Some d -> adopts w r (nid n) v -> ~ reach (dnodes d) (nid v) (nid n)) ->
  exists w', Node_Set w n k v = Ok w' /\ (fits w' -> tree_of w' n (JObj (assign k t ms))).
Proof. exact Set_tree. Qed.
Print Assumptions C12_set_partial.
Theorem C12_get_partial : forall w n k v ms t, tree_of w n (JObj ms) -> tree_of w v t -> fits w ->
  (forall r d, ndoc n = Some r -> nth_error w r = Some d -> adopts w r (nid n) v -> ~ reach (dnodes d) (nid v) (nid n)) ->
  exists w', Node_Set w n k v = Ok w' /\ (fits w' ->
    tree_of w' (Node_Get w' n k) t /\
    forall k', k' <> k ->
      (forall t', tree_of w (Node_Get w n k') t' -> tree_of w' (Node_Get w' n k') t') /\
      (absent w (Node_Get w n k') -> absent w' (Node_Get w' n k'))).
Proof. exact Set_get. Qed.
Print Assumptions C12_get_partial.
Theorem C12_assign : forall (k : bytes) (t : jval) ms,
  assoc k (assign k t ms) = Some t /\
  (forall k', k' <> k -> assoc k' (assign k t ms) = assoc k' ms) /\
  (In k (map fst ms) -> map fst (assign k t ms) = map fst ms) /\
  (~ In k (map fst ms) -> assign k t ms = ms ++ [(k, t)]).
Proof. exact assign_facts. Qed.
Print Assumptions C12_assign.
(* An adopted value and a copied one; the object has two members. *)
Example C12_example : tree_of w0 (nd 0 0) t0 /\ tree_of w0 (nd 0 6) (JStr (str "hi")) /\ adopts w0 0 0 (nd 0 6) /\
  (forall r d, ndoc (nd 0 0) = Some r -> nth_error w0 r = Some d -> adopts w0 r (nid (nd 0 0)) (nd 0 6) -> ~ reach (dnodes d) (nid (nd 0 6)) (nid (nd 0 0))) /\
  tree_of w0 (nd 1 0) t1 /\ ~ adopts w0 0 0 (nd 1 0) /\ fits w0.
Proof. exact (conj w0_t0 (conj w0_hi (conj ex_adopts (conj ex_adopt_ok (conj w0_t1 (conj ex_copies w0_fits)))))). Qed.

(* ---- C13 ---- *)

Theorem C13_get_first : forall w n nn k a v b, Node_get w n = Some nn -> info_Type (ninfo nn) = TypeObject ->
  nvalues nn = a ++ v :: b -> vkey v = k -> ~ In k (map vkey a) -> Node_Get w n k = Node_With n (vid v).
Proof. exact Get_first. Qed.
Print Assumptions C13_get_first.
Theorem C13_get_absent : forall w n k, fits w ->
  (forall nn, Node_get w n = Some nn -> info_Type (ninfo nn) = TypeObject -> ~ In k (map vkey (nvalues nn))) ->
  absent w (Node_Get w n k).
Proof. exact Get_absent. Qed.
Print Assumptions C13_get_absent.
Theorem C13_get_tree : forall w n k ms, tree_of w n (JObj ms) -> fits w ->
  match assoc k ms with Some t => tree_of w (Node_Get w n k) t | None => absent w (Node_Get w n k) end.
Proof. exact Get_tree. Qed.
Print Assumptions C13_get_tree.
Example C13_example : let w := made [CNewDoc; CParse 0 dup] in
  fits w /\ tree_of w (nd 0 0) (JObj [(k_a, JNum (str "1")); (k_a, JNum (str "2"))]) /\ tree_of w (Node_Get w (nd 0 0) k_a) (JNum (str "1")).
Proof. split; [apply fitsb_sound; vm_compute; reflexivity|]. split; apply treeN_sound; vm_compute; reflexivity. Qed.

(* ---- C14 ---- *)

(* Full statement: as C14_del_partial for all objects.  It is false for an object that has the key twice. *)
Theorem C14_refuted : exists cs w n k ms t, run [] cs = Ok w /\ fits w /\ tree_of w n (JObj ms) /\
  tree_of (Node_Del w n k) (Node_Get (Node_Del w n k) n k) t.
Proof. exact C14_refuted_lem. Qed.
Print Assumptions C14_refuted.
(* Missing from the full statement: objects with two members with the key. *)
Theorem C14_del_partial : forall w n k ms, tree_of w n (JObj ms) -> fits w ->
  (forall a t b, ms = a ++ (k, t) :: b -> ~ In k (map fst (a ++ b))) ->
  absent (Node_Del w n k) (Node_Get (Node_Del w n k) n k) /\
  (~ In k (map fst ms) -> Node_Del w n k = w) /\
  (forall t, assoc k ms = Some t ->
     exists ms', tree_of (Node_Del w n k) n (JObj ms') /\ Permutation ms ((k, t) :: ms') /\ ~ In k (map fst ms')).
Proof. exact Del_one. Qed.
Print Assumptions C14_del_partial.
(* For all objects: the first member with the key goes and the last one takes its place. *)
Theorem C14_del_first : forall w n k ms, tree_of w n (JObj ms) ->
  (forall a t b, ms = a ++ (k, t) :: b -> ~ In k (map fst a) -> tree_of (Node_Del w n k) n (JObj (plug a b))) /\
  (~ In k (map fst ms) -> Node_Del w n k = w).
Proof. exact Del_tree. Qed.
Print Assumptions C14_del_first.
Example C14_example : tree_of w0 (nd 0 0) t0 /\ fits w0 /\
  tree_of (Node_Del w0 (nd 0 0) k_a) (nd 0 0) (JObj [(k_b, JNull)]).
Proof. split; [exact w0_t0|]. split; [exact w0_fits|]. apply treeN_sound. vm_compute. reflexivity. Qed.

(* ---- C15 ---- *)

(* Full statement: as below without the hypotheses about adoption; false, since Append and Replace
   can store an ancestor of the array. *)
Theorem C15_refuted : exists cs w n v ts t w', run [] cs = Ok w /\ tree_of w n (JArr ts) /\ tree_of w v t /\
  Node_Append w n [v] = Ok w' /\ fits w' /\ (forall t', ~ tree_of w' n t').
Proof. exact C15_refuted_lem. Qed.
Print Assumptions C15_refuted.
(* Missing from the full statement: adopted values that contain the array. *)
Theorem C15_append_partial : forall w n vs ts ts0, tree_of w n (JArr ts0) -> Forall2 (tree_of w) vs ts ->
  (forall v r d, In v vs -> ndoc n = Some r -> nth_error w r = Some d -> adopts w r (nid n) v -> ~ reach (dnodes d) (nid v) (nid n)) ->
  exists w', Node_Append w n vs = Ok w' /\ tree_of w' n (JArr (ts0 ++ ts)).
Proof. exact Append_tree. Qed.
Print Assumptions C15_append_partial.
Theorem C15_index : forall w n i ts, tree_of w n (JArr ts) ->
  (forall t, (0 <= i)%Z -> nth_error ts (Z.to_nat i) = Some t -> tree_of w (Node_Index w n i) t) /\
  ((i < 0 \/ Z.of_nat (length ts) <= i)%Z -> fits w -> absent w (Node_Index w n i)).
Proof. exact Index_tree. Qed.
Print Assumptions C15_index.
Theorem C15_index_other : forall w n i, fits w ->
  (forall nn, Node_get w n = Some nn -> info_Type (ninfo nn) <> TypeArray) -> absent w (Node_Index w n i).
Proof. exact Index_notarray. Qed.
Print Assumptions C15_index_other.
Theorem C15_replace_partial : forall w n i v ts t, tree_of w n (JArr ts) -> tree_of w v t -> (0 <= i < Z.of_nat (length ts))%Z ->
  (forall r d, ndoc n = Some r -> nth_error w r = Some d -> adopts w r (nid n) v -> ~ reach (dnodes d) (nid v) (nid n)) ->
  exists w', Node_Replace w n i v = Ok w' /\ (fits w' -> tree_of w' n (JArr (firstn (Z.to_nat i) ts ++ t :: skipn (S (Z.to_nat i)) ts))).
Proof. exact Replace_tree_at. Qed.
Print Assumptions C15_replace_partial.
Theorem C15_replace_out : forall w n i v ts, tree_of w n (JArr ts) -> (i < 0 \/ Z.of_nat (length ts) <= i)%Z -> Node_Replace w n i v = Ok w.
Proof. exact Replace_out. Qed.
Print Assumptions C15_replace_out.
Theorem C15_remove : forall w n i ts, tree_of w n (JArr ts) ->
  ((0 <= i < Z.of_nat (length ts))%Z ->
     tree_of (Node_Remove w n i) n (JArr (firstn (Z.to_nat i) ts ++ skipn (S (Z.to_nat i)) ts))) /\
  ((i < 0 \/ Z.of_nat (length ts) <= i)%Z -> Node_Remove w n i = w).
Proof. exact Remove_tree. Qed.
Print Assumptions C15_remove.
(* Appending an adopted string twice (the second time it is copied) and a tree of another document. *)
Example C15_example : tree_of w0 (nd 0 1) (JArr [JNum (str "1"); JTrue]) /\
  Forall2 (tree_of w0) [nd 0 6; nd 0 6; nd 1 0] [JStr (str "hi"); JStr (str "hi"); t1] /\
  exists w', Node_Append w0 (nd 0 1) [nd 0 6; nd 0 6; nd 1 0] = Ok w' /\
    tree_of w' (nd 0 0) (JObj [(k_a, JArr [JNum (str "1"); JTrue; JStr (str "hi"); JStr (str "hi"); t1]); (k_b, JNull)]).
Proof.
  split; [exact w0_a|]. split; [repeat constructor; auto using w0_hi, w0_t1|].
  eexists. split; [vm_compute; reflexivity|]. apply treeN_sound. vm_compute. reflexivity.
Qed.

(* ---- C16 ---- *)

(* Full statement: for 0 <= i <= j <= len the elements i..j-1 remain.  False for j = len and for i = j. *)
Theorem C16_refuted : exists cs w n ts i j, run [] cs = Ok w /\ tree_of w n (JArr ts) /\ (0 <= i <= j)%Z /\ (j <= Z.of_nat (length ts))%Z /\
  ~ tree_of (Node_Slice w n i j) n (JArr (firstn (Z.to_nat j - Z.to_nat i) (skipn (Z.to_nat i) ts))).
Proof. exact C16_refuted_lem. Qed.
Print Assumptions C16_refuted.
(* Missing from the full statement: i = j and j = len, where nothing changes. *)
Theorem C16_slice_partial : forall w n i j ts, tree_of w n (JArr ts) ->
  ((0 <= i < j)%Z -> (j < Z.of_nat (length ts))%Z ->
     tree_of (Node_Slice w n i j) n (JArr (firstn (Z.to_nat j - Z.to_nat i) (skipn (Z.to_nat i) ts)))) /\
  (~ ((0 <= i < j)%Z /\ (j < Z.of_nat (length ts))%Z) -> Node_Slice w n i j = w).
Proof. exact Slice_tree. Qed.
Print Assumptions C16_slice_partial.
Example C16_example : tree_of w0 (nd 0 1) (JArr [JNum (str "1"); JTrue]) /\ tree_of (Node_Slice w0 (nd 0 1) 0 1) (nd 0 1) (JArr [JNum (str "1")]).
Proof. split; [exact w0_a|]. apply treeN_sound. vm_compute. reflexivity. Qed.

(* ---- C17 ---- *)

(* Full statement: every history gives acyclic documents.  False, and AppendJSON then never returns. *)
Theorem C17_refuted : exists cs w n, run [] cs = Ok w /\ fits w /\ ~ docs acyclic w /\ Node_AppendJSON w n [] = Diverge.
Proof. exact C17_refuted_lem. Qed.
Print Assumptions C17_refuted.
(* Missing from the full statement: histories in which an adopted value contains its new parent. *)
Theorem C17_acyclic_partial : forall w, history no_ancestor w -> docs acyclic w.
Proof. exact C17_acyclic. Qed.
Print Assumptions C17_acyclic_partial.
(* If moreover Append is only given existing nodes, all nodes are trees. *)
Theorem C17_trees_partial : forall w, history (fun w c => no_ancestor w c /\ valid_values w c) w -> docs all_trees w.
Proof. exact C17_trees. Qed.
Print Assumptions C17_trees_partial.
(* Then serialisation and every call return. *)
Theorem C17_appendjson_returns : forall w n dst, docs acyclic w -> exists out e, Node_AppendJSON w n dst = Ok (out, e).
Proof. exact AppendJSON_total. Qed.
Print Assumptions C17_appendjson_returns.
Theorem C17_calls_return : forall w c, docs all_trees w -> (forall r, subject c = Some r -> r < length w) -> exists w', step w c = Ok w'.
Proof. exact step_total. Qed.
Print Assumptions C17_calls_return.
Theorem C17_strip_returns : forall w n k, docs acyclic w -> exists w', step w (CStrip n k) = Ok w'.
Proof. exact Strip_total. Qed.
Print Assumptions C17_strip_returns.
Example C17_example : history (fun w c => no_ancestor w c /\ valid_values w c)
  (made [CNewDoc; CNull 0; CArray 0; CObject 0; CAppend (nd 0 1) [nd 0 2]]).
Proof. exact C17_example_lem. Qed.

(* ---- C18 ---- *)

(* Full statement: every history gives unshared documents.  False: the copy of a parsed root keeps the
   root flag, so storing that copy a second time adopts it. *)
Theorem C18_refuted : exists cs w n k m k' t s, run [] cs = Ok w /\ fits w /\ ~ docs unshared w /\
  tree_of w n t /\ Node_Get w n k = Node_Get w m k' /\ (n, k) <> (m, k') /\
  exists t', tree_of (Node_SetStringRaw w (Node_Get w n k) s) (Node_Get (Node_SetStringRaw w (Node_Get w n k) s) m k') t' /\ t' = JStr s /\
    tree_of w (Node_Get w m k') (JNum (str "1")).
Proof. exact C18_refuted_lem. Qed.
Print Assumptions C18_refuted.
(* Missing from the full statement: histories in which an adopted value already is an entry of some
   container, and histories in which Append is given nodes that do not exist. *)
Theorem C18_unshared_partial : forall w, history (fun w c => no_parent w c /\ valid_values w c) w -> docs unshared w.
Proof. exact C18_unshared. Qed.
Print Assumptions C18_unshared_partial.
Example C18_example : history (fun w c => no_parent w c /\ valid_values w c)
  (made [CNewDoc; CNull 0; CArray 0; CObject 0; CAppend (nd 0 1) [nd 0 2]]).
Proof. exact C18_example_lem. Qed.

(* ---- C19 ---- *)

(* Strip works on the whole tree of n, so it changes descendants of n: the statement is false for it. *)
Theorem C19_refuted : exists cs w n k m t w', run [] cs = Ok w /\ fits w /\ docs unshared w /\ tree_of w m t /\ ~ contains w m n /\
  step w (CStrip n k) = Ok w' /\ ~ tree_of w' m t.
Proof. exact C19_refuted_lem. Qed.
Print Assumptions C19_refuted.
(* All mutators but Strip; missing from the full statement: Strip. *)
Theorem C19_local_partial : forall w c n w' m t, receiver c = Some n -> (forall x k, c <> CStrip x k) -> step w c = Ok w' ->
  tree_of w m t -> ~ contains w m n -> tree_of w' m t.
Proof. exact C19_local_lem. Qed.
Print Assumptions C19_local_partial.
Theorem C19_strip : forall w n k w' m t, step w (CStrip n k) = Ok w' -> tree_of w m t -> ~ overlap w m n -> tree_of w' m t.
Proof. exact strip_local. Qed.
Print Assumptions C19_strip.
Theorem C19_documents : forall w c w' m t, receiver c = None -> step w c = Ok w' -> tree_of w m t ->
  (forall r, c = CReset r -> ndoc m <> Some r) -> tree_of w' m t.
Proof. exact appended_local. Qed.
Print Assumptions C19_documents.
(* A sibling: node 4 (null) does not contain node 1 (the array). *)
Example C19_example : tree_of w0 (nd 0 4) JNull /\ ~ contains w0 (nd 0 4) (nd 0 1) /\ ~ overlap w0 (nd 0 4) (nd 0 1) /\
  receiver (CAppend (nd 0 1) [nd 0 6]) = Some (nd 0 1).
Proof. exact C19_example_lem. Qed.

(* ---- C20 ---- *)

(* fresh_tree w r L x t: x denotes t and consists of nodes of document r with ids from L up; here L is
   the number of nodes the document had before. *)
Theorem C20_set : forall w n k v ms t r d, tree_of w n (JObj ms) -> tree_of w v t -> ndoc n = Some r -> nth_error w r = Some d ->
  ~ adopts w r (nid n) v ->
  exists w', Node_Set w n k v = Ok w' /\ (fits w' ->
    Node_Get w' n k = Node_With n (lenN (dnodes d)) /\ fresh_tree w' r (lenN (dnodes d)) (Node_Get w' n k) t).
Proof. exact Set_copy. Qed.
Print Assumptions C20_set.
Theorem C20_append : forall w n v ts t r d, tree_of w n (JArr ts) -> tree_of w v t -> ndoc n = Some r -> nth_error w r = Some d ->
  ~ adopts w r (nid n) v ->
  exists w', Node_Append w n [v] = Ok w' /\
    Node_Index w' n (Z.of_nat (length ts)) = Node_With n (lenN (dnodes d)) /\
    fresh_tree w' r (lenN (dnodes d)) (Node_Index w' n (Z.of_nat (length ts))) t.
Proof. exact Append_copy. Qed.
Print Assumptions C20_append.
Theorem C20_replace : forall w n i v ts t r d, tree_of w n (JArr ts) -> tree_of w v t -> ndoc n = Some r -> nth_error w r = Some d ->
  (0 <= i < Z.of_nat (length ts))%Z -> ~ adopts w r (nid n) v ->
  exists w', Node_Replace w n i v = Ok w' /\ (fits w' ->
    Node_Index w' n i = Node_With n (lenN (dnodes d)) /\ fresh_tree w' r (lenN (dnodes d)) (Node_Index w' n i) t).
Proof. exact Replace_copy. Qed.
Print Assumptions C20_replace.
(* Mutations of older nodes, other documents and new nodes leave such a tree alone, however many. *)
Theorem C20_independent : forall w w' r L x t, fresh_tree w r L x t -> later (elsewhere r L x) w w' -> tree_of w' x t.
Proof. exact fresh_later. Qed.
Print Assumptions C20_independent.
Example C20_example : tree_of w0 (nd 0 0) t0 /\ tree_of w0 (nd 1 0) t1 /\ ~ adopts w0 0 0 (nd 1 0) /\
  exists w' w'', Node_Set w0 (nd 0 0) k_a (nd 1 0) = Ok w' /\ tree_of w' (Node_Get w' (nd 0 0) k_a) t1 /\
    later (elsewhere 0 8 (nd 0 8)) w' w'' /\ tree_of w'' (nd 1 0) (JArr [JNull; JArr [JNum (str "2")]]).
Proof. exact C20_example_lem. Qed.

(* ---- C21 ---- *)

(* Full statement: has_key k t' is false for the tree t' after Strip.  False for objects inside arrays and for
   duplicated keys. *)
Theorem C21_refuted : exists cs w n k t w' t', run [] cs = Ok w /\ fits w /\ docs unshared w /\ tree_of w n t /\
  Node_Strip w n k = Ok w' /\ tree_of w' n t' /\ has_key k t'.
Proof. exact C21_refuted_lem. Qed.
Print Assumptions C21_refuted.
Theorem C21_dup_refuted : exists cs w n k t w' t', run [] cs = Ok w /\ fits w /\ docs unshared w /\ tree_of w n t /\
  Node_Strip w n k = Ok w' /\ tree_of w' n t' /\ t' = JObj [(k, JNum (str "2"))].
Proof. exact C21_dup_refuted_lem. Qed.
Print Assumptions C21_dup_refuted.
(* What Strip does to any tree of an unshared document. *)
Theorem C21_strip : forall w n k t, tree_of w n t -> docs unshared w ->
  exists w', Node_Strip w n k = Ok w' /\ tree_of w' n (strip_tree k t).
Proof. exact Strip_tree. Qed.
Print Assumptions C21_strip.
(* Missing from the full statement: keys below arrays, and keys occurring twice in an object. *)
Theorem C21_clean_partial : forall k t, strippable k t -> ~ has_key k (strip_tree k t).
Proof. exact strip_clean. Qed.
Print Assumptions C21_clean_partial.
Theorem C21_rest : forall k (ms : list (bytes * jval)),
  (exists t, assoc k ms = Some t /\ Permutation ms ((k, t) :: del_first k ms)) \/ (assoc k ms = None /\ del_first k ms = ms).
Proof. exact del_first_perm. Qed.
Print Assumptions C21_rest.
Example C21_example : tree_of w0 (nd 0 0) t0 /\ docs unshared w0 /\ strippable k_b t0 /\ has_key k_b t0.
Proof. exact C21_example_lem. Qed.

(* ---- C22 ---- *)

(* Full statement: as C22_lookup_partial without small_steps.  False: an empty step and a step that
   overflows int64 find elements. *)
Theorem C22_refuted : exists w n t p p' t' t2, fits w /\ tree_of w n t /\
  follow t p = None /\ tree_of w (Node_Lookup w n p) t' /\
  follow t p' = None /\ tree_of w (Node_Lookup w n p') t2 /\ p = [[]] /\ p' = [str "18446744073709551617"].
Proof. exact C22_refuted_lem. Qed.
Print Assumptions C22_refuted.
(* Missing from the full statement: empty steps and steps from 2^63 in arrays. *)
Theorem C22_lookup_partial : forall w n p t, tree_of w n t -> fits w -> small_steps t p ->
  match follow t p with Some t' => tree_of w (Node_Lookup w n p) t' | None => absent w (Node_Lookup w n p) end.
Proof. exact Lookup_tree. Qed.
Print Assumptions C22_lookup_partial.
Theorem C22_step_nil : forall w n, Node_Lookup w n [] = n.
Proof. exact Lookup_nil. Qed.
Print Assumptions C22_step_nil.
Theorem C22_step_object : forall w n nn k p, fits w -> Node_get w n = Some nn -> info_Type (ninfo nn) = TypeObject ->
  Node_Lookup w n (k :: p) = Node_Lookup w (Node_Get w n k) p.
Proof. exact Lookup_get. Qed.
Print Assumptions C22_step_object.
Theorem C22_step_array_partial : forall w n nn k p, fits w -> Node_get w n = Some nn -> info_Type (ninfo nn) = TypeArray -> k <> [] ->
  match decimal k with
  | Some i => (i < 9223372036854775808)%N -> Node_Lookup w n (k :: p) = Node_Lookup w (Node_Index w n (Z.of_N i)) p
  | None => Node_Lookup w n (k :: p) = Node_With n maxUint
  end.
Proof. exact Lookup_index. Qed.
Print Assumptions C22_step_array_partial.
Theorem C22_step_other : forall w n k p, (forall nn, Node_get w n = Some nn -> info_Type (ninfo nn) <> TypeObject /\ info_Type (ninfo nn) <> TypeArray) ->
  Node_Lookup w n (k :: p) = Node_With n maxUint.
Proof. exact Lookup_scalar. Qed.
Print Assumptions C22_step_other.
Example C22_example : follow t0 [k_a; str "01"] = Some JTrue /\ small_steps t0 [k_a; str "01"] /\
  tree_of w0 (Node_Lookup w0 (nd 0 0) [k_a; str "01"]) JTrue.
Proof. split; [vm_compute; reflexivity|]. split; [repeat split; discriminate|]. apply treeN_sound. vm_compute. reflexivity. Qed.

(* ---- C23 ---- *)

Theorem C23_values : forall w n nn k, Node_get w n = Some nn ->
  (forall v, nth_error (nvalues nn) k = Some v ->
     let i := nexts (S k) (Node_Values w n) in
     snd (IterV_Next (nexts k (Node_Values w n))) = true /\
     iV i = v /\ IterV_Index i = Z.of_nat k /\ IterV_Value i = Node_With n (vid v) /\ IterV_Len i = length (nvalues nn)) /\
  (length (nvalues nn) <= k -> snd (IterV_Next (nexts k (Node_Values w n))) = false).
Proof. exact Values_iter. Qed.
Print Assumptions C23_values.
Theorem C23_reset : forall w n nn k j, Node_get w n = Some nn ->
  let i := IterV_Reset (nexts k (Node_Values w n)) in
  (forall v, nth_error (nvalues nn) j = Some v ->
     snd (IterV_Next (nexts j i)) = true /\ iV (nexts (S j) i) = v /\ IterV_Index (nexts (S j) i) = Z.of_nat j /\
     IterV_Value (nexts (S j) i) = Node_With n (vid v)) /\
  (length (nvalues nn) <= j -> snd (IterV_Next (nexts j i)) = false).
Proof. exact Reset_iter. Qed.
Print Assumptions C23_reset.
Theorem C23_close : forall i k, snd (IterV_Next (nexts k (IterV_Close i))) = false /\ IterV_Len (IterV_Close i) = 0.
Proof. exact Close_iter. Qed.
Print Assumptions C23_close.
Example C23_example : exists nn, Node_get w0 (nd 0 0) = Some nn /\ map vkey (nvalues nn) = [k_a; k_b] /\
  IterV_Value (nexts 2 (Node_Values w0 (nd 0 0))) = nd 0 4.
Proof. eexists. split; [vm_compute; reflexivity|]. split; vm_compute; reflexivity. Qed.
