(* C75: what a parsed text costs.  C76: what parsing again into the same document costs. *)
From Verif Require Import Bytes Types JsonSpec Parser Doc DocSpec Api LexProofs ParserThms Mem ResSpec ResThms MemCost ReuseThms.

(* Parse adds one node per value of the text, the nodes refer to one another as the values contain
   one another, and no other node is added: each is below the one returned.  There are at most half
   as many as there are bytes (and one), and the raw values and keys together are no longer than the
   text. *)
Theorem C75_nodes : forall W r s W' n tail,
  Document_Parse W r s = Ok (W', (n, tail, None)) ->
  exists d new s1 w v,
    nth_error W r = Some d /\ W' = putDoc W r (mkDoc (dnodes d ++ new) (drev d)) /\
    s = s1 ++ w ++ tail /\ ws s1 /\ lenient_value v w /\ tree_of W' n v /\
    length new = values_in v /\ S (slots new) = length new /\
    2 * length new <= S (length w) /\ textbytes new <= length w /\
    (forall x, (nid n <= x < nid n + N.of_nat (length new))%N -> reach (dnodes d ++ new) (nid n) x).
Proof. exact C75_lem. Qed.
Print Assumptions C75_nodes.

(* Written out again it is no longer than it was. *)
Theorem C75_output : forall W r s W' n tail dst,
  Document_Parse W r s = Ok (W', (n, tail, None)) ->
  exists out, Node_AppendJSON W' n dst = Ok (dst ++ out, None) /\ length out + length tail <= length s.
Proof. exact C75_out_lem. Qed.
Print Assumptions C75_output.

(* The nesting is at most half the length of the text (and one) ... *)
Theorem C75_depth : forall W r s W' n tail v,
  Document_Parse W r s = Ok (W', (n, tail, None)) -> tree_of W' n v -> 2 * depth v <= S (length s).
Proof. exact C75_depth_lem. Qed.
Print Assumptions C75_depth.

(* ... and nothing else limits it: a text of 2k bytes that nests k deep is parsed, for every k.  The
   recursion of the parser (parser.go:83-373) is as deep. *)
Theorem C75_deep : forall W r k, r < length W -> exists s W' n v,
  length s = 2 * S k /\ Document_Parse W r s = Ok (W', (n, [], None)) /\ tree_of W' n v /\ depth v = S k.
Proof. exact C75_deep_lem. Qed.
Print Assumptions C75_deep.

(* The arrays a parse allocates, whether it succeeds or not, in any memory: at most four cells for
   values per byte of the text, and for nodes four cells per byte and per node there was, less what
   fits in the array there is; none at all if that has a node per byte to spare. *)
Theorem C75_memory : forall m r d s m', nth_error (mdocs m) r = Some d -> m_Parse m r s = Ok m' ->
  let cap := length (narr (mheap m) (marr d)) in
  let need := mlen d + length s in
  vcells (mheap m') <= vcells (mheap m) + 4 * length s /\
  ncells (mheap m') <= ncells (mheap m) + 2 * (2 * need - cap) /\
  (need <= cap -> ncells (mheap m') = ncells (mheap m)).
Proof. exact C75_memory_lem. Qed.
Print Assumptions C75_memory.
Example C75_memory_example : exists m, mrun noPol emptyMem [CNewDoc; CParse 0 (str "[[1,2,3],[],4]")] = Ok m /\
  sizes (mheap m) = ([1; 1; 3; 3], [0; 1; 3; 7]).
Proof. eexists. split; [vm_compute; reflexivity|reflexivity]. Qed.

(* The bound is reached by [1,2]: three nodes, five bytes. *)
Example C75_example : exists W' n, let v := JArr [JNum (str "1"); JNum (str "2")] in
  Document_Parse [mkDoc [] 0] 0 (str "[1,2]") = Ok (W', (n, [], None)) /\ tree_of W' n v /\
  2 * values_in v = S (length (str "[1,2]")).
Proof.
  eexists. eexists. cbv zeta. split; [vm_compute; reflexivity|]. split; [|reflexivity].
  destruct (C75_nodes [mkDoc [] 0] 0 (str "[1,2]") _ _ _ eq_refl) as (d & new & s1 & w & v & _ & _ & _ & _ & _ & T & _).
  replace (JArr [JNum (str "1"); JNum (str "2")]) with v; [exact T|].
  apply (tree_of_det _ _ _ _ T). apply (parsed_tree [mkDoc [] 0] 0 (mkDoc [] 0) (JArr [JNum (str "1"); JNum (str "2")])). reflexivity.
Qed.

Example C75_example2 : exists W' n v, let s := str " {""a"":[1,true],""bc"":{}} x" in
  Document_Parse [mkDoc [mkNode vNull strNull []] 7] 0 s = Ok (W', (n, str " x", None)) /\ tree_of W' n v /\
  values_in v = 5 /\ depth v = 3 /\ nid n = 1%N /\ exists d', nth_error W' 0 = Some d' /\ length (dnodes d') = 6 /\ textbytes (tl (dnodes d')) = 8.
Proof.
  pose proof (parsed_tree [mkDoc [mkNode vNull strNull []] 7] 0 (mkDoc [mkNode vNull strNull []] 7)
    (JObj [(str "a", JArr [JNum (str "1"); JTrue]); (str "bc", JObj [])]) eq_refl) as T.
  eexists. eexists. eexists. cbv zeta. split; [vm_compute; reflexivity|]. split; [exact T|].
  repeat (split; [reflexivity|]). eexists. split; [reflexivity|]. split; reflexivity.
Qed.

(* After any calls: reset a document and parse s, then any number of times reset it and parse a text
   in which every value has at most as many values below it as the value at its place in s.  Nothing
   is allocated after the first parse: there are no new arrays, and those there were have their
   sizes. *)
Theorem C76_reuse : forall pol cs r s v ts m m',
  mrun pol emptyMem (cs ++ [CReset r; CParse r s]) = Ok m -> begins s v ->
  mrun pol m (flat_map (fun t => [CReset r; CParse r t]) ts) = Ok m' ->
  Forall (fun t => exists v', begins t v' /\ fits (children v') (children v)) ts ->
  sizes (mheap m') = sizes (mheap m).
Proof. exact C76_lem. Qed.
Print Assumptions C76_reuse.

(* Not so for a text that ends too early, which the caller is told to complete and parse again
   (parser.go:29-31): the arrays made for it are dropped, and made again. *)
Theorem C76_early_refuted : exists s m m',
  mrun noPol emptyMem [CNewDoc; CReset 0; CParse 0 s] = Ok m /\ mrun noPol m [CReset 0; CParse 0 s] = Ok m' /\
  sizes (mheap m) = ([1; 3], [0; 1; 3]) /\ sizes (mheap m') = ([1; 3; 1; 3], [0; 1; 3; 1; 3]).
Proof. exact C76_early_lem. Qed.
Print Assumptions C76_early_refuted.

Example C76_example : let s := str "{""a"":[1,2,3],""b"":{}} " in let s' := str " [[true,""x""]] rest" in
  exists v v' m m', mrun noPol emptyMem ([CNewDoc] ++ [CReset 0; CParse 0 s]) = Ok m /\ begins s v /\
    mrun noPol m (flat_map (fun t => [CReset 0; CParse 0 t]) [s'; s; s']) = Ok m' /\ begins s' v' /\ fits (children v') (children v) /\
    children v = [2; 3; 0; 0; 0; 0] /\ children v' = [1; 2; 0; 0] /\ sizes (mheap m) = ([1; 1; 3; 3], [0; 1; 3; 7]).
Proof.
  cbv zeta.
  assert (B : forall s W' n tail, Document_Parse [mkDoc [] 0] 0 s = Ok (W', (n, tail, None)) -> exists v, begins s v /\ tree_of W' n v).
  { intros s W' n tail H. apply Parse_ok_iff in H as (d & s1 & w & v & Ed & -> & K1 & K2 & K3 & -> & ->).
    exists v. split; [exists s1, w, tail; auto|apply parsed_tree; exact Ed]. }
  pose proof (parsed_tree [mkDoc [] 0] 0 (mkDoc [] 0) (JObj [(str "a", JArr [JNum (str "1"); JNum (str "2"); JNum (str "3")]); (str "b", JObj [])]) eq_refl) as T1.
  pose proof (parsed_tree [mkDoc [] 0] 0 (mkDoc [] 0) (JArr [JArr [JTrue; JStr (str "x")]]) eq_refl) as T2.
  destruct (B (str "{""a"":[1,2,3],""b"":{}} ") _ _ _ eq_refl) as (v & Bv & T).
  destruct (B (str " [[true,""x""]] rest") _ _ _ eq_refl) as (v' & Bv' & T').
  pose proof (tree_of_det _ _ _ _ T T1) as ->. pose proof (tree_of_det _ _ _ _ T' T2) as ->.
  eexists. eexists. eexists. eexists. split; [vm_compute; reflexivity|]. split; [exact Bv|].
  split; [vm_compute; reflexivity|]. split; [exact Bv'|]. split; [repeat constructor|]. repeat split.
Qed.
