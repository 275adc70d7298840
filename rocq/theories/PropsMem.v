(* Property C50: node storage.  Only statements, each closed by [exact]. *)
From Verif Require Import Bytes Tables Types Parser Doc Api Mem MemSpec MemThms MemExamples.

(* For every history of calls and every choice of capacities: working in recycled, growing arrays gives
   exactly the documents of the model in which every node has a list of its own; and it panics or fails
   to return exactly when that model does. *)
Theorem C50_refines : forall pol cs, mapRes worldOf (mrun pol emptyMem cs) = run [] cs.
Proof. exact mrun_refines. Qed.
Print Assumptions C50_refines.
(* No two node records, used or waiting to be reused, of the same or different documents, have an array in common. *)
Theorem C50_exclusive : forall pol cs m, mrun pol emptyMem cs = Ok m -> exclusive m.
Proof. exact mrun_exclusive. Qed.
Print Assumptions C50_exclusive.
(* What is shared is the slice held by an iterator over the node: a deletion shows through it. *)
Theorem C50_iterator_refuted :
  exists pol m m' p s, mrun pol emptyMem obj = Ok m /\ m_get m (mkN 0 0 (Some 0)) = Some p /\ sget (mheap m) p = Some s /\
    mstep pol m (CDel (mkN 0 0 (Some 0)) (str "a")) = Ok m' /\
    sread (mheap m) (svals s) = [mkV 1 (str "a"); mkV 2 (str "b"); mkV 3 (str "c")] /\
    sread (mheap m') (svals s) = [mkV 3 (str "c"); mkV 2 (str "b"); mkV 0 []].
Proof. exact iter_lem. Qed.
Print Assumptions C50_iterator_refuted.
Example C50_example : exists m1 m2, mrun tight emptyMem history = Ok m1 /\ mrun loose emptyMem history = Ok m2 /\
  mheap m1 <> mheap m2 /\ worldOf m1 = worldOf m2 /\ run [] history = Ok (worldOf m1) /\
  (exists i x, owns m1 0 i x) /\ (exists i x, owns m2 1 i x).
Proof. exact example_lem. Qed.
