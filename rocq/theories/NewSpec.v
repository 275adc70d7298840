(* Specification vocabulary for C70: nodes made by the methods of a document. *)
From Verif Require Import Bytes Types JsonSpec Parser Doc DocSpec.

(* [made w r w' n t]: from w to w', document r got one more node; n is a reference to it and denotes t.  Nothing was
   known of it before, no node got values, and what the other nodes denote is the same.  As a value for
   Set, Append or Replace in its document it is adopted, unless it is the root. *)
Definition made (w : world) (r : ref) (w' : world) (n : Node) (t : jval) : Prop :=
  (exists d d', nth_error w r = Some d /\ nth_error w' r = Some d' /\ drev d' = drev d /\ length (dnodes d') = S (length (dnodes d)) /\
     ndoc n = Some r /\ N.to_nat (nid n) = length (dnodes d) /\ (dnodes d = [] -> Document_Root w' r = Ok n)) /\
  tree_of w' n t /\ (forall u, ~ tree_of w n u) /\
  (forall m u, tree_of w m u -> tree_of w' m u) /\
  (forall q, q <> r -> nth_error w' q = nth_error w q) /\
  (forall m x v, Node_get w' m = Some x -> In v (nvalues x) -> Node_get w m = Some x) /\
  (forall to, nid n <> 0%N -> nid n <> to -> adopts w' r to n).
