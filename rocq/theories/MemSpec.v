(* What it means for node storage not to be shared, and what a memory stands for. *)
From Verif Require Import Bytes Tables Types Parser Doc Api Mem.

(* The node record number i of document r, within its capacity (so also records beyond the length,
   waiting to be reused), has a backing array x. *)
Definition owns (m : mem) (r : ref) (i : nat) (x : nat) : Prop :=
  exists d s, nth_error (mdocs m) r = Some d /\ nth_error (narr (mheap m) (marr d)) i = Some s /\
              sarr (svals s) = Some x.

(* No two node records use the same array. *)
Definition exclusive (m : mem) : Prop :=
  forall r i r' i' x, owns m r i x -> owns m r' i' x -> r = r' /\ i = i'.

(* The documents a memory stands for: the first mlen records of each document, with the values
   their slices show now. *)
Definition snode (h : heap) (s : slot) : node := mkNode (sinfo s) (sraw s) (sread h (svals s)).
Definition sdoc (h : heap) (d : mdoc) : doc :=
  mkDoc (map (snode h) (firstn (mlen d) (narr h (marr d)))) (mrev d).
Definition worldOf (m : mem) : world := map (sdoc (mheap m)) (mdocs m).

Definition mapRes {A B} (f : A -> B) (r : res A) : res B :=
  match r with Ok a => Ok (f a) | Panic => Panic | Diverge => Diverge end.
