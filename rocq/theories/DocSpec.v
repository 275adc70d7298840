(* Specification vocabulary for documents: which tree a node denotes, reachability, sharing.
   It uses only the data layout of nodes (Parser.node, Doc.getNode), not the operations. *)
From Verif Require Import Bytes Types JsonSpec Parser Doc.

(* [denotes ns id t]: in a document with nodes ns, node id is the root of the finite tree t. *)
Inductive denotes (ns : list node) : N -> jval -> Prop :=
| d_str id n : getNode ns id = Some n -> info_Type (ninfo n) = TypeString -> nvalues n = [] ->
    denotes ns id (JStr (nraw n))
| d_num id n : getNode ns id = Some n -> info_Type (ninfo n) = TypeNumber -> nvalues n = [] ->
    denotes ns id (JNum (nraw n))
| d_true id n : getNode ns id = Some n -> info_Type (ninfo n) = TypeBoolean -> nvalues n = [] ->
    nraw n = str "true" -> denotes ns id JTrue
| d_false id n : getNode ns id = Some n -> info_Type (ninfo n) = TypeBoolean -> nvalues n = [] ->
    nraw n = str "false" -> denotes ns id JFalse
| d_null id n : getNode ns id = Some n -> info_Type (ninfo n) = TypeNull -> nvalues n = [] ->
    nraw n = str "null" -> denotes ns id JNull
| d_arr id n vs : getNode ns id = Some n -> info_Type (ninfo n) = TypeArray -> nraw n = [] ->
    denotes_list ns (nvalues n) vs -> denotes ns id (JArr vs)
| d_obj id n ms : getNode ns id = Some n -> info_Type (ninfo n) = TypeObject -> nraw n = [] ->
    denotes_members ns (nvalues n) ms -> denotes ns id (JObj ms)
with denotes_list (ns : list node) : list V -> list jval -> Prop :=
| dl_nil : denotes_list ns [] []
| dl_cons v l t ts : vkey v = [] -> denotes ns (vid v) t -> denotes_list ns l ts ->
    denotes_list ns (v :: l) (t :: ts)
with denotes_members (ns : list node) : list V -> list (bytes * jval) -> Prop :=
| dm_nil : denotes_members ns [] []
| dm_cons v l t ts : denotes ns (vid v) t -> denotes_members ns l ts ->
    denotes_members ns (v :: l) ((vkey v, t) :: ts).

Scheme denotes_mind := Induction for denotes Sort Prop
  with denotes_list_mind := Induction for denotes_list Sort Prop
  with denotes_members_mind := Induction for denotes_members Sort Prop.
Combined Scheme denotes_mutind from denotes_mind, denotes_list_mind, denotes_members_mind.

(* The tree of an API node: its document is alive and the node denotes the tree. *)
Definition tree_of (w : world) (n : Node) (t : jval) : Prop :=
  exists r d, ndoc n = Some r /\ nth_error w r = Some d /\ drev d = nrev n /\
              denotes (dnodes d) (nid n) t.

(* [reach ns a b]: b is a, or a descendant of a. *)
Inductive reach (ns : list node) : N -> N -> Prop :=
| reach_refl a : reach ns a a
| reach_step a n v b : getNode ns a = Some n -> In v (nvalues n) -> reach ns (vid v) b ->
    reach ns a b.

(* All value references of a document; a node is shared when its id occurs twice. *)
Definition refs (ns : list node) : list N := flat_map (fun n => map vid (nvalues n)) ns.
Definition unshared (ns : list node) : Prop := NoDup (refs ns).

(* Every node denotes a finite tree: in particular there is no cycle. *)
Definition all_trees (ns : list node) : Prop :=
  forall id, (id < lenN ns)%N -> exists t, denotes ns id t.

(* Ordered-map assignment: the first entry with the key is replaced, a new key goes last. *)
Fixpoint assign {A} (k : bytes) (x : A) (l : list (bytes * A)) : list (bytes * A) :=
  match l with
  | [] => [(k, x)]
  | (k', y) :: r => if bseqb k' k then (k', x) :: r else (k', y) :: assign k x r
  end.

(* First entry with the key. *)
Fixpoint assoc {A} (k : bytes) (l : list (bytes * A)) : option A :=
  match l with
  | [] => None
  | (k', y) :: r => if bseqb k k' then Some y else assoc k r
  end.

(* Nesting depth. *)
Fixpoint jdepth (v : jval) : nat :=
  match v with
  | JArr vs => S (list_max (map jdepth vs))
  | JObj ms => S (list_max (map (fun m => jdepth (snd m)) ms))
  | _ => 1
  end.

(* No node is a descendant of itself. *)
Definition acyclic (ns : list node) : Prop :=
  forall id n v, getNode ns id = Some n -> In v (nvalues n) -> ~ reach ns (vid v) id.

(* Every reference points to a node of the document. *)
Definition closed (ns : list node) : Prop :=
  forall id n v, getNode ns id = Some n -> In v (nvalues n) -> (vid v < lenN ns)%N.

(* Every document of the world has the property. *)
Definition docs (P : list node -> Prop) (w : world) : Prop :=
  forall r d, nth_error w r = Some d -> P (dnodes d).

(* Would Set/Append/Replace on node [to] of document r adopt this value instead of copying it? *)
Definition adopts (w : world) (r : ref) (to : N) (v : Node) : Prop :=
  ndoc v = Some r /\ exists n, Node_get w v = Some n /\ info_IsRoot (ninfo n) = true /\ nid v <> 0%N /\ nid v <> to.
