(* Specification vocabulary for histories of calls. *)
From Verif Require Import Bytes Tables Types JsonSpec Parser Doc DocSpec Api.

(* Every document has fewer than 2^64 nodes: ids are machine words (uint), so a real process always
   satisfies this. *)
Definition fits (w : world) : Prop := docs (fun ns => (lenN ns <= maxUint)%N) w.

(* A stored value that will be adopted (same document, root flag, not node 0, not the receiver)
   does not contain the receiver. *)
Definition no_ancestor (w : world) (c : call) : Prop :=
  forall n v r d, receiver c = Some n -> In v (stored c) -> ndoc n = Some r -> nth_error w r = Some d ->
  adopts w r (nid n) v -> ~ reach (dnodes d) (nid v) (nid n).

(* A stored value that will be adopted is not already an entry of some container. *)
Definition no_parent (w : world) (c : call) : Prop :=
  forall n v r d, receiver c = Some n -> In v (stored c) -> ndoc n = Some r -> nth_error w r = Some d ->
  adopts w r (nid n) v -> ~ In (nid v) (refs (dnodes d)).

(* Append is only given nodes that exist. *)
Definition valid_values (w : world) (c : call) : Prop :=
  match c with CAppend _ vs => forall v, In v vs -> Node_get w v <> None | _ => True end.

(* Worlds reachable from nothing by calls satisfying [ok]. *)
Inductive history (ok : world -> call -> Prop) : world -> Prop :=
| h_start : history ok []
| h_call w c w' : history ok w -> ok w c -> step w c = Ok w' -> fits w' -> history ok w'.

(* A node whose document is gone, nil or has been reset since. *)
Definition inert (w : world) (n : Node) : Prop :=
  forall d, getDoc w (ndoc n) = Some d -> drev d <> nrev n.

(* Number of resets of document r in a history. *)
Fixpoint resets (r : ref) (cs : list call) : N :=
  match cs with
  | [] => 0
  | CReset r' :: cs' => if Nat.eqb r' r then 1 + resets r cs' else resets r cs'
  | _ :: cs' => resets r cs'
  end.

(* m contains n: same document and n is m or a descendant of m. *)
Definition contains (w : world) (m n : Node) : Prop :=
  exists r d, ndoc m = Some r /\ ndoc n = Some r /\ nth_error w r = Some d /\ reach (dnodes d) (nid m) (nid n).

(* m and n have a common descendant. *)
Definition overlap (w : world) (m n : Node) : Prop :=
  exists r d x, ndoc m = Some r /\ ndoc n = Some r /\ nth_error w r = Some d /\
    reach (dnodes d) (nid m) x /\ reach (dnodes d) (nid n) x.

(* A node that is nothing: reads give zero values, mutators do nothing. *)
Definition absent (w : world) (n : Node) : Prop := Node_get w n = None.

(* Removing the entry between a and b: the last entry of b takes its place. *)
Definition tailswap {A} (b : list A) : list A :=
  match rev b with [] => [] | x :: _ => x :: removelast b end.
Definition plug {A} (a b : list A) : list A := a ++ tailswap b.

(* Remove the first member with the key, the last member taking its place. *)
Fixpoint del_first {A} (k : bytes) (ms : list (bytes * A)) : list (bytes * A) :=
  match ms with
  | [] => []
  | (k', t) :: r => if bseqb k' k then tailswap r else (k', t) :: del_first k r
  end.

(* What Strip does to a tree: in every object reached through object members the first member with
   the key goes. *)
Fixpoint strip_tree (k : bytes) (t : jval) : jval :=
  match t with
  | JObj ms => JObj (del_first k (map (fun m => (fst m, strip_tree k (snd m))) ms))
  | _ => t
  end.

(* Some object below t has a member with the key; objects inside arrays count. *)
Inductive has_key (k : bytes) : jval -> Prop :=
| hk_here ms : In k (map fst ms) -> has_key k (JObj ms)
| hk_member ms m : In m ms -> has_key k (snd m) -> has_key k (JObj ms)
| hk_elem vs v : In v vs -> has_key k v -> has_key k (JArr vs).

(* The key occurs at most once in every object and not below an array. *)
Inductive strippable (k : bytes) : jval -> Prop :=
| sp_obj ms : (forall a t b, ms = a ++ (k, t) :: b -> ~ In k (map fst (a ++ b))) ->
    (forall m, In m ms -> strippable k (snd m)) -> strippable k (JObj ms)
| sp_arr vs : ~ has_key k (JArr vs) -> strippable k (JArr vs)
| sp_str s : strippable k (JStr s)
| sp_num s : strippable k (JNum s)
| sp_true : strippable k JTrue
| sp_false : strippable k JFalse
| sp_null : strippable k JNull.

(* Calls that are no mutation of the tree of x, when x's nodes have ids from L in document r: mutators
   called on older nodes or in other documents, and document methods other than Reset of r. *)
Definition elsewhere (r : ref) (L : N) (x : Node) (w : world) (c : call) : Prop :=
  match c with
  | CStrip s _ => ~ overlap w x s
  | _ => match receiver c with
         | Some s => ndoc s <> Some r \/ (nid s < L)%N
         | None => c <> CReset r
         end
  end.
Inductive later (ok : world -> call -> Prop) : world -> world -> Prop :=
| l_done w : later ok w w
| l_call w c w1 w2 : ok w c -> step w c = Ok w1 -> later ok w1 w2 -> later ok w w2.

(* x denotes t and its nodes are all from L up. *)
Definition fresh_tree (w : world) (r : ref) (L : N) (x : Node) (t : jval) : Prop :=
  exists d, ndoc x = Some r /\ nth_error w r = Some d /\ drev d = nrev x /\ denotes (dnodes d) (nid x) t /\
    forall y, reach (dnodes d) (nid x) y -> (L <= y)%N.

(* A path step as a decimal number. *)
Definition isdigit (c : byte) : bool := (48 <=? bN c)%N && (bN c <=? 57)%N.
Definition decimal (k : bytes) : option N :=
  match k with
  | [] => None
  | _ => if forallb isdigit k then Some (fold_left (fun n c => 10 * n + (bN c - 48)) k 0)%N else None
  end.

(* Follow a path in a tree. *)
Fixpoint follow (t : jval) (path : list bytes) : option jval :=
  match path with
  | [] => Some t
  | k :: rest =>
      match t with
      | JObj ms => match assoc k ms with Some t' => follow t' rest | None => None end
      | JArr vs =>
          match decimal k with
          | Some i => match nth_error vs (N.to_nat i) with Some t' => follow t' rest | None => None end
          | None => None
          end
      | _ => None
      end
  end.

(* The steps taken in arrays are not empty and below 2^63 when numbers. *)
Fixpoint small_steps (t : jval) (path : list bytes) : Prop :=
  match path with
  | [] => True
  | k :: rest =>
      match t with
      | JObj ms => match assoc k ms with Some t' => small_steps t' rest | None => True end
      | JArr vs =>
          k <> [] /\
          match decimal k with
          | Some i => (i < 9223372036854775808)%N /\
              match nth_error vs (N.to_nat i) with Some t' => small_steps t' rest | None => True end
          | None => True
          end
      | _ => True
      end
  end.

(* k calls of Next. *)
Fixpoint nexts (k : nat) (i : IterV) : IterV :=
  match k with O => i | S k' => nexts k' (fst (IterV_Next i)) end.
