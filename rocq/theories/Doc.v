(* Model of document.go and of the non-numeric part of node.go.

   A world is a list of documents; *Document pointers are indices into it (None is nil).
   Simplifications: a node's values are a list (the sharing and recycling of backing arrays is
   modelled in Mem.v); the Go heap, garbage collection and stack limits are not modelled: infinite
   recursion is [Diverge]. *)
From Verif Require Import Bytes Tables Types Parser.

(* Outcome of a call: normal return, run-time panic, or infinite recursion. *)
Inductive res (A : Type) : Type := Ok (a : A) | Panic | Diverge.
Arguments Ok {A} a. Arguments Panic {A}. Arguments Diverge {A}.

Definition bind {A B} (r : res A) (f : A -> res B) : res B :=
  match r with Ok a => f a | Panic => Panic | Diverge => Diverge end.
Notation "'let!' x := r 'in' e" := (bind r (fun x => e)) (at level 200, x pattern).

(* document.go:12-15 *)
Record doc := mkDoc { dnodes : list node; drev : N }.
Definition world := list doc.
Definition ref := nat.

(* node.go:17-21 *)
Record Node := mkN { nid : N; nrev : N; ndoc : option ref }.

(* error.go:5-8 typeError{Type, Want} *)
Inductive terr := TypeErr (t want : N).

Fixpoint replaceNth {A} (l : list A) (i : nat) (x : A) : list A :=
  match l, i with
  | [], _ => []
  | _ :: r, O => x :: r
  | y :: r, S j => y :: replaceNth r j x
  end.

(* document.go:174-179  func (d *Document) get(id).  Also nodes[id] elsewhere. *)
Definition getNode (ns : list node) (id : N) : option node :=
  if (id <? lenN ns)%N then nth_error ns (N.to_nat id) else None.

Definition getDoc (w : world) (r : option ref) : option doc :=
  match r with None => None | Some i => nth_error w i end.

(* Store a node's contents back: the effect of assigning through a *node. *)
Definition putNode (ns : list node) (id : N) (n : node) : list node := replaceNth ns (N.to_nat id) n.
Definition putDoc (w : world) (r : ref) (d : doc) : world := replaceNth w r d.
Definition putNodes (w : world) (r : ref) (ns : list node) : world :=
  match nth_error w r with
  | Some d => replaceNth w r (mkDoc ns (drev d))
  | None => w
  end.

(* ---- document.go ---- *)

(* document.go:182-184  func (d *Document) Node(id) *)
Definition Document_Node (w : world) (r : ref) (id : N) : res Node :=
  match nth_error w r with
  | Some d => Ok (mkN id (drev d) (Some r))
  | None => Panic
  end.

(* document.go:187-189 *)
Definition Document_Root (w : world) (r : ref) : res Node := Document_Node w r 0.

(* document.go:99-164, 357-364: Null/False/True/TextRaw/Object/Array/Number: grow by one node
   and reset it to (info|infRoot, raw, values[:0]).  [n.values[:0]] is the empty list. *)
Definition newNode (w : world) (r : ref) (info : N) (raw : bytes) : res (world * Node) :=
  match nth_error w r with
  | None => Panic
  | Some d =>
      let id := lenN (dnodes d) in
      let d' := mkDoc (dnodes d ++ [mkNode (N.lor info infRoot) raw []]) (drev d) in
      Ok (putDoc w r d', mkN id (drev d) (Some r))
  end.
(* document.go:100-105 *)
Definition Document_Null w r := newNode w r vNull strNull.
(* document.go:108-113 *)
Definition Document_False w r := newNode w r vBoolean strFalse.
(* document.go:116-121 *)
Definition Document_True w r := newNode w r vBoolean strTrue.
(* document.go:124-130 *)
Definition Document_TextRaw w r (s : bytes) := newNode w r vString s.
(* document.go:143-148 *)
Definition Document_Object w r := newNode w r vObject [].
(* document.go:151-156 *)
Definition Document_Array w r := newNode w r vArray [].
(* document.go:159-164.  The text numjson.FormatFloat(f, 64) is the argument here. *)
Definition Document_NumberRaw w r (s : bytes) := newNode w r vNumber s.

(* document.go:167-171  Reset: rev++ wraps around at 2^64. *)
Definition resetDoc (d : doc) : doc := mkDoc [] ((drev d + 1) mod two64)%N.
Definition Document_Reset (w : world) (r : ref) : res world :=
  match nth_error w r with
  | None => Panic
  | Some d => Ok (putDoc w r (resetDoc d))
  end.

(* parser.go:14-34 at the level of the world *)
Definition Document_Parse (w : world) (r : ref) (s : bytes) : res (world * (Node * bytes * option perror)) :=
  match nth_error w r with
  | None => Panic
  | Some d =>
      let (ns, pr) := parseNodes (dnodes d) s in
      match pr with
      | ParseOk id tail => Ok (putDoc w r (mkDoc ns (drev d)), (mkN id (drev d) (Some r), tail, None))
      | ParseFail tail e => Ok (putDoc w r (mkDoc ns (drev d)), (mkN 0 0 None, tail, Some e))
      | ParseDiverges => Diverge
      end
  end.

(* document.go:264-275 and 280-288: the loops over n.values in appendJSON.  [rec] is the recursive
   call, [first] is i == 0.  None is divergence; the boolean tells whether err != nil. *)
Fixpoint appendValues (rec : bytes -> option node -> option (bytes * bool)) (ns : list node)
  (keys : bool) (first : bool) (vs : list V) (dst : bytes) : option (bytes * bool) :=
  match vs with
  | [] => Some (dst, false)
  | v :: r =>
      let dst := if first then dst else dst ++ [delimValueSeparator] in
      let dst := if keys then dst ++ [delimString] ++ vkey v ++ [delimString; delimNameSeparator] else dst in
      match rec dst (getNode ns (vid v)) with
      | None => None
      | Some (dst, true) => Some (dst, true)
      | Some (dst, false) => appendValues rec ns keys false r dst
      end
  end.

(* document.go:256-299  func (d *Document) appendJSON *)
Fixpoint appendJSON (fuel : nat) (ns : list node) (dst : bytes) (on : option node) : option (bytes * bool) :=
  match fuel with O => None | S f =>
  match on with
  | None => Some (dst, true)
  | Some n =>
      let t := info_Type (ninfo n) in
      if (t =? TypeObject)%N then
        match appendValues (appendJSON f ns) ns true true (nvalues n) (dst ++ [delimBeginObject]) with
        | Some (dst, false) => Some (dst ++ [delimEndObject], false)
        | r => r
        end
      else if (t =? TypeArray)%N then
        match appendValues (appendJSON f ns) ns false true (nvalues n) (dst ++ [delimBeginArray]) with
        | Some (dst, false) => Some (dst ++ [delimEndArray], false)
        | r => r
        end
      else if (t =? TypeString)%N then Some (dst ++ [delimString] ++ nraw n ++ [delimString], false)
      else Some (dst ++ nraw n, false)
  end
  end.

(* Recursion deeper than this visits some node twice on one path (DocProofs). *)
Definition depthFuel (ns : list node) : nat := S (S (length ns)).

(* document.go:310-317: the loop over n.values in ncopy; [rec] is the recursive call, [acc] the values
   copied so far (appendV at index numV appends).  other.get is looked up when the loop reaches the
   entry; for other == d that is the grown document. *)
Fixpoint copyValues (rec : list node -> node -> option (list node * N)) (other : option (list node))
  (vs : list V) (ns : list node) (acc : list V) : option (list node * list V) :=
  match vs with
  | [] => Some (ns, acc)
  | v :: r =>
      match getNode (match other with Some o => o | None => ns end) (vid v) with
      | None => copyValues rec other r ns acc
      | Some c =>
          match rec ns c with
          | None => None
          | Some (ns', cid) => copyValues rec other r ns' (acc ++ [mkV cid (vkey v)])
          end
      end
  end.

(* document.go:301-320  ncopy: copies n of other (None: other == d) to the end of [ns].  Returns
   the new nodes and the copy's id; None is divergence. *)
Fixpoint ncopy (fuel : nat) (other : option (list node)) (ns : list node) (n : node)
  : option (list node * N) :=
  match fuel with O => None | S f =>
  let id := lenN ns in
  match copyValues (ncopy f other) other (nvalues n) (ns ++ [mkNode (ninfo n) (nraw n) []]) [] with
  | None => None
  | Some (ns', vs) => Some (setValues ns' (N.to_nat id) vs, id)
  end
  end.

Definition opt_ref_eqb (a b : option ref) : bool :=
  match a, b with
  | Some x, Some y => Nat.eqb x y
  | None, None => true
  | _, _ => false
  end.

(* document.go:343-355  copyOrAdopt, d = r.  Returns the world and the id (maxUint: nothing). *)
Definition copyOrAdopt (w : world) (r : ref) (other : option ref) (id to : N) : res (world * N) :=
  match nth_error w r with None => Panic | Some d =>
  match getDoc w other with
  | None => Ok (w, maxUint)
  | Some o =>
      match getNode (dnodes o) id with
      | None => Ok (w, maxUint)
      | Some n =>
          let same := opt_ref_eqb other (Some r) in
          if same && negb (id =? to)%N && info_IsRoot (ninfo n) && negb (id =? 0)%N then
            Ok (putNodes w r (putNode (dnodes d) id
                                (mkNode (N.ldiff (ninfo n) infRoot) (nraw n) (nvalues n))), id)
          else
            match ncopy (depthFuel (dnodes o)) (if same then None else Some (dnodes o)) (dnodes d) n with
            | None => Diverge
            | Some (ns, cid) => Ok (putNodes w r ns, cid)
            end
      end
  end
  end.

(* ---- node.go ---- *)

(* node.go:34-37 *)
Definition Node_With (n : Node) (id : N) : Node := mkN id (nrev n) (ndoc n).

(* node.go:40-47 *)
Definition Node_Document (w : world) (n : Node) : option ref :=
  match getDoc w (ndoc n) with
  | Some d => if (drev d =? nrev n)%N then ndoc n else None
  | None => None
  end.

(* node.go:49-59 *)
Definition Node_get (w : world) (n : Node) : option node :=
  match getDoc w (ndoc n) with
  | Some d => if (drev d =? nrev n)%N then getNode (dnodes d) (nid n) else None
  | None => None
  end.

(* the nodes of n.doc *)
Definition Node_nodes (w : world) (n : Node) : list node :=
  match getDoc w (ndoc n) with Some d => dnodes d | None => [] end.

(* Write back node n (n.get() != nil) with new contents. *)
Definition Node_put (w : world) (n : Node) (x : node) : world :=
  match ndoc n with
  | Some r => putNodes w r (putNode (Node_nodes w n) (nid n) x)
  | None => w
  end.

(* node.go:62-67.  The error is always typeError{TypeInvalid, TypeAnyValue}. *)
Definition Node_AppendJSON (w : world) (n : Node) (dst : bytes) : res (bytes * option terr) :=
  match Node_get w n with
  | Some nn =>
      match appendJSON (depthFuel (Node_nodes w n)) (Node_nodes w n) dst (Some nn) with
      | Some (out, e) => Ok (out, if e then Some (TypeErr TypeInvalid TypeAnyValue) else None)
      | None => Diverge
      end
  | None => Ok ([], Some (TypeErr TypeInvalid TypeAnyValue))
  end.

(* document.go:252-254 *)
Definition Document_AppendJSON (w : world) (r : ref) (dst : bytes) : res (bytes * option terr) :=
  match nth_error w r with
  | None => Panic
  | Some d =>
      match appendJSON (depthFuel (dnodes d)) (dnodes d) dst (getNode (dnodes d) 0) with
      | Some (out, e) => Ok (out, if e then Some (TypeErr TypeInvalid TypeAnyValue) else None)
      | None => Diverge
      end
  end.

(* node.go:71-76 *)
Definition Node_Raw (w : world) (n : Node) : bytes :=
  match Node_get w n with Some x => nraw x | None => [] end.
(* node.go:87-92 *)
Definition Node_Data (w : world) (n : Node) : bytes * N :=
  match Node_get w n with Some x => (nraw x, info_Type (ninfo x)) | None => ([], TypeInvalid) end.
(* node.go:122-132 *)
Definition Node_ToBool (w : world) (n : Node) : bool * bool :=
  match Node_get w n with
  | Some x =>
      if info_IsBoolean (ninfo x) then
        if bseqb (nraw x) strTrue then (true, true)
        else if bseqb (nraw x) strFalse then (false, true) else (false, false)
      else (false, false)
  | None => (false, false)
  end.
(* node.go:135-140 *)
Definition Node_Type (w : world) (n : Node) : N :=
  match Node_get w n with Some x => info_Type (ninfo x) | None => TypeInvalid end.
(* node.go:151-153 *)
Definition Node_TypeError (w : world) (n : Node) (want : N) : terr := TypeErr (Node_Type w n) want.

(* node.go:243-254 *)
Fixpoint findKey (key : bytes) (vs : list V) : option V :=
  match vs with
  | [] => None
  | v :: r => if bseqb key (vkey v) then Some v else findKey key r
  end.
Definition Node_Get (w : world) (n : Node) (key : bytes) : Node :=
  match Node_get w n with
  | Some nn =>
      if info_IsObject (ninfo nn) then
        match findKey key (nvalues nn) with
        | Some v => Node_With n (vid v)
        | None => Node_With n maxUint
        end
      else Node_With n maxUint
  | None => Node_With n maxUint
  end.

(* Bounds test 0 <= i && i < len: Some index or None. *)
Definition inRange (i : Z) (len : nat) : option nat :=
  if ((0 <=? i) && (i <? Z.of_nat len))%Z then Some (Z.to_nat i) else None.

(* node.go:260-267 *)
Definition Node_Index (w : world) (n : Node) (i : Z) : Node :=
  match Node_get w n with
  | Some nn =>
      if info_IsArray (ninfo nn) then
        match inRange i (length (nvalues nn)) with
        | Some k => match nth_error (nvalues nn) k with
                    | Some v => Node_With n (vid v)
                    | None => Node_With n maxUint
                    end
        | None => Node_With n maxUint
        end
      else Node_With n maxUint
  | None => Node_With n maxUint
  end.

(* node.go:280-290: overwrite the id of the first entry with the key, or append. *)
Fixpoint assignKey (key : bytes) (id : N) (vs : list V) : list V :=
  match vs with
  | [] => [mkV id key]
  | v :: r => if bseqb (vkey v) key then mkV id (vkey v) :: r else v :: assignKey key id r
  end.

Definition withValues (x : node) (vs : list V) : node := mkNode (ninfo x) (nraw x) vs.

(* node.go:272-293 *)
Definition Node_Set (w : world) (n : Node) (key : bytes) (value : Node) : res world :=
  match Node_get w n, ndoc n with
  | Some nn, Some r =>
      if info_IsObject (ninfo nn) then
        let! (w, id) := copyOrAdopt w r (Node_Document w value) (nid value) (nid n) in
        if (id <? maxUint)%N then
          match Node_get w n with       (* nn = &n.doc.nodes[n.id] *)
          | Some nn => Ok (Node_put w n (withValues nn (assignKey key id (nvalues nn))))
          | None => Panic
          end
        else Ok w
      else Ok w
  | _, _ => Ok w
  end.

(* node.go:302-307: vv accumulates, d may grow *)
Fixpoint appendIds (w : world) (r : ref) (to : N) (vals : list Node) (vv : list V) : res (world * list V) :=
  match vals with
  | [] => Ok (w, vv)
  | v :: rest =>
      let! (w, id) := copyOrAdopt w r (Node_Document w v) (nid v) to in
      appendIds w r to rest (vv ++ [mkV id []])
  end.

(* node.go:296-311 *)
Definition Node_Append (w : world) (n : Node) (vals : list Node) : res world :=
  match vals with [] => Ok w | _ =>
  match Node_get w n, ndoc n with
  | Some nn, Some r =>
      if info_IsArray (ninfo nn) then
        let! (w, vv) := appendIds w r (nid n) vals (nvalues nn) in
        match Node_get w n with
        | Some nn => Ok (Node_put w n (withValues nn vv))
        | None => Panic
        end
      else Ok w
  | _, _ => Ok w
  end
  end.

(* node.go:316-320 *)
Definition Node_Slice (w : world) (n : Node) (i j : Z) : world :=
  match Node_get w n with
  | Some nn =>
      if info_IsArray (ninfo nn) &&
         ((0 <=? i) && (i <? j) && (j <? Z.of_nat (length (nvalues nn))))%Z
      then Node_put w n (withValues nn (skipn (Z.to_nat i) (firstn (Z.to_nat j) (nvalues nn))))
      else w
  | None => w
  end.

(* node.go:323-332 *)
Definition Node_Replace (w : world) (n : Node) (i : Z) (value : Node) : res world :=
  match Node_get w n, ndoc n with
  | Some nn, Some r =>
      if info_IsArray (ninfo nn) then
        match inRange i (length (nvalues nn)) with
        | Some k =>
            let! (w, id) := copyOrAdopt w r (Node_Document w value) (nid value) (nid n) in
            if (id <? maxUint)%N then
              match Node_get w n with
              | Some nn =>
                  if k <? length (nvalues nn)
                  then Ok (Node_put w n (withValues nn (replaceNth (nvalues nn) k (mkV id []))))
                  else Panic
              | None => Panic
              end
            else Ok w
        | None => Ok w
        end
      else Ok w
  | _, _ => Ok w
  end.

(* node.go:335-345: copy(values[i:], values[i+1:]) and shorten by one *)
Definition removeNth {A} (l : list A) (i : nat) : list A := firstn i l ++ skipn (S i) l.
Definition Node_Remove (w : world) (n : Node) (i : Z) : world :=
  match Node_get w n with
  | Some nn =>
      if info_IsArray (ninfo nn) then
        match inRange i (length (nvalues nn)) with
        | Some k => Node_put w n (withValues nn (removeNth (nvalues nn) k))
        | None => w
        end
      else w
  | None => w
  end.

(* node.go:353-356, 375-378: values[i] = values[last]; drop the last *)
Definition swapRemove (vs : list V) (i : nat) : list V :=
  removelast (replaceNth vs i (last vs (mkV 0 []))).
Fixpoint keyIndex (key : bytes) (vs : list V) : option nat :=
  match vs with
  | [] => None
  | v :: r => if bseqb (vkey v) key then Some O else option_map S (keyIndex key r)
  end.

(* node.go:371-384 *)
Definition Node_Del (w : world) (n : Node) (key : bytes) : world :=
  match Node_get w n with
  | Some nn =>
      if info_IsObject (ninfo nn) then
        match keyIndex key (nvalues nn) with
        | Some i => Node_put w n (withValues nn (swapRemove (nvalues nn) i))
        | None => w
        end
      else w
  | None => w
  end.

(* node.go:357-359: the loop `for j := i; j < len(nn.values); j++`, [k] bounds the iterations by the
   length at its start; [rec] is the recursive call of Strip. *)
Fixpoint stripFrom (rec : list node -> N -> res (list node)) (id : N) (k : nat) (ns : list node) (j : nat)
  : res (list node) :=
  match k with
  | O => Ok ns
  | S k' =>
      match getNode ns id with
      | None => Panic
      | Some nn =>
          match nth_error (nvalues nn) j with
          | None => Ok ns
          | Some v => let! ns := rec ns (vid v) in stripFrom rec id k' ns (S j)
          end
      end
  end.

(* node.go:350-364: the loop over the original length, at index i. *)
Fixpoint stripLoop (rec : list node -> N -> res (list node)) (id : N) (key : bytes) (k : nat)
  (ns : list node) (i : nat) : res (list node) :=
  match k with
  | O => Ok ns
  | S k' =>
      match getNode ns id with
      | None => Panic
      | Some nn =>
          match nth_error (nvalues nn) i with
          | None => Panic
          | Some v =>
              if bseqb key (vkey v) then
                let vs := swapRemove (nvalues nn) i in
                stripFrom rec id (length vs) (putNode ns id (withValues nn vs)) i
              else let! ns := rec ns (vid v) in stripLoop rec id key k' ns (S i)
          end
      end
  end.

(* node.go:348-367  Strip on the nodes of one document. *)
Fixpoint strip (fuel : nat) (key : bytes) (ns : list node) (id : N) {struct fuel} : res (list node) :=
  match fuel with O => Diverge | S f =>
  match getNode ns id with
  | None => Ok ns
  | Some nn =>
      if info_IsObject (ninfo nn)
      then stripLoop (strip f key) id key (length (nvalues nn)) ns 0
      else Ok ns
  end
  end.

Definition Node_Strip (w : world) (n : Node) (key : bytes) : res world :=
  match Node_get w n, ndoc n with
  | Some _, Some r =>
      let! ns := strip (depthFuel (Node_nodes w n)) key (Node_nodes w n) (nid n) in
      Ok (putNodes w r ns)
  | _, _ => Ok w
  end.

(* node.go:386-447: SetInt/SetUint/SetFloat/SetStringRaw/SetFalse/SetTrue/SetNull: reset with the
   type, the flags kept, the text and no values. *)
Definition setScalar (w : world) (n : Node) (info : N) (raw : bytes) : world :=
  match Node_get w n with
  | Some nn => Node_put w n (mkNode (N.lor info (info_Flags (ninfo nn))) raw [])
  | None => w
  end.
(* node.go:422-426 *)
Definition Node_SetStringRaw w n (s : bytes) := setScalar w n vString s.
(* node.go:429-433 *)
Definition Node_SetFalse w n := setScalar w n vBoolean strFalse.
(* node.go:436-440 *)
Definition Node_SetTrue w n := setScalar w n vBoolean strTrue.
(* node.go:443-447 *)
Definition Node_SetNull w n := setScalar w n vNull strNull.
(* node.go:387-407, with the formatted number as argument *)
Definition Node_SetNumberRaw w n (s : bytes) := setScalar w n vNumber s.

(* document.go:79-86: digits of a path step as int64, with wrap-around. *)
Definition wrap64 (z : Z) : Z :=
  let m := (z mod 18446744073709551616)%Z in
  if (m <? 9223372036854775808)%Z then m else (m - 18446744073709551616)%Z.
Fixpoint stepIndex (key : bytes) (i : Z) : option Z :=
  match key with
  | [] => Some i
  | c :: r =>
      let d := ((bN c + 208) mod 256)%N in          (* c -= '0' on a byte *)
      if (d <=? 9)%N then stepIndex r (wrap64 (i * 10 + Z.of_N d)) else None
  end.

(* document.go:61-97 *)
Fixpoint lookup (ns : list node) (id : N) (path : list bytes) : N :=
  match path with
  | [] => id
  | key :: rest =>
      match getNode ns id with
      | None => maxUint
      | Some n =>
          let t := info_Type (ninfo n) in
          if (t =? TypeObject)%N then
            match findKey key (nvalues n) with
            | Some v => lookup ns (vid v) rest
            | None => maxUint
            end
          else if (t =? TypeArray)%N then
            match stepIndex key 0 with
            | None => maxUint
            | Some i =>
                match inRange i (length (nvalues n)) with
                | Some k => match nth_error (nvalues n) k with
                            | Some v => lookup ns (vid v) rest
                            | None => maxUint
                            end
                | None => maxUint
                end
            end
          else maxUint
      end
  end.

(* node.go:156-158: a nil document has no nodes *)
Definition Node_Lookup (w : world) (n : Node) (path : list bytes) : Node :=
  let ns := match getDoc w (Node_Document w n) with Some d => dnodes d | None => [] end in
  Node_With n (lookup ns (nid n) path).

(* node.go:450-455.  The values slice is a snapshot: a mutation of the node while iterating, which
   would show through the shared backing array, is not modelled. *)
Record IterV := mkIter { iV : V; iindex : Z; ivalues : list V; inode : Node }.
Definition zeroNode : Node := mkN 0 0 None.
Definition zeroV : V := mkV 0 [].

(* node.go:143-148 *)
Definition Node_Values (w : world) (n : Node) : IterV :=
  match Node_get w n with
  | Some x => mkIter zeroV 0 (nvalues x) n
  | None => mkIter zeroV 0 [] zeroNode
  end.
(* node.go:458-461 *)
Definition IterV_Reset (i : IterV) : IterV :=
  mkIter (mkV maxUint (vkey (iV i))) 0 (ivalues i) (inode i).
(* node.go:464-471 *)
Definition IterV_Close (i : IterV) : IterV := mkIter (mkV maxUint []) (-1) [] zeroNode.
(* node.go:474-484 *)
Definition IterV_Next (i : IterV) : IterV * bool :=
  match inRange (iindex i) (length (ivalues i)) with
  | Some k => (mkIter (nth k (ivalues i) zeroV) (iindex i + 1) (ivalues i) (inode i), true)
  | None => (mkIter (mkV maxUint (vkey (iV i))) (-1) (ivalues i) (inode i), false)
  end.
(* node.go:487-501 *)
Definition IterV_Len (i : IterV) : nat := length (ivalues i).
Definition IterV_Index (i : IterV) : Z := (iindex i - 1)%Z.
Definition IterV_Value (i : IterV) : Node := Node_With (inode i) (vid (iV i)).
