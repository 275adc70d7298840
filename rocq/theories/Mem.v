(* Memory-level model of node storage: backing arrays, slices with spare capacity, pointers to node
   records, and their reuse by parser.go, document.go and node.go.  Doc.v and Parser.v give every
   node a list of its own; here values are slices of shared, recycled arrays.

   A document's `nodes` slice always starts at the front of its array, and no slice expression in
   the code limits the capacity, so the capacity of a slice is what is left of its array.  Arrays
   are never freed (garbage collection only reclaims what nothing refers to).  Reads go through the
   heap at the time they happen. *)
From Verif Require Import Bytes Tables Types Parser Doc Api.

(* A []V: array (None is nil), offset and length.  document.go:17-23 `values []V` *)
Record slice := mkS { sarr : option nat; soff : nat; slen : nat }.
Definition nilS : slice := mkS None 0 0.

(* document.go:17-23  type node *)
Record slot := mkSlot { sinfo : N; sraw : bytes; svals : slice }.
Definition zeroSlot : slot := mkSlot 0 [] nilS.

(* The arrays of V and the arrays of node. *)
Record heap := mkH { varrs : list (list V); narrs : list (list slot) }.
(* document.go:12-15: d.nodes is array [marr] with length [mlen]; its capacity is the array's. *)
Record mdoc := mkMD { marr : nat; mlen : nat; mrev : N }.
Record mem := mkM { mheap : heap; mdocs : list mdoc }.

(* The runtime's choices: capacity beyond what append needs, for []V and []node, and the capacity
   of a new document's nodes (nil, or minNumNodes in document.go:370-383); they may differ at every
   allocation. *)
Record policy := mkPol { polV : nat -> nat; polN : nat -> nat; polD : nat -> nat }.

Definition varr (h : heap) (x : nat) : list V := nth x (varrs h) [].
Definition narr (h : heap) (a : nat) : list slot := nth a (narrs h) [].

(* Assign l to the elements from index off on. *)
Fixpoint overwrite (a : list V) (off : nat) (l : list V) : list V :=
  match a with
  | [] => []
  | x :: r =>
      match off with
      | S o => x :: overwrite r o l
      | O => match l with [] => a | y :: l' => y :: overwrite r O l' end
      end
  end.

(* s[i:], s[:j], cap(s), s[:cap(s)], the elements *)
Definition sfrom (s : slice) (i : nat) : slice := mkS (sarr s) (soff s + i) (slen s - i).
Definition sto (s : slice) (j : nat) : slice := mkS (sarr s) (soff s) j.
Definition scap (h : heap) (s : slice) : nat :=
  match sarr s with None => O | Some x => length (varr h x) - soff s end.
Definition sfull (h : heap) (s : slice) : slice := sto s (scap h s).
Definition sread (h : heap) (s : slice) : list V :=
  match sarr s with None => [] | Some x => firstn (slen s) (skipn (soff s) (varr h x)) end.
(* s[0], s[1], ... = l *)
Definition wset (h : heap) (s : slice) (l : list V) : heap :=
  match sarr s with
  | None => h
  | Some x => mkH (replaceNth (varrs h) x (overwrite (varr h x) (soff s) l)) (narrs h)
  end.
(* s[i] = v *)
Definition wput (h : heap) (s : slice) (i : nat) (v : V) : heap := wset h (sfrom s i) [v].
(* for i := range s { s[i] = V{} } *)
Definition wclear (h : heap) (s : slice) : heap := wset h s (repeat zeroV (slen s)).
(* make, for an array holding l *)
Definition valloc (h : heap) (l : list V) : heap * nat :=
  (mkH (varrs h ++ [l]) (narrs h), length (varrs h)).

(* append(s, v): in place while there is capacity, else a larger copy *)
Definition goAppend (pol : policy) (h : heap) (s : slice) (v : V) : heap * slice :=
  if slen s <? scap h s then (wput h s (slen s) v, sto s (S (slen s)))
  else let (h, x) := valloc h (sread h s ++ [v] ++ repeat zeroV (polV pol (length (varrs h)))) in
       (h, mkS (Some x) 0 (S (slen s))).

(* parser.go:65-76 *)
Definition m_appendV (h : heap) (s : slice) (v : V) (i : nat) : heap * slice :=
  if i <? slen s then (wput h s i v, s)
  else
    let tmp := sread h s ++ repeat zeroV (slen s + 1) in
    let (h, x) := valloc h tmp in
    let s' := mkS (Some x) 0 (2 * slen s + 1) in
    ((if i <? slen s' then wput h s' i v else h), s').

(* Pointers to node records are pairs of an array and an index. *)
Definition sget (h : heap) (p : nat * nat) : option slot := nth_error (narr h (fst p)) (snd p).
Definition sput (h : heap) (p : nat * nat) (x : slot) : heap :=
  mkH (varrs h) (replaceNth (narrs h) (fst p) (replaceNth (narr h (fst p)) (snd p) x)).
Definition setVals (x : slot) (s : slice) : slot := mkSlot (sinfo x) (sraw x) s.

(* ---- parser.go ---- *)

(* parser.go:47-64  node(): nodes array a, p.n = n.  Returns the array holding the record p.n. *)
Definition p_node (h : heap) (a n : nat) : heap * nat :=
  if n <? length (narr h a) then (h, a)
  else (mkH (varrs h) (narrs h ++ [narr h a ++ repeat zeroSlot (length (narr h a) + 1)]),
        length (narrs h)).

(* p.n, and the position and remaining input as in Parser.v *)
Inductive mpres :=
| MOk (h : heap) (a n : nat) (pos : N) (rest : bytes)
| MErr (h : heap) (e : perror)
| MPanic
| MFuel.

(* n.set(info, raw); clear n.values; n.values = n.values[:0]  (parser.go:204-208, 215 and 226-230) *)
Definition p_blank (h : heap) (p : nat * nat) (info : N) (raw : bytes) : option heap :=
  match sget h p with
  | None => None
  | Some x => Some (sput (wclear h (svals x)) p (mkSlot info raw (sto (svals x) 0)))
  end.

(* parser.go:202-209, label done *)
Definition m_done (h : heap) (a n : nat) (info : N) (raw : bytes) (pos : N) (rest : bytes) : mpres :=
  let (h, a) := p_node h a n in
  match p_blank h (a, n) info raw with
  | Some h => MOk h a (S n) pos rest
  | None => MPanic
  end.

(* parser.go:172-201 *)
Definition m_literal (h : heap) (a n : nat) (info typ : N) (lit : bytes) (s : bytes) (pos : N) : mpres :=
  if length lit <=? length s then
    let w := firstn (length lit) s in
    if bseqb w lit then m_done h a n info w (pos + N.of_nat (length lit)) (skipn (length lit) s)
    else MErr h (ParseError pos typ (GotStr w) (WantStr lit))
  else MErr h (UnexpectedEOF typ).

(* parser.go:255-268 and 374-391: the end of an array or object.  [p] is the pointer n, which may
   point into an array the parser has left; [vs] is `values`. *)
Definition p_finish (h : heap) (a : nat) (p : nat * nat) (vs : slice) (numV : nat) : option heap :=
  match sget h p with
  | None => None
  | Some x =>
      let s := svals x in
      let '(h, vs) :=
        if numV <? slen s then
          (wclear (sput h p (setVals x (sfrom s numV))) (sfrom s numV), sto s numV)
        else if numV <? slen vs then (h, sto vs numV) else (h, vs) in
      if snd p <? length (narr h a) then
        match sget h (a, snd p) with
        | None => None
        | Some y => Some (sput h (a, snd p) (setVals y vs))
        end
      else Some h
  end.

(* parser.go:83-209 *)
Fixpoint m_value (fuel : nat) (h : heap) (a n : nat) (s : bytes) (pos : N) {struct fuel} : mpres :=
  match fuel with O => MFuel | S f =>
  let '(s, pos) := skipSpace s pos in
  match s with
  | [] => MErr h (UnexpectedEOF TypeAnyValue)
  | c :: r =>
      if beqb c delimString then
        match readString r with
        | Some i => m_done h a n vString (firstn i r) (pos + 1 + N.of_nat i + 1) (skipn (S i) r)
        | None => MErr h (UnexpectedEOF TypeString)
        end
      else if beqb c delimBeginObject then m_object f h a n r (pos + 1)
      else if beqb c delimBeginArray then m_array f h a n r (pos + 1)
      else if beqb (tbl bytemapIsDigit c) x01 || beqb c x2d then
        (let i := readNumber s in
         m_done h a n vNumber (firstn i s) (pos + N.of_nat i) (skipn i s))
      else if beqb c x6e then m_literal h a n vNull TypeNull strNull s pos
      else if beqb c x66 then m_literal h a n vBoolean TypeBoolean strFalse s pos
      else if beqb c x74 then m_literal h a n vBoolean TypeBoolean strTrue s pos
      else MErr h (ParseError pos TypeAnyValue (GotByte c) (WantStr (str "any value")))
  end
  end

(* parser.go:212-238 *)
with m_array (fuel : nat) (h : heap) (a n : nat) (s : bytes) (pos : N) {struct fuel} : mpres :=
  match fuel with O => MFuel | S f =>
  let (h, a) := p_node h a n in
  match sget h (a, n) with
  | None => MPanic
  | Some x =>
      let h := sput h (a, n) (mkSlot vArray [] (svals x)) in
      let '(s, pos) := skipSpace s pos in
      match s with
      | [] => MErr h (UnexpectedEOF TypeArray)
      | c :: r =>
          if beqb c delimEndArray then
            match p_blank h (a, n) vArray [] with
            | Some h => MOk h a (S n) (pos + 1) r
            | None => MPanic
            end
          else m_element f h a (S n) (a, n) (sfull h (svals x)) 0 s pos
      end
  end
  end

(* parser.go:239-275, label readValue: [p] is the pointer n, [vs] values *)
with m_element (fuel : nat) (h : heap) (a n : nat) (p : nat * nat) (vs : slice) (numV : nat)
  (s : bytes) (pos : N) {struct fuel} : mpres :=
  match fuel with O => MFuel | S f =>
  let (h, vs) := m_appendV h vs (mkV (N.of_nat n) []) numV in
  match m_value f h a n s pos with
  | MOk h a n pos s =>
      let '(s, pos) := skipSpace s pos in
      match s with
      | [] => MErr h (UnexpectedEOF TypeArray)
      | c :: r =>
          if beqb c delimValueSeparator then m_element f h a n p vs (S numV) r (pos + 1)
          else if beqb c delimEndArray then
            match p_finish h a p vs (S numV) with
            | Some h => MOk h a n (pos + 1) r
            | None => MPanic
            end
          else MErr h (ParseError pos TypeArray (GotByte c)
                                  (WantRunes [delimValueSeparator; delimEndArray]))
      end
  | e => e
  end
  end

(* parser.go:279-310 *)
with m_object (fuel : nat) (h : heap) (a n : nat) (s : bytes) (pos : N) {struct fuel} : mpres :=
  match fuel with O => MFuel | S f =>
  let (h, a) := p_node h a n in
  match sget h (a, n) with
  | None => MPanic
  | Some x =>
      let h := sput h (a, n) (mkSlot vObject [] (svals x)) in
      let '(s, pos) := skipSpace s pos in
      match s with
      | [] => MErr h (UnexpectedEOF TypeObject)
      | c :: r =>
          if beqb c delimEndObject then
            match p_blank h (a, n) vObject [] with
            | Some h => MOk h a (S n) (pos + 1) r
            | None => MPanic
            end
          else if beqb c delimString then m_key f h a (S n) (a, n) (sfull h (svals x)) 0 r (pos + 1)
          else MErr h (ParseError pos TypeObject (GotByte c) (WantRunes [delimEndObject; delimString]))
      end
  end
  end

(* parser.go:312-398, labels readKey and readValue *)
with m_key (fuel : nat) (h : heap) (a n : nat) (p : nat * nat) (vs : slice) (numV : nat)
  (s : bytes) (pos : N) {struct fuel} : mpres :=
  match fuel with O => MFuel | S f =>
  match scanQuote s 0 with
  | None => MErr h (UnexpectedEOF TypeObject)
  | Some i =>
      let (h, vs) := m_appendV h vs (mkV (N.of_nat n) (firstn i s)) numV in
      let '(s, pos) := skipSpace (skipn (S i) s) (pos + 1 + N.of_nat i) in
      match s with
      | [] => MErr h (UnexpectedEOF TypeObject)
      | c :: r =>
          if beqb c delimNameSeparator then
            match m_value f h a n r (pos + 1) with
            | MOk h a n pos s =>
                let '(s, pos) := skipSpace s pos in
                match s with
                | [] => MErr h (UnexpectedEOF TypeObject)
                | c :: r =>
                    if beqb c delimValueSeparator then
                      (let '(s, pos) := skipSpace r (pos + 1) in
                       match s with
                       | [] => MErr h (UnexpectedEOF TypeObject)
                       | c :: r =>
                           if beqb c delimString then m_key f h a n p vs (S numV) r (pos + 1)
                           else MErr h (ParseError pos TypeObject (GotByte c) (WantRune delimString))
                       end)
                    else if beqb c delimEndObject then
                      match p_finish h a p vs (S numV) with
                      | Some h => MOk h a n (pos + 1) r
                      | None => MPanic
                      end
                    else MErr h (ParseError pos TypeObject (GotByte c)
                                            (WantRunes [delimValueSeparator; delimEndObject]))
                end
            | e => e
            end
          else MErr h (ParseError pos TypeObject (GotByte c) (WantRune delimNameSeparator))
      end
  end
  end.

Definition putMD (ds : list mdoc) (r : ref) (d : mdoc) : list mdoc := replaceNth ds r d.

(* parser.go:14-41.  On failure d.nodes keeps its array and length. *)
Definition m_Parse (m : mem) (r : ref) (s : bytes) : res mem :=
  match nth_error (mdocs m) r with
  | None => Panic
  | Some d =>
      match m_value (parseFuel s) (mheap m) (marr d) (mlen d) s 0 with
      | MOk h a n _ _ =>
          match sget h (a, mlen d) with            (* d.get(id).info |= infRoot *)
          | Some x =>
              Ok (mkM (sput h (a, mlen d) (mkSlot (N.lor (sinfo x) infRoot) (sraw x) (svals x)))
                      (putMD (mdocs m) r (mkMD a n (mrev d))))
          | None => Panic
          end
      | MErr h _ => Ok (mkM h (mdocs m))
      | MPanic => Panic
      | MFuel => Diverge
      end
  end.

(* ---- document.go ---- *)

(* document.go:357-364  grow(): the array that holds the record number len(d.nodes) afterwards *)
Definition d_grow (pol : policy) (h : heap) (a n : nat) : heap * nat :=
  if n <? length (narr h a) then (h, a)
  else (mkH (varrs h) (narrs h ++ [narr h a ++ [zeroSlot] ++ repeat zeroSlot (polN pol (length (narrs h)))]),
        length (narrs h)).

(* document.go:49-58  reset(inf, raw, n.values[:0]) through a pointer *)
Definition s_reset (h : heap) (p : nat * nat) (inf : N) (raw : bytes) : option heap := p_blank h p inf raw.

(* document.go:99-164 *)
Definition m_newNode (pol : policy) (m : mem) (r : ref) (info : N) (raw : bytes) : res mem :=
  match nth_error (mdocs m) r with
  | None => Panic
  | Some d =>
      let (h, a) := d_grow pol (mheap m) (marr d) (mlen d) in
      match s_reset h (a, mlen d) (N.lor info infRoot) raw with
      | Some h => Ok (mkM h (putMD (mdocs m) r (mkMD a (S (mlen d)) (mrev d))))
      | None => Panic
      end
  end.

(* document.go:167-171 *)
Definition m_Reset (m : mem) (r : ref) : res mem :=
  match nth_error (mdocs m) r with
  | None => Panic
  | Some d => Ok (mkM (mheap m) (putMD (mdocs m) r (mkMD (marr d) 0 ((mrev d + 1) mod two64)%N)))
  end.

(* document.go:310-317, the loop of ncopy from index i on, [k] iterations left.  [p] is the pointer
   n; [other] the array and length of other's nodes, None when other is the growing document. *)
Fixpoint m_copyValues (rec : heap -> nat -> nat -> nat * nat -> option (heap * nat * nat * N))
  (other : option (nat * nat)) (p : nat * nat) (k i : nat) (h : heap) (a n : nat)
  (values : slice) (numV : nat) : option (heap * nat * nat * slice * nat) :=
  match k with
  | O => Some (h, a, n, values, numV)
  | S k' =>
      match sget h p with
      | None => None
      | Some x =>
          match nth_error (sread h (svals x)) i with
          | None => None
          | Some v =>
              let '(oa, on) := match other with Some o => o | None => (a, n) end in
              if (vid v <? N.of_nat on)%N then       (* other.get(v.id) *)
                match rec h a n (oa, N.to_nat (vid v)) with
                | None => None
                | Some (h, a, n, cid) =>
                    let (h, values) := m_appendV h values (mkV cid (vkey v)) numV in
                    m_copyValues rec other p k' (S i) h a n values (S numV)
                end
              else m_copyValues rec other p k' (S i) h a n values numV
          end
      end
  end.

(* document.go:301-320  ncopy on a document whose nodes are array a with length n.  None is
   divergence (or a nil pointer, which MemThms rules out). *)
Fixpoint m_ncopy (pol : policy) (fuel : nat) (other : option (nat * nat)) (h : heap) (a n : nat)
  (p : nat * nat) {struct fuel} : option (heap * nat * nat * N) :=
  match fuel with O => None | S f =>
  let (h, a) := d_grow pol h a n in
  match sget h (a, n), sget h p with
  | Some cp, Some x =>
      let values := sfull h (svals cp) in
      let h := sput h (a, n) (mkSlot (sinfo x) (sraw x) nilS) in
      match m_copyValues (m_ncopy pol f other) other p (slen (svals x)) 0 h a (S n) values 0 with
      | Some (h, a, n', values, numV) =>
          match sget h (a, n) with
          | Some y => Some (sput h (a, n) (setVals y (sto values numV)), a, n', N.of_nat n)
          | None => None
          end
      | None => None
      end
  | _, _ => None
  end
  end.

Definition m_getDoc (m : mem) (r : option ref) : option mdoc :=
  match r with None => None | Some i => nth_error (mdocs m) i end.

(* document.go:343-355 *)
Definition m_copyOrAdopt (pol : policy) (m : mem) (r : ref) (other : option ref) (id to : N)
  : res (mem * N) :=
  match nth_error (mdocs m) r with None => Panic | Some d =>
  match m_getDoc m other with
  | None => Ok (m, maxUint)
  | Some o =>
      if (id <? N.of_nat (mlen o))%N then
        let p := (marr o, N.to_nat id) in
        match sget (mheap m) p with
        | None => Panic
        | Some x =>
            let same := opt_ref_eqb other (Some r) in
            if same && negb (id =? to)%N && info_IsRoot (sinfo x) && negb (id =? 0)%N then
              Ok (mkM (sput (mheap m) p (mkSlot (N.ldiff (sinfo x) infRoot) (sraw x) (svals x))) (mdocs m), id)
            else
              match m_ncopy pol (S (S (mlen o))) (if same then None else Some (marr o, mlen o))
                            (mheap m) (marr d) (mlen d) p with
              | None => Diverge
              | Some (h, a, n, cid) => Ok (mkM h (putMD (mdocs m) r (mkMD a n (mrev d))), cid)
              end
        end
      else Ok (m, maxUint)
  end
  end.

(* ---- node.go ---- *)

(* node.go:40-47 *)
Definition m_Document (m : mem) (n : Node) : option ref :=
  match m_getDoc m (ndoc n) with
  | Some d => if (mrev d =? nrev n)%N then ndoc n else None
  | None => None
  end.
(* document.go:174-179: &d.nodes[id] *)
Definition m_at (d : mdoc) (id : N) : option (nat * nat) :=
  if (id <? N.of_nat (mlen d))%N then Some (marr d, N.to_nat id) else None.
(* node.go:49-59 *)
Definition m_get (m : mem) (n : Node) : option (nat * nat) :=
  match m_getDoc m (ndoc n) with
  | Some d => if (mrev d =? nrev n)%N then m_at d (nid n) else None
  | None => None
  end.
Definition withHeap (m : mem) (h : heap) : mem := mkM h (mdocs m).

(* node.go:280-290: v.id = id through &nn.values[i], or append *)
Definition m_assignKey (pol : policy) (h : heap) (s : slice) (key : bytes) (id : N) : heap * slice :=
  match keyIndex key (sread h s) with
  | Some i => (wput h s i (mkV id (vkey (nth i (sread h s) zeroV))), s)
  | None => goAppend pol h s (mkV id key)
  end.

(* node.go:272-293 *)
Definition m_Set (pol : policy) (m : mem) (n : Node) (key : bytes) (value : Node) : res mem :=
  match m_get m n, ndoc n with
  | Some p, Some r =>
      match sget (mheap m) p with
      | None => Panic
      | Some nn =>
          if info_IsObject (sinfo nn) then
            let! (m, id) := m_copyOrAdopt pol m r (m_Document m value) (nid value) (nid n) in
            if (id <? maxUint)%N then
              match m_get m n with
              | Some p =>
                  match sget (mheap m) p with
                  | None => Panic
                  | Some nn =>
                      let (h, s) := m_assignKey pol (mheap m) (svals nn) key id in
                      Ok (withHeap m (sput h p (setVals nn s)))
                  end
              | None => Panic
              end
            else Ok m
          else Ok m
      end
  | _, _ => Ok m
  end.

(* node.go:302-307 *)
Fixpoint m_appendIds (pol : policy) (m : mem) (r : ref) (to : N) (vals : list Node) (vv : slice)
  : res (mem * slice) :=
  match vals with
  | [] => Ok (m, vv)
  | v :: rest =>
      let! (m, id) := m_copyOrAdopt pol m r (m_Document m v) (nid v) to in
      let (h, vv) := goAppend pol (mheap m) vv (mkV id []) in
      m_appendIds pol (withHeap m h) r to rest vv
  end.

(* node.go:296-311 *)
Definition m_Append (pol : policy) (m : mem) (n : Node) (vals : list Node) : res mem :=
  match vals with [] => Ok m | _ =>
  match m_get m n, ndoc n with
  | Some p, Some r =>
      match sget (mheap m) p with
      | None => Panic
      | Some nn =>
          if info_IsArray (sinfo nn) then
            let! (m, vv) := m_appendIds pol m r (nid n) vals (svals nn) in
            match m_get m n with
            | Some p =>
                match sget (mheap m) p with
                | None => Panic
                | Some nn => Ok (withHeap m (sput (mheap m) p (setVals nn vv)))
                end
            | None => Panic
            end
          else Ok m
      end
  | _, _ => Ok m
  end
  end.

(* node.go:316-320: n.values[i:j] *)
Definition m_Slice (m : mem) (n : Node) (i j : Z) : res mem :=
  match m_get m n with
  | Some p =>
      match sget (mheap m) p with
      | None => Panic
      | Some nn =>
          if info_IsArray (sinfo nn) &&
             ((0 <=? i) && (i <? j) && (j <? Z.of_nat (slen (svals nn))))%Z
          then Ok (withHeap m (sput (mheap m) p
                 (setVals nn (sfrom (sto (svals nn) (Z.to_nat j)) (Z.to_nat i)))))
          else Ok m
      end
  | None => Ok m
  end.

(* node.go:323-332 *)
Definition m_Replace (pol : policy) (m : mem) (n : Node) (i : Z) (value : Node) : res mem :=
  match m_get m n, ndoc n with
  | Some p, Some r =>
      match sget (mheap m) p with
      | None => Panic
      | Some nn =>
          if info_IsArray (sinfo nn) then
            match inRange i (slen (svals nn)) with
            | Some k =>
                let! (m, id) := m_copyOrAdopt pol m r (m_Document m value) (nid value) (nid n) in
                if (id <? maxUint)%N then
                  match m_get m n with
                  | Some p =>
                      match sget (mheap m) p with
                      | None => Panic
                      | Some nn =>
                          if k <? slen (svals nn)
                          then Ok (withHeap m (wput (mheap m) (svals nn) k (mkV id [])))
                          else Panic
                      end
                  | None => Panic
                  end
                else Ok m
            | None => Ok m
            end
          else Ok m
      end
  | _, _ => Ok m
  end.

(* node.go:340-343, 354-356, 376-378: n.values[j] = V{}; n.values = n.values[:j], j the last *)
Definition m_dropLast (h : heap) (p : nat * nat) (nn : slot) : heap :=
  let s := svals nn in
  let j := slen s - 1 in
  sput (wput h s j zeroV) p (setVals nn (sto s j)).

(* node.go:335-345 *)
Definition m_Remove (m : mem) (n : Node) (i : Z) : res mem :=
  match m_get m n with
  | Some p =>
      match sget (mheap m) p with
      | None => Panic
      | Some nn =>
          if info_IsArray (sinfo nn) then
            match inRange i (slen (svals nn)) with
            | Some k =>
                let h := mheap m in
                let s := svals nn in
                let h := if S k <? slen s
                         then wset h (sfrom s k) (sread h (sfrom s (S k)))   (* copy *)
                         else h in
                Ok (withHeap m (m_dropLast h p nn))
            | None => Ok m
            end
          else Ok m
      end
  | None => Ok m
  end.

(* node.go:353-356, 375-378: n.values[i] = n.values[j] and drop the last *)
Definition m_swapRemove (h : heap) (p : nat * nat) (nn : slot) (i : nat) : heap :=
  let s := svals nn in
  m_dropLast (wput h s i (nth (slen s - 1) (sread h s) zeroV)) p nn.

(* node.go:371-384 *)
Definition m_Del (m : mem) (n : Node) (key : bytes) : res mem :=
  match m_get m n with
  | Some p =>
      match sget (mheap m) p with
      | None => Panic
      | Some nn =>
          if info_IsObject (sinfo nn) then
            match keyIndex key (sread (mheap m) (svals nn)) with
            | Some i => Ok (withHeap m (m_swapRemove (mheap m) p nn i))
            | None => Ok m
            end
          else Ok m
      end
  | None => Ok m
  end.

(* node.go:357-359 *)
Fixpoint m_stripFrom (rec : heap -> N -> res heap) (p : nat * nat) (k : nat) (h : heap) (j : nat)
  : res heap :=
  match k with
  | O => Ok h
  | S k' =>
      match sget h p with
      | None => Panic
      | Some nn =>
          match nth_error (sread h (svals nn)) j with
          | None => Ok h
          | Some v => let! h := rec h (vid v) in m_stripFrom rec p k' h (S j)
          end
      end
  end.

(* node.go:350-364 *)
Fixpoint m_stripLoop (rec : heap -> N -> res heap) (p : nat * nat) (key : bytes) (k : nat)
  (h : heap) (i : nat) : res heap :=
  match k with
  | O => Ok h
  | S k' =>
      match sget h p with
      | None => Panic
      | Some nn =>
          match nth_error (sread h (svals nn)) i with
          | None => Panic
          | Some v =>
              if bseqb key (vkey v) then
                m_stripFrom rec p (slen (svals nn) - 1) (m_swapRemove h p nn i) i
              else let! h := rec h (vid v) in m_stripLoop rec p key k' h (S i)
          end
      end
  end.

(* node.go:348-367 *)
Fixpoint m_strip (fuel : nat) (d : mdoc) (key : bytes) (h : heap) (id : N) {struct fuel} : res heap :=
  match fuel with O => Diverge | S f =>
  match m_at d id with
  | None => Ok h
  | Some p =>
      match sget h p with
      | None => Panic
      | Some nn =>
          if info_IsObject (sinfo nn)
          then m_stripLoop (m_strip f d key) p key (slen (svals nn)) h 0
          else Ok h
      end
  end
  end.
Definition m_Strip (m : mem) (n : Node) (key : bytes) : res mem :=
  match m_get m n, m_getDoc m (ndoc n) with
  | Some _, Some d =>
      let! h := m_strip (S (S (mlen d))) d key (mheap m) (nid n) in Ok (withHeap m h)
  | _, _ => Ok m
  end.

(* node.go:387-447: n.reset(info|n.info.Flags(), raw, n.values[:0]) *)
Definition m_setScalar (m : mem) (n : Node) (info : N) (raw : bytes) : res mem :=
  match m_get m n with
  | Some p =>
      match sget (mheap m) p with
      | None => Panic
      | Some x =>
          match s_reset (mheap m) p (N.lor info (info_Flags (sinfo x))) raw with
          | Some h => Ok (withHeap m h)
          | None => Panic
          end
      end
  | None => Ok m
  end.

(* The calls of Api.v on memory. *)
Definition mstep (pol : policy) (m : mem) (c : call) : res mem :=
  match c with
  | CNewDoc =>
      let h := mheap m in
      Ok (mkM (mkH (varrs h) (narrs h ++ [repeat zeroSlot (polD pol (length (narrs h)))]))
              (mdocs m ++ [mkMD (length (narrs h)) 0 0]))
  | CReset r => m_Reset m r
  | CParse r s => m_Parse m r s
  | CNull r => m_newNode pol m r vNull strNull
  | CFalse r => m_newNode pol m r vBoolean strFalse
  | CTrue r => m_newNode pol m r vBoolean strTrue
  | CTextRaw r s => m_newNode pol m r vString s
  | CObject r => m_newNode pol m r vObject []
  | CArray r => m_newNode pol m r vArray []
  | CNumberRaw r s => m_newNode pol m r vNumber s
  | CSet n k v => m_Set pol m n k v
  | CAppend n vs => m_Append pol m n vs
  | CSlice n i j => m_Slice m n i j
  | CReplace n i v => m_Replace pol m n i v
  | CRemove n i => m_Remove m n i
  | CStrip n k => m_Strip m n k
  | CDel n k => m_Del m n k
  | CSetNumberRaw n s => m_setScalar m n vNumber s
  | CSetStringRaw n s => m_setScalar m n vString s
  | CSetFalse n => m_setScalar m n vBoolean strFalse
  | CSetTrue n => m_setScalar m n vBoolean strTrue
  | CSetNull n => m_setScalar m n vNull strNull
  end.

Fixpoint mrun (pol : policy) (m : mem) (cs : list call) : res mem :=
  match cs with
  | [] => Ok m
  | c :: r => let! m' := mstep pol m c in mrun pol m' r
  end.

(* No documents yet. *)
Definition emptyMem : mem := mkM (mkH [] []) [].
