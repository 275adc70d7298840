(* Model of parser.go, of the node storage of document.go it fills, and of error.go's errors. *)
From Verif Require Import Bytes Tables Types.

(* document.go:25-30  type V *)
Record V := mkV { vid : N; vkey : bytes }.
(* document.go:17-23  type node.  Simplified: `values` is the list of its live elements; capacity,
   recycling and aliasing of the backing arrays are modelled in Mem.v. *)
Record node := mkNode { ninfo : N; nraw : bytes; nvalues : list V }.

(* parser.go:402-411 *)
Definition delimString         : byte := x22.
Definition delimEscape         : byte := x5c.
Definition delimBeginObject    : byte := x7b.
Definition delimEndObject      : byte := x7d.
Definition delimBeginArray     : byte := x5b.
Definition delimEndArray       : byte := x5d.
Definition delimNameSeparator  : byte := x3a.
Definition delimValueSeparator : byte := x2c.

(* bytemaps.go:9-19 *)
Definition isDigit (c : byte) : bool := beqb (tbl bytemapIsDigit c) x01.
Definition isNumberEnd (c : byte) : bool := beqb (tbl bytemapIsNumberEnd c) x01.
Definition isSpace (c : byte) : bool := beqb (tbl bytemapIsSpace c) x01.

(* The dynamic values stored in ParseError.got / ParseError.want (error.go:22-28). *)
Inductive token := GotByte (c : byte) | GotStr (s : bytes).
Inductive wanted := WantStr (s : bytes) | WantRune (c : byte) | WantRunes (cs : list byte).

(* error.go:22-28, 48-61.  A parse failure: UnexpectedEOF(typ) or *ParseError. *)
Inductive perror :=
| UnexpectedEOF (typ : N)
| ParseError (pos : N) (typ : N) (got : token) (want : wanted).

(* Outcome of the parser's methods.  parser.go signals failure through p.err; the position is then
   not used, and the nodes written so far are dropped by Parse.  POk carries the p.n nodes in use,
   the position, and the input from that position on. *)
Inductive pres :=
| POk (ns : list node) (pos : N) (rest : bytes)
| PErr (e : perror)
| PFuel.

(* The loops `for ; pos < uint(len(s)); pos++ { c = s[pos]; if bytemapIsSpace[c] == 0 ...`
   (parser.go:89-91, 223-225, 249-253/270, 291/305, 333-341, 359/393, 364-371): advance over
   spaces.  `tbl bytemapIsSpace c = x00` is the loop's exit test. *)
Fixpoint skipSpace (s : bytes) (pos : N) : bytes * N :=
  match s with
  | c :: r => if beqb (tbl bytemapIsSpace c) x00 then (s, pos) else skipSpace r (pos + 1)%N
  | [] => ([], pos)
  end.

(* strings.IndexByte *)
Fixpoint indexByte (c : byte) (s : bytes) : option nat :=
  match s with
  | [] => None
  | x :: r => if beqb x c then Some O else option_map S (indexByte c r)
  end.

(* parser.go:148-159 and 323-347: scan for the closing quote from offset i, a backslash jumps over
   the next byte.  [s] is the input from offset i. *)
Fixpoint scanQuote (s : bytes) (i : nat) : option nat :=
  match s with
  | [] => None
  | c :: r =>
      if beqb c delimString then Some i
      else if beqb c delimEscape then
             match r with [] => None | _ :: r' => scanQuote r' (S (S i)) end
           else scanQuote r (S i)
  end.

(* parser.go:137-171, label readString.  [s] is the input after the opening quote.  Result: offset
   in s of the closing quote, None for eof. *)
Definition readString (s : bytes) : option nat :=
  match s with
  | [] => None                                        (* pos++; pos < len(s) fails *)
  | _ =>
      match indexByte delimString s with
      | None => None                                  (* i = -2: neither branch, eof *)
      | Some O => Some O                              (* i = -1: s = "" *)
      | Some (S i) =>
          if beqb (nth i s x00) delimEscape
          then scanQuote (skipn (i + 2) s) (i + 2)    (* i += 2 and scan *)
          else Some (S i)                             (* i++; s[:i] *)
      end
  end.

(* parser.go:125-136, label readNumber: length of the run before the first number end. *)
Fixpoint readNumber (s : bytes) : nat :=
  match s with
  | [] => O
  | c :: r => if beqb (tbl bytemapIsNumberEnd c) x00 then S (readNumber r) else O
  end.

(* parser.go:202-209, label done: a fresh node without values. *)
Definition pdone (ns : list node) (info : N) (raw : bytes) (pos : N) (rest : bytes) : pres :=
  POk (ns ++ [mkNode info raw []]) pos rest.

(* parser.go:172-201, labels readTrue, readFalse, readNull. [s] starts at pos. *)
Definition readLiteral (ns : list node) (info typ : N) (lit : bytes) (s : bytes) (pos : N) : pres :=
  if length lit <=? length s then
    let w := firstn (length lit) s in
    if bseqb w lit then pdone ns info w (pos + N.of_nat (length lit)) (skipn (length lit) s)
    else PErr (ParseError pos typ (GotStr w) (WantStr lit))
  else PErr (UnexpectedEOF typ).

(* p.nodes[id].values = values  (parser.go:265-267, 387-390) *)
Fixpoint setValues (ns : list node) (id : nat) (vs : list V) : list node :=
  match ns, id with
  | [], _ => []
  | n :: r, O => mkNode (ninfo n) (nraw n) vs :: r
  | n :: r, S i => n :: setValues r i vs
  end.

Definition lenN {A} (l : list A) : N := N.of_nat (length l).

(* parser.go:83-400.  [s] is the input from position [pos] on, [ns] the nodes in use.  The id of the
   next node is p.n = length ns.  appendV (parser.go:65-76) at index numV = length vs is modelled
   as appending to the list vs of the values read so far. *)
Fixpoint parseValue (fuel : nat) (ns : list node) (s : bytes) (pos : N) {struct fuel} : pres :=
  match fuel with O => PFuel | S f =>
  let '(s, pos) := skipSpace s pos in
  match s with
  | [] => PErr (UnexpectedEOF TypeAnyValue)
  | c :: r =>
      if beqb c delimString then
        match readString r with
        | Some i => pdone ns vString (firstn i r) (pos + 1 + N.of_nat i + 1) (skipn (S i) r)
        | None => PErr (UnexpectedEOF TypeString)
        end
      else if beqb c delimBeginObject then parseObject f ns r (pos + 1)
      else if beqb c delimBeginArray then parseArray f ns r (pos + 1)
      else if beqb (tbl bytemapIsDigit c) x01 || beqb c x2d then
        (let i := readNumber s in
         pdone ns vNumber (firstn i s) (pos + N.of_nat i) (skipn i s))
      else if beqb c x6e then readLiteral ns vNull TypeNull strNull s pos
      else if beqb c x66 then readLiteral ns vBoolean TypeBoolean strFalse s pos
      else if beqb c x74 then readLiteral ns vBoolean TypeBoolean strTrue s pos
      else PErr (ParseError pos TypeAnyValue (GotByte c) (WantStr (str "any value")))
  end
  end

(* parser.go:212-238 *)
with parseArray (fuel : nat) (ns : list node) (s : bytes) (pos : N) {struct fuel} : pres :=
  match fuel with O => PFuel | S f =>
  let id := length ns in
  let ns := ns ++ [mkNode vArray [] []] in
  let '(s, pos) := skipSpace s pos in
  match s with
  | [] => PErr (UnexpectedEOF TypeArray)
  | c :: r =>
      if beqb c delimEndArray then POk ns (pos + 1) r
      else arrayValue f ns id [] s pos
  end
  end

(* parser.go:239-275, label readValue *)
with arrayValue (fuel : nat) (ns : list node) (id : nat) (vs : list V) (s : bytes) (pos : N)
  {struct fuel} : pres :=
  match fuel with O => PFuel | S f =>
  let vs := vs ++ [mkV (lenN ns) []] in
  match parseValue f ns s pos with
  | POk ns pos s =>
      let '(s, pos) := skipSpace s pos in
      match s with
      | [] => PErr (UnexpectedEOF TypeArray)
      | c :: r =>
          if beqb c delimValueSeparator then arrayValue f ns id vs r (pos + 1)
          else if beqb c delimEndArray then POk (setValues ns id vs) (pos + 1) r
          else PErr (ParseError pos TypeArray (GotByte c)
                                (WantRunes [delimValueSeparator; delimEndArray]))
      end
  | e => e
  end
  end

(* parser.go:279-310 *)
with parseObject (fuel : nat) (ns : list node) (s : bytes) (pos : N) {struct fuel} : pres :=
  match fuel with O => PFuel | S f =>
  let id := length ns in
  let ns := ns ++ [mkNode vObject [] []] in
  let '(s, pos) := skipSpace s pos in
  match s with
  | [] => PErr (UnexpectedEOF TypeObject)
  | c :: r =>
      if beqb c delimEndObject then POk ns (pos + 1) r
      else if beqb c delimString then objectKey f ns id [] r (pos + 1)
      else PErr (ParseError pos TypeObject (GotByte c) (WantRunes [delimEndObject; delimString]))
  end
  end

(* parser.go:312-398, labels readKey and readValue.  [s] is the input after the key's opening
   quote. *)
with objectKey (fuel : nat) (ns : list node) (id : nat) (vs : list V) (s : bytes) (pos : N)
  {struct fuel} : pres :=
  match fuel with O => PFuel | S f =>
  match scanQuote s 0 with
  | None => PErr (UnexpectedEOF TypeObject)
  | Some i =>
      let vs := vs ++ [mkV (lenN ns) (firstn i s)] in
      let '(s, pos) := skipSpace (skipn (S i) s) (pos + 1 + N.of_nat i) in
      match s with
      | [] => PErr (UnexpectedEOF TypeObject)
      | c :: r =>
          if beqb c delimNameSeparator then
            match parseValue f ns r (pos + 1) with
            | POk ns pos s =>
                let '(s, pos) := skipSpace s pos in
                match s with
                | [] => PErr (UnexpectedEOF TypeObject)
                | c :: r =>
                    if beqb c delimValueSeparator then
                      (let '(s, pos) := skipSpace r (pos + 1) in
                       match s with
                       | [] => PErr (UnexpectedEOF TypeObject)
                       | c :: r =>
                           if beqb c delimString then objectKey f ns id vs r (pos + 1)
                           else PErr (ParseError pos TypeObject (GotByte c) (WantRune delimString))
                       end)
                    else if beqb c delimEndObject then POk (setValues ns id vs) (pos + 1) r
                    else PErr (ParseError pos TypeObject (GotByte c)
                                          (WantRunes [delimValueSeparator; delimEndObject]))
                end
            | e => e
            end
          else PErr (ParseError pos TypeObject (GotByte c) (WantRune delimNameSeparator))
      end
  end
  end.

(* Fuel that always suffices (ParserProofs.parse_no_fuel). *)
Definition parseFuel (s : bytes) : nat := 3 * length s + 1.

(* Result of Document.Parse: node id and tail, or the error with the returned string. *)
Inductive parse_result :=
| ParseOk (id : N) (tail : bytes)
| ParseFail (tail : bytes) (e : perror)
| ParseDiverges.

(* types.go flag set on the root: d.get(id).info |= infRoot (parser.go:21) *)
Fixpoint orInfo (ns : list node) (id : nat) (f : N) : list node :=
  match ns, id with
  | [], _ => []
  | n :: r, O => mkNode (N.lor (ninfo n) f) (nraw n) (nvalues n) :: r
  | n :: r, S i => n :: orInfo r i f
  end.

(* parser.go:14-34  func (d *Document) Parse.  [ns] are d's nodes before, the first component d's
   nodes after. *)
Definition parseNodes (ns : list node) (s : bytes) : list node * parse_result :=
  match parseValue (parseFuel s) ns s 0 with
  | POk ns' pos rest => (orInfo ns' (length ns) infRoot, ParseOk (lenN ns) rest)
  | PErr (UnexpectedEOF t) => (ns, ParseFail s (UnexpectedEOF t))
  | PErr e => (ns, ParseFail [] e)
  | PFuel => (ns, ParseDiverges)
  end.
