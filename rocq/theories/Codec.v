(* Model of the reflection codecs of unjson: codec.go, omit.go, decode.go, encode.go and the entry points of
   unjson.go.

   Go types are entries of a table; a type id is an index into it.  Decoders and encoders are objects in a heap
   ([cobj]), built with the cache of cache.go:69-124 ([newCodec]).
   Simplifications: values are trees (no aliasing through pointers, no cyclic values); the key encoders and
   values of a map are pairs in a list; methods of user types are arbitrary functions in the table that may
   panic, but do not change the document; strconv.ParseFloat on text that numjson rejects is such a function
   too.  The order in which a map is walked is a function in the table, too. *)
From Verif Require Import Bytes Types Parser Doc DocSpec Strjson Float Num Iface Wrap Options.

Definition tid := nat.
(* reflect.StructField: CanSet tells whether the field is exported; StructTag.Lookup is given *)
Record sfield := mkField { fname : bytes; ftype : tid; fcanset : bool; fanon : bool; ftag : bytes; flookup : bytes -> option bytes }.
(* reflect.Kind; KOther is a kind without codec (chan, func, complex, uintptr); KIface tells NumMethod() > 0 *)
Inductive kind :=
| KBool | KInt (bits : Z) | KUint (bits : Z) | KFloat32 | KFloat64 | KString | KIface (methods : bool)
| KPtr (e : tid) | KSlice (e : tid) | KArray (n : nat) (e : tid) | KMap (k e : tid) | KStruct (fs : list sfield) | KOther.
(* method sets: njson.Appender, json.Marshaler, encoding.TextMarshaler, njson.Unmarshaler, json.Unmarshaler,
   encoding.TextUnmarshaler; hasOmit tells whether there is a method func() bool of the name *)
Record mset := mkM { isAppender : bool; isJSON : bool; isText : bool; isNodeU : bool; isJSONU : bool; isTextU : bool; hasOmit : bytes -> bool }.
Definition noMethods : mset := mkM false false false false false false (fun _ => false).
(* a type, its method set, and that of the pointer to it *)
Record tdef := mkT { tkind : kind; tmeth : mset; tptr : mset }.

(* Go values of the kinds; a slice has its elements and those between its length and capacity; an interface its
   dynamic type *)
Inductive gv : Type :=
| VBool (b : bool) | VInt (z : Z) | VUint (z : Z) | VFloat (f : float) | VString (s : bytes)
| VIface (x : option (tid * gv)) | VPtr (x : option gv) | VSlice (x : option (list gv * list gv))
| VArray (l : list gv) | VMap (x : option (list (gv * gv))) | VStruct (l : list gv) | VOther.

Inductive uerr := UType (e : terr) | UInvalidType | UInvalidValue | UValue | UStrconv | UParse (e : perror) | UMethod (n : N).

Record env := mkEnv {
  user : list tdef;
  callAppend : tid -> gv -> bytes -> res (bytes * option uerr);
  callJSON : tid -> gv -> res (option bytes * option uerr);
  callText : tid -> gv -> res (bytes * option uerr);
  callOmit : tid -> gv -> res bool;            (* the method of the type *)
  callOmitPtr : tid -> gv -> res bool;         (* the method of the pointer type, given the pointed-to value *)
  callNodeU : tid -> gv -> world -> Node -> res (gv * option uerr);
  callJSONU : tid -> gv -> bytes -> res (gv * option uerr);
  callTextU : tid -> gv -> bytes -> res (gv * option uerr);
  scParseFloat : bytes -> option float;
  ftoa : float -> bool -> Z -> bytes;
  mapOrder : bytes -> list (gv * gv) -> list (gv * gv) }.

(* The predeclared types that toInterface makes: interface{}, bool, float64, string, []interface{} and
   map[string]interface{}.  Every other table entry of kind string or interface is a defined type. *)
Definition tIface : tid := 0.
Definition tBool : tid := 1.
Definition tFloat64 : tid := 2.
Definition tString : tid := 3.
Definition tSliceI : tid := 4.
Definition tMapSI : tid := 5.
Definition plainT (k : kind) : tdef := mkT k noMethods noMethods.
Definition stdTypes : list tdef := map plainT [KIface false; KBool; KFloat64; KString; KSlice tIface; KMap tString tIface].
Definition types (E : env) : list tdef := stdTypes ++ user E.
Definition typeOf (E : env) (t : tid) : option tdef := nth_error (types E) t.

(* options.go:9-15 and 37-45, 55-60 (after normalize) *)
Record opts := mkO { oTag : bytes; oOmitEmpty : bool; oOmitMethod : bytes; oNaN : bool; oInf : bool }.
Definition defaultOptions : opts := mkO (str "json") false (str "Omit") false false.
(* decode.go:112-115 *)
Definition decodeOptions : opts := mkO (str "json") false (str "Omit") false false.

(* reflect.Zero.  Arrays and structs nest to less than the number of types. *)
Fixpoint zeroVal (fuel : nat) (E : env) (t : tid) : gv :=
  match fuel with O => VOther | S k =>
  match typeOf E t with
  | None => VOther
  | Some T =>
      match tkind T with
      | KBool => VBool false | KInt _ => VInt 0 | KUint _ => VUint 0 | KFloat32 | KFloat64 => VFloat zeroF | KString => VString []
      | KIface _ => VIface None | KPtr _ => VPtr None | KSlice _ => VSlice None | KMap _ _ => VMap None
      | KArray n e => VArray (repeat (zeroVal k E e) n)
      | KStruct fs => VStruct (map (fun f => zeroVal k E (ftype f)) fs)
      | KOther => VOther
      end
  end
  end.
Definition zero (E : env) (t : tid) : gv := zeroVal (length (types E)) E t.

(* ---- codec.go: the fields of a struct ---- *)

(* codec.go:30-36; the decoder and encoder are in [cobj] *)
Record codec := mkC { ckey : bytes; cindex : list Z; ctype : tid; chints : N }.

(* codec.go:19-27 *)
Fixpoint Get (fields : list codec) (key : bytes) : option codec :=
  match fields with
  | [] => None
  | f :: r => if bseqb (ckey f) key then Some f else Get r key
  end.

(* codec.go:252-259 *)
Fixpoint cmpSame (a b : list Z) : Z :=
  match a, b with
  | j :: a, jj :: b => if (jj <? j)%Z then -1 else if (j <? jj)%Z then 1 else cmpSame a b
  | _, _ => 0
  end.
(* codec.go:245-262 *)
Definition cmpIndex (a b : list Z) : Z :=
  if (length b <? length a)%nat then -1 else if (length a =? length b)%nat then cmpSame a b else 1.

Definition isStruct (E : env) (t : tid) : bool := match typeOf E t with Some T => match tkind T with KStruct _ => true | _ => false end | None => false end.
(* codec.go:108-113: the embedded type, and whether it is behind a pointer *)
Definition embedded (E : env) (t : tid) : tid * bool :=
  match typeOf E t with
  | Some T => match tkind T with KPtr e => (e, true) | _ => (t, false) end
  | None => (t, false)
  end.
(* codec.go:96-155; [rec] is the recursive call of merge, i the number of the first field of fs.  The decoders
   and encoders that lines 127-134 build are left to [makeFields]. *)
Fixpoint mergeFields (rec : tid -> list Z -> list codec -> res (list codec)) (E : env) (O : opts) (index : list Z)
  (i : nat) (fs : list sfield) (c : list codec) : res (list codec) :=
  match fs with
  | [] => Ok c
  | f :: r =>
      if negb (fcanset f) then mergeFields rec E O index (S i) r c else
      match parseField (oOmitEmpty O) (fname f) (ftag f) (flookup f (oTag O)) with
      | None => Diverge
      | Some (tag, hints, tagged) =>
          if bseqb tag (str "-") then mergeFields rec E O index (S i) r c else
          let here := index ++ [Z.of_nat i] in
          let emb := negb tagged && fanon f in
          let (t, p) := if emb then embedded E (ftype f) else (ftype f, false) in
          let idx := if p then here ++ [-1]%Z else here in
          if emb && isStruct E t then
            let! c := rec t idx c in mergeFields rec E O index (S i) r c
          else
            match Get c tag with
            | Some ff => if (cmpIndex (cindex ff) idx =? -1)%Z then mergeFields rec E O index (S i) r (c ++ [mkC tag idx (ftype f) hints])
                         else mergeFields rec E O index (S i) r c
            | None => mergeFields rec E O index (S i) r (c ++ [mkC tag idx (ftype f) hints])
            end
      end
  end.
(* codec.go:89-156.  When structs are embedded deeper than there are types, the recursion is infinite. *)
Fixpoint merge (fuel : nat) (E : env) (O : opts) (t : tid) (index : list Z) (c : list codec) : res (list codec) :=
  match fuel with O => Diverge | S k =>
  match typeOf E t with
  | Some T => match tkind T with KStruct fs => mergeFields (merge k E O) E O index 0 fs c | _ => Panic end
  | None => Panic
  end
  end.
(* codec.go:158-179 *)
Definition structFields (E : env) (O : opts) (t : tid) : res (list codec) := merge (S (length (types E))) E O t [] [].

(* reflect.Value.Field; None is a panic *)
Definition fieldAt (l : list gv) (i : Z) : option gv := if (i <? 0)%Z then None else nth_error l (Z.to_nat i).
(* codec.go:181-193; Ok None is the invalid Value *)
Fixpoint fieldByIndex (v : gv) (index : list Z) : res (option gv) :=
  match index with
  | [] => Ok (Some v)
  | i :: r =>
      if (i =? -1)%Z then
        match v with VPtr None => Ok None | VPtr (Some x) => fieldByIndex x r | _ => Panic end
      else
        match v with
        | VStruct l => match fieldAt l i with Some x => fieldByIndex x r | None => Panic end
        | _ => Panic
        end
  end.

(* ---- the codec objects: cache.go:69-124 and the constructors in codec.go, decode.go and encode.go ---- *)

(* a decoder, or an encoder, for a type *)
Inductive item := IDec (t : tid) | IEnc (t : tid).
Definition itype (it : item) : tid := match it with IDec t | IEnc t => t end.
Definition idec (it : item) : bool := match it with IDec _ => true | IEnc _ => false end.
Definition isub (it : item) (e : tid) : item := match it with IDec _ => IDec e | IEnc _ => IEnc e end.
(* encode.go:225-231 and decode.go:285-291: can the type be the key of a map? *)
Definition keyOk (E : env) (m : mset -> bool) (k : tid) : bool :=
  match typeOf E k with Some K => m (tmeth K) || match tkind K with KString => true | _ => false end | None => false end.
(* encode.go:103-110 and decode.go:130-137: is there a method for it? *)
Definition marshals (m : mset) : bool := isAppender m || isJSON m || isText m.
Definition unmarshals (m : mset) : bool := isNodeU m || isJSONU m || isTextU m.
Definition handled (it : item) (m : mset) : bool := if idec it then unmarshals m else marshals m.

(* An object: CMethod is one of the njson, json and text decoders and encoders; CKind any other decoder or
   encoder that is not a structCodec, with the object for the elements if it has one; CStruct is a structCodec
   (codec.go:9-36), with the decoder and the encoder of each field. *)
Inductive cobj :=
| CMethod (it : item)
| CKind (it : item) (h : N) (kid : nat)
| CStruct (t : tid) (fields : list (codec * (nat * nat))).
(* a structCodec is both a decoder and an encoder *)
Definition fits (dec : bool) (c : cobj) : bool := match c with CMethod it | CKind it _ _ => Bool.eqb (idec it) dec | CStruct _ _ => true end.

(* the heap and the cache of cache.go:69-76 *)
Record bstate := mkB { bheap : list cobj; bcache : list (tid * N * nat) }.
Fixpoint lookupKey (c : list (tid * N * nat)) (t : tid) (h : N) : option nat :=
  match c with
  | [] => None
  | (u, g, o) :: r => if (u =? t)%nat && (g =? h)%N then Some o else lookupKey r t h
  end.
Definition put (st : bstate) (t : tid) (h : N) (o : nat) : bstate := mkB (bheap st) ((t, h, o) :: bcache st).
Definition alloc (st : bstate) (c : cobj) : bstate := mkB (bheap st ++ [c]) (bcache st).
Definition setObj (st : bstate) (o : nat) (c : cobj) : bstate := mkB (replaceNth (bheap st) o c) (bcache st).
(* cache.go:97-102 and 112-117: the entry, if it is of the kind that is asked for *)
Definition cachedAs (dec : bool) (st : bstate) (t : tid) (h : N) : option nat :=
  match lookupKey (bcache st) t h with
  | Some o => match nth_error (bheap st) o with Some c => if fits dec c then Some o else None | None => None end
  | None => None
  end.
(* cache.go:77-85 *)
Definition cachedStruct (st : bstate) (t : tid) : option nat :=
  match lookupKey (bcache st) t 0 with
  | Some o => match nth_error (bheap st) o with Some (CStruct _ _) => Some o | _ => None end
  | None => None
  end.
(* None is an error; else the object and the state *)
Definition makes := item -> N -> bstate -> res (option (nat * bstate)).
(* cache.go:96-124; the hints of a decoder are 0 *)
Definition cached (mk : makes) : makes := fun it h st =>
  match cachedAs (idec it) st (itype it) h with
  | Some o => Ok (Some (o, st))
  | None =>
      let! r := mk it h st in
      match r with
      | Some (o, st) => Ok (Some (o, put st (itype it) h o))
      | None => Ok None
      end
  end.
(* encode.go:225-246 (after the keys), 276-285, 298-307, 336-346 and decode.go:177-192, 230-241, 292-302, 330-342: a
   codec with one for its elements *)
Definition makeOne (get : makes) (it : item) (h : N) (e : tid) (st : bstate) : res (option (nat * bstate)) :=
  let o := length (bheap st) in
  let! r := get (isub it e) h (put (alloc st (CKind it h 0)) (itype it) h o) in
  match r with
  | Some (p, st) => Ok (Some (o, setObj st o (CKind it h p)))
  | None => Ok None
  end.
(* codec.go:127-134, 147-153 *)
Fixpoint makeFields (get : makes) (cs : list codec) (st : bstate) : res (option (list (codec * (nat * nat)) * bstate)) :=
  match cs with
  | [] => Ok (Some ([], st))
  | c :: r =>
      let! d := get (IDec (ctype c)) 0%N st in
      match d with
      | None => Ok None
      | Some (d, st) =>
          let! e := get (IEnc (ctype c)) (chints c) st in
          match e with
          | None => Ok None
          | Some (e, st) =>
              let! fs := makeFields get r st in
              Ok match fs with Some (fs, st) => Some ((c, (d, e)) :: fs, st) | None => None end
          end
      end
  end.
(* newDecoder and newEncoder, decode.go:126-168 and encode.go:99-142, and newStructCodec, codec.go:158-179.  The
   fields of a struct are collected before the codecs of the first one are built: a struct with an infinite
   embedding makes this diverge even if an earlier field has an error. *)
Fixpoint make (fuel : nat) (E : env) (O : opts) (it : item) (h : N) (st : bstate) : res (option (nat * bstate)) :=
  match fuel with O => Diverge | S k =>
  let get := cached (make k E O) in
  let leaf c := Ok (Some (length (bheap st), alloc st c)) in
  match typeOf E (itype it) with
  | None => Ok None
  | Some T =>
      if handled it (tmeth T) then leaf (CMethod it) else
      match tkind T with
      | KPtr e | KSlice e | KArray _ e => makeOne get it h e st
      | KMap key e => if keyOk E (if idec it then isTextU else isText) key then makeOne get it 0 e st else Ok None
      | KStruct _ =>
          match cachedStruct st (itype it) with
          | Some o => Ok (Some (o, st))
          | None =>
              let o := length (bheap st) in
              let! cs := structFields E O (itype it) in
              let! r := makeFields get cs (put (alloc st (CStruct (itype it) [])) (itype it) 0 o) in
              match r with
              | Some (fs, st) => Ok (Some (o, setObj st o (CStruct (itype it) fs)))
              | None => Ok None
              end
          end
      | KIface true | KOther => Ok None
      | _ => leaf (CKind it h 0)
      end
  end
  end.
(* decode.go:117 and encode.go:90, with an empty cache; the object and the heap.  Lists of nested types are no
   longer than twice the number of types between two structs. *)
Definition newCodec (E : env) (O : opts) (it : item) : res (option (nat * list cobj)) :=
  let! r := make (S (length (types E)) * (2 * length (types E) + 2)) E O it 0 (mkB [] []) in
  Ok match r with Some (o, st) => Some (o, bheap st) | None => None end.

(* ---- omit.go ---- *)

(* reflect.Value.IsNil *)
Definition isNil (v : gv) : res bool :=
  match v with
  | VPtr x => Ok match x with None => true | _ => false end
  | VSlice x => Ok match x with None => true | _ => false end
  | VMap x => Ok match x with None => true | _ => false end
  | VIface x => Ok match x with None => true | _ => false end
  | _ => Panic
  end.
(* omit.go:85-100 and 115-140: whether the type, the element of the pointer or the pointer to the type has the method *)
Inductive custom := CNone | CSelf | CElem (e : tid) | CAddr.
Definition newCustomOmiter (E : env) (O : opts) (t : tid) : custom :=
  match typeOf E t with
  | None => CNone
  | Some T =>
      if hasOmit (tmeth T) (oOmitMethod O) then CSelf else
      match tkind T with
      | KPtr e => match typeOf E e with Some X => if hasOmit (tmeth X) (oOmitMethod O) then CElem e else CNone | None => CNone end
      | _ => if hasOmit (tptr T) (oOmitMethod O) then CAddr else CNone
      end
  end.
(* omit.go:77-83, 99-109 *)
Definition runCustom (E : env) (c : custom) (t : tid) (addr : bool) (v : gv) : res (option bool) :=
  match c with
  | CNone => Ok None
  | CSelf => let! b := callOmit E t v in Ok (Some b)
  | CElem e => match v with
               | VPtr None => Ok (Some true)
               | VPtr (Some x) => let! b := callOmit E e x in Ok (Some b)
               | _ => Panic
               end
  | CAddr => if addr then let! b := callOmitPtr E t v in Ok (Some b) else Ok (Some false)
  end.
(* omit.go:150-157 *)
Fixpoint omitAll (om : gv -> res bool) (l : list gv) : res bool :=
  match l with
  | [] => Ok true
  | x :: r => let! b := om x in if b then omitAll om r else Ok false
  end.
(* omit.go:166-198 with the omit methods of omit.go:21-67; addr is CanAddr *)
Fixpoint newOmiter (fuel : nat) (E : env) (O : opts) (t : tid) (addr : bool) (v : gv) : res bool :=
  match fuel with O => Diverge | S k =>
  let! c := runCustom E (newCustomOmiter E O t) t addr v in
  match c with
  | Some b => Ok b
  | None =>
      match typeOf E t with
      | None => Panic
      | Some T =>
          match tkind T, v with
          | KPtr _, VPtr _ => isNil v
          | KStruct _, _ => Ok false
          | KSlice _, VSlice None | KMap _ _, VMap None => Ok true
          | KSlice _, VSlice (Some (l, _)) => Ok (length l =? 0)%nat
          | KMap _ _, VMap (Some m) => Ok (length m =? 0)%nat
          | KString, VString s => Ok (length s =? 0)%nat
          | KArray n e, VArray l => if (length l =? n)%nat then omitAll (newOmiter k E O e addr) l else Panic
          | KIface false, VIface x => Ok match x with None => true | _ => false end
          | KIface true, _ | KOther, _ => Ok true
          | KInt _, VInt z | KUint _, VUint z => Ok (z =? 0)%Z
          | KFloat32, VFloat f | KFloat64, VFloat f => Ok (feq f zeroF)
          | KBool, VBool b => Ok (negb b)
          | _, _ => Panic
          end
      end
  end
  end.
Definition hasHint (h bit : N) : bool := (N.land h bit =? bit)%N.
(* codec.go:47-55 *)
Fixpoint omitFields (om : codec * (nat * nat) -> gv -> res bool) (fs : list (codec * (nat * nat))) (v : gv) : res bool :=
  match fs with
  | [] => Ok true
  | c :: r =>
      let! f := fieldByIndex v (cindex (fst c)) in
      match f with
      | Some f => let! b := om c f in if b then omitFields om r v else Ok false
      | None => omitFields om r v
      end
  end.
(* codec.go:136-145: the omiter of a field, applied; codec.go:38-44 for an encoder that is a structCodec *)
Fixpoint omit (fuel : nat) (E : env) (G : list cobj) (O : opts) (addr : bool) (c : codec * (nat * nat)) (v : gv) : res bool :=
  match fuel with O => Diverge | S k =>
  if negb (hasHint (chints (fst c)) hintOmitempty) then Ok false
  else
    match nth_error G (snd (snd c)) with
    | Some (CStruct t fs) =>
        let! r := runCustom E (newCustomOmiter E O t) t addr v in
        match r with
        | Some b => Ok b
        | None => omitFields (omit k E G O addr) fs v
        end
    | _ => newOmiter (S k) E O (ctype (fst c)) addr v
    end
  end.

(* ---- encode.go ---- *)

(* nesting depth of a value *)
Fixpoint vdepth (v : gv) : nat :=
  match v with
  | VIface (Some (_, x)) | VPtr (Some x) => S (vdepth x)
  | VSlice (Some (l, _)) | VArray l | VStruct l => S (list_max (map vdepth l))
  | VMap (Some m) => S (list_max (map (fun p => vdepth (snd p)) m))
  | _ => 1
  end.

Definition append1 (b : bytes) (c : byte) : bytes := b ++ [c].
Definition encodes := bytes -> gv -> res (bytes * option uerr).
(* encode.go:317-325 and 354-362 *)
Fixpoint encodeList (enc : encodes) (first : bool) (l : list gv) (out : bytes) : res (bytes * option uerr) :=
  match l with
  | [] => Ok (append1 out delimEndArray, None)
  | x :: r =>
      let! o := enc (if first then out else append1 out delimValueSeparator) x in
      match o with
      | (out, None) => encodeList enc false r out
      | _ => Ok o
      end
  end.
(* encode.go:254-270 *)
Fixpoint encodeMap (encKey enc : encodes) (first : bool) (m : list (gv * gv)) (out : bytes) : res (bytes * option uerr) :=
  match m with
  | [] => Ok (append1 out delimEndObject, None)
  | (key, x) :: r =>
      let! o := encKey (if first then out else append1 out delimValueSeparator) key in
      match o with
      | (out, None) =>
          let! o := enc (append1 out delimNameSeparator) x in
          match o with
          | (out, None) => encodeMap encKey enc false r out
          | _ => Ok o
          end
      | _ => Ok o
      end
  end.
(* codec.go:57-87 *)
Fixpoint encodeFields (enc : nat -> encodes) (om : codec * (nat * nat) -> gv -> res bool) (more : bool) (fs : list (codec * (nat * nat))) (v : gv) (b : bytes) : res (bytes * option uerr) :=
  match fs with
  | [] => Ok (if more then append1 b delimEndObject else b ++ [delimBeginObject; delimEndObject], None)
  | c :: r =>
      let! f := fieldByIndex v (cindex (fst c)) in
      match f with
      | None => encodeFields enc om more r v b
      | Some f =>
          let! o := om c f in
          if o then encodeFields enc om more r v b
          else
            let b := append1 b (if more then delimValueSeparator else delimBeginObject) in
            let b := append1 (append1 (append1 b delimString ++ ckey (fst c)) delimString) delimNameSeparator in
            let! o := enc (snd (snd c)) b f in
            match o with
            | (b, None) => encodeFields enc om true r v b
            | _ => Ok o
            end
      end
  end.
(* encode.go:182-187 *)
Definition encodeString (html : bool) (b s : bytes) : res (bytes * option uerr) :=
  let! b := AppendEscaped (append1 b delimString) s html in Ok (append1 b delimString, None).
(* encode.go:399-418; the number of bits is always 32 (encode.go:131-134) *)
Definition encodeFloat (E : env) (O : opts) (b : bytes) (f : float) : res (bytes * option uerr) :=
  match f with
  | FInf s => Ok (if oInf O then (b ++ (if s then str "-Inf" else str "+Inf"), None) else (b, Some UValue))
  | FNaN => Ok (if oNaN O then (b ++ str "NaN", None) else (b, Some UValue))
  | _ => let! b := AppendFloat (ftoa E) b f 32 in Ok (b, None)
  end.
(* encode.go:209-217 *)
Definition encodeText (E : env) (t : tid) (b : bytes) (v : gv) : res (bytes * option uerr) :=
  let! r := callText E t v in
  match r with
  | (text, None) => Ok (append1 (append1 b delimString ++ text) delimString, None)
  | (_, Some e) => Ok (b, Some e)
  end.
(* encode.go:152-158 *)
Definition encodeJSON (E : env) (t : tid) (b : bytes) (v : gv) : res (bytes * option uerr) :=
  let! r := callJSON E t v in
  match r with
  | (Some x, None) => Ok (b ++ x, None)
  | (_, e) => Ok (b, e)
  end.
(* encode.go:39-51, 71-97 and unjson.go:95-104 for a value x != nil of type t; [enc] encodes with m.encoder
   when that was made by newEncoder: an object and its heap *)
Definition encodeTop (enc : list cobj -> nat -> bool -> encodes) (E : env) (t : tid) (out : bytes) (v : gv) : res (bytes * option uerr) :=
  match typeOf E t with
  | None => Panic
  | Some T =>
      let (mt, pm) := match tkind T with KPtr e => (e, tmeth T) | _ => (t, tptr T) end in
      let! m := if marshals pm then Ok (Some None) else let! r := newCodec E defaultOptions (IEnc mt) in Ok (option_map Some r) in
      match m with
      | None => Ok ([], Some UInvalidType)
      | Some m =>
          let! v := match tkind T with
                    | KPtr _ => match v with VPtr (Some x) => Ok x | _ => Panic end
                    | _ => Ok v
                    end in
          match typeOf E mt with
          | None => Panic
          | Some M =>
              match m with
              | Some (o, G) => enc G o (match tkind T with KPtr _ => true | _ => false end) out v
              | None =>
                  if isAppender pm then if isAppender (tmeth M) then callAppend E mt v out else Panic
                  else if isJSON pm then if isJSON (tmeth M) then encodeJSON E mt out v else Panic
                  else if isText (tmeth M) then encodeText E mt out v else Panic
              end
          end
      end
  end.
(* encode.go:225-240: the encoder of the keys *)
Definition encodeKey (E : env) (k : tid) (b : bytes) (key : gv) : res (bytes * option uerr) :=
  match typeOf E k with
  | Some K => if isText (tmeth K) then encodeText E k b key else match key with VString s => encodeString false b s | _ => Panic end
  | None => Panic
  end.
(* The encode method of object o: encode.go:146-148 (njson), 152-158 (json), 209-217 (text), 162-167 (raw string),
   171-187 (string), 200-205 (interface), 248-271 (map), 287-292 (ptr), 309-329 (slice), 348-365 (array), 369-386
   (uint, int, bool), 394-418 (float) and codec.go:57-87 (struct).  An object that is no encoder, or is not there,
   counts as a panic. *)
Fixpoint encode (fuel : nat) (E : env) (G : list cobj) (O : opts) (o : nat) (addr : bool) (b : bytes) (v : gv) : res (bytes * option uerr) :=
  match fuel with O => Diverge | S k =>
  match nth_error G o with
  | Some (CMethod (IEnc t)) =>
      match typeOf E t with
      | None => Panic
      | Some T =>
          if isAppender (tmeth T) then callAppend E t v b
          else if isJSON (tmeth T) then encodeJSON E t b v
          else encodeText E t b v
      end
  | Some (CStruct _ fs) => encodeFields (fun e => encode k E G O e addr) (omit k E G O addr) false fs v b
  | Some (CKind (IEnc t) h p) =>
      match typeOf E t with
      | None => Panic
      | Some T =>
      match tkind T with
      | KPtr _ =>
          let! n := isNil v in
          if n then Ok (b ++ strNull, None)
          else match v with VPtr (Some x) => encode k E G O p true b x | _ => Panic end
      | KSlice _ =>
          match v with
          | VSlice None => Ok (append1 (append1 b delimBeginArray) delimEndArray, None)
          | VSlice (Some (l, _)) => encodeList (encode k E G O p true) true l (append1 b delimBeginArray)
          | _ => Panic
          end
      | KArray n _ =>
          match v with
          | VArray l => if (length l =? n)%nat then encodeList (encode k E G O p addr) true l (append1 b delimBeginArray) else Panic
          | _ => Panic
          end
      | KMap kt _ =>
          match v with
          | VMap None => Ok (b ++ strNull, None)
          | VMap (Some m) => encodeMap (encodeKey E kt) (encode k E G O p false) true (mapOrder E b m) (append1 b delimBeginObject)
          | _ => Panic
          end
      | KIface false =>
          match v with
          | VIface None => Ok (b ++ strNull, None)
          | VIface (Some (dt, x)) => encodeTop (fun G o => encode k E G defaultOptions o) E dt b x
          | _ => Panic
          end
      | KInt _ => match v with VInt z => Ok (b ++ FormatInt z, None) | _ => Panic end
      | KUint _ => match v with VUint z => Ok (b ++ FormatUint (Z.to_N z), None) | _ => Panic end
      | KFloat32 | KFloat64 => match v with VFloat f => encodeFloat E O b f | _ => Panic end
      | KBool => match v with VBool x => Ok (b ++ (if x then strTrue else strFalse), None) | _ => Panic end
      | KString =>
          match v with
          | VString s =>
              if hasHint h hintHTML then encodeString true b s
              else if hasHint h hintRaw then Ok (append1 (append1 b delimString ++ s) delimString, None)
              else encodeString false b s
          | _ => Panic
          end
      | KStruct _ | KIface true | KOther => Panic
      end
      end
  | _ => Panic
  end
  end.

(* unjson.go:95-104; None is the nil interface *)
Definition AppendJSON (E : env) (out : bytes) (x : option (tid * gv)) : res (bytes * option uerr) :=
  match x with
  | None => Ok (out ++ strNull, None)
  | Some (t, v) => encodeTop (fun G o => encode (vdepth v) E G defaultOptions o) E t out v
  end.
(* unjson.go:86-88 *)
Definition Marshal (E : env) (x : option (tid * gv)) : res (bytes * option uerr) := AppendJSON E [] x.

(* ---- decode.go ---- *)

(* strconv.ParseUint(s, 10, 64) and strconv.ParseInt(s, 10, 64); None is an error *)
Definition scDigits (s : bytes) : option Z :=
  match s with [] => None | _ => if forallb isDigit s then Some (digitsZ s) else None end.
Definition scParseUint (s : bytes) : option Z :=
  match scDigits s with Some n => if (n <? two64Z)%Z then Some n else None | None => None end.
Definition scParseInt (s : bytes) : option Z :=
  let (neg, r) := match s with
                  | c :: r => if beqb c x2d then (true, r) else if beqb c x2b then (false, r) else (false, s)
                  | [] => (false, [])
                  end in
  match scDigits r with
  | Some n => if neg then if (n <=? 9223372036854775808)%Z then Some (- n)%Z else None
              else if (n <? 9223372036854775808)%Z then Some n else None
  | None => None
  end.
(* reflect.Value.SetInt and SetUint keep the low bits *)
Definition setInt (bits z : Z) : gv := VInt ((z + 2 ^ (bits - 1)) mod 2 ^ bits - 2 ^ (bits - 1))%Z.
Definition setUint (bits z : Z) : gv := VUint (z mod 2 ^ bits)%Z.
(* reflect.Value.SetFloat; a float32 is represented by the float64 of the same value *)
Definition widen (x : float) : float :=
  match x with FFin s m e => let (a, b) := dyadic m e in roundQ b64 s a b | _ => x end.
Definition setFloat (k : kind) (f : float) : gv := VFloat (match k with KFloat32 => widen (to32 f) | _ => f end).

(* the dynamic type and value of what toInterface makes *)
Fixpoint ofGo (g : goval) : option (tid * gv) :=
  match g with
  | GNil => None
  | GBool b => Some (tBool, VBool b)
  | GFloat f => Some (tFloat64, VFloat f)
  | GString s => Some (tString, VString s)
  | GSlice l => Some (tSliceI, VSlice (Some (map (fun x => VIface (ofGo x)) l, [])))
  | GMap m => Some (tMapSI, VMap (Some (map (fun p => (VString (fst p), VIface (ofGo (snd p)))) m)))
  end.

Definition decodes := gv -> Node -> res (gv * option uerr).
Definition fieldType (E : env) (t : tid) (i : nat) : option tid :=
  match typeOf E t with
  | Some T => match tkind T with KStruct fs => option_map ftype (nth_error fs i) | _ => None end
  | None => None
  end.
Definition elemType (E : env) (t : tid) : option tid :=
  match typeOf E t with
  | Some T => match tkind T with KPtr e => Some e | _ => None end
  | None => None
  end.
(* codec.go:211-231: walk the index from a value of type t, run f on the field found, and give the value with
   the field's new value.  A pointer made by reflect.New (line 221) is not stored. *)
Fixpoint atIndex (E : env) (index : list Z) (t : tid) (v : gv) (f : gv -> res (gv * option uerr)) : res (gv * option uerr) :=
  match index with
  | [] => f v
  | i :: r =>
      if (i =? -1)%Z then
        match elemType E t, v with
        | Some e, VPtr (Some x) => let! y := atIndex E r e x f in Ok (VPtr (Some (fst y)), snd y)
        | Some e, VPtr None => let! y := atIndex E r e (zero E e) f in Ok (VPtr None, snd y)
        | _, _ => Panic
        end
      else
        match v, fieldType E t (Z.to_nat i) with
        | VStruct l, Some ft =>
            match fieldAt l i with
            | Some x => let! y := atIndex E r ft x f in Ok (VStruct (replaceNth l (Z.to_nat i) (fst y)), snd y)
            | None => Panic
            end
        | _, _ => Panic
        end
  end.
(* codec.go:19-27 with the decoder *)
Fixpoint getField (fs : list (codec * (nat * nat))) (key : bytes) : option (codec * (nat * nat)) :=
  match fs with
  | [] => None
  | f :: r => if bseqb (ckey (fst f)) key then Some f else getField r key
  end.
(* codec.go:206-233.  The loops below range over the values of the iterator, each a node of the document of n. *)
Fixpoint decodeMembers (dec : nat -> decodes) (E : env) (t : tid) (fs : list (codec * (nat * nat))) (n : Node) (vs : list V) (v : gv) : res (gv * option uerr) :=
  match vs with
  | [] => Ok (v, None)
  | x :: r =>
      match getField fs (vkey x) with
      | None => decodeMembers dec E t fs n r v
      | Some fc =>
          match cindex (fst fc) with
          | [] => decodeMembers dec E t fs n r v
          | index =>
              let! y := atIndex E index t v (fun f => dec (fst (snd fc)) f (Node_With n (vid x))) in
              match y with
              | (v, None) => decodeMembers dec E t fs n r v
              | _ => Ok y
              end
          end
      end
  end.
(* decode.go:256-263: done are the elements before the current one, rest those from it on *)
Fixpoint decodeElems (dec : decodes) (n : Node) (vs : list V) (done rest spare : list gv) : res (list gv * list gv) :=
  match vs, rest with
  | x :: vs, e :: rest =>
      let! y := dec e (Node_With n (vid x)) in
      match y with
      | (e, None) => decodeElems dec n vs (done ++ [e]) rest spare
      | (e, Some _) => Ok (done, e :: rest ++ spare)
      end
  | _, _ => Ok (done ++ rest, spare)
  end.
(* decode.go:197-208 *)
Fixpoint decodeArray (dec : decodes) (z : gv) (n : Node) (vs : list V) (l : list gv) : res (list gv) :=
  match l with
  | [] => Ok []
  | e :: l =>
      match vs with
      | x :: vs => let! y := dec e (Node_With n (vid x)) in let! r := decodeArray dec z n vs l in Ok (fst y :: r)
      | [] => Ok (z :: map (fun _ => z) l)
      end
  end.
(* SetMapIndex with a string key *)
Fixpoint setKey (k : bytes) (x : gv) (m : list (gv * gv)) : list (gv * gv) :=
  match m with
  | [] => [(VString k, x)]
  | (k', y) :: r => match k' with
                    | VString s => if bseqb s k then (k', x) :: r else (k', y) :: setKey k x r
                    | _ => (k', y) :: setKey k x r
                    end
  end.
(* decode.go:308-318 *)
Fixpoint decodeMap (dec : decodes) (z : gv) (kt : tid) (n : Node) (vs : list V) (v : gv) : res (gv * option uerr) :=
  match vs with
  | [] => Ok (v, None)
  | x :: r =>
      let! y := dec z (Node_With n (vid x)) in
      match y with
      | (y, None) =>
          if negb (kt =? tString)%nat then Panic else
          match v with
          | VMap (Some m) => decodeMap dec z kt n r (VMap (Some (setKey (vkey x) y m)))
          | _ => Panic
          end
      | (_, e) => Ok (v, e)
      end
  end.
Definition typeError (w : world) (n : Node) (want : N) : option uerr := Some (UType (Node_TypeError w n want)).
(* decode.go:83-87 and 486-491: the callback gets the bytes *)
Definition wrapped (r : outcome) (call : bytes -> res (gv * option uerr)) (v : gv) : res (gv * option uerr) :=
  match r with
  | Called data => call data
  | Rejected e => Ok (v, Some (UType e))
  end.

(* The decode method of object o: decode.go:74-76 (njson), 89-91 (json), 479-484 (text), 194-222 (array), 243-270
   (slice), 303-323 (map), 344-355 (ptr), 359-370 (string), 384-394 (interface), 398-409 (bool), 413-431 (uint),
   435-453 (int), 457-475 (float) and codec.go:195-237 (struct).  The result has the new value of v also when there
   is an error.  An object that is no decoder, or is not there, counts as a panic. *)
Fixpoint decode (fuel : nat) (E : env) (G : list cobj) (w : world) (o : nat) (v : gv) (n : Node) : res (gv * option uerr) :=
  match fuel with O => Diverge | S k =>
  let vs := ivalues (Node_Values w n) in
  let ty := Node_Type w n in
  let (raw, _) := Node_Data w n in
  match nth_error G o with
  | Some (CMethod (IDec t)) =>
      match typeOf E t with
      | None => Panic
      | Some T =>
          if isNodeU (tmeth T) then callNodeU E t v w n
          else if isJSONU (tmeth T) then let! o := Node_WrapUnmarshalJSON w n in wrapped o (callJSONU E t v) v
          else if (ty =? TypeString)%N then wrapped (Node_WrapUnmarshalText w n) (callTextU E t v) v
          else Ok (v, typeError w n TypeString)
      end
  | Some (CStruct t fs) =>
      match v with
      | VStruct _ =>
          if (ty =? TypeNull)%N then Ok (zero E t, None)
          else if (ty =? TypeObject)%N then decodeMembers (decode k E G w) E t fs n vs v
          else Ok (v, typeError w n (N.lor TypeObject TypeNull))
      | _ => Panic
      end
  | Some (CKind (IDec t) _ p) =>
      match typeOf E t with
      | None => Panic
      | Some T =>
      match tkind T with
      | KPtr e =>
          match v with
          | VPtr x =>
              if (ty =? TypeNull)%N then Ok (VPtr None, None)
              else let! y := decode k E G w p (match x with Some x => x | None => zero E e end) n in Ok (VPtr (Some (fst y)), snd y)
          | _ => Panic
          end
      | KSlice e =>
          match v with
          | VSlice x =>
              if (ty =? TypeNull)%N then Ok (VSlice match x with None => None | Some (l, s) => Some ([], l ++ s) end, None)
              else if (ty =? TypeArray)%N then
                let size := length vs in
                let fresh := (repeat (zero E e) size, []) in
                let (l, s) := match x with
                              | None => fresh
                              | Some (l, s) => if (length (l ++ s) <? size)%nat then fresh else (firstn size (l ++ s), skipn size (l ++ s))
                              end in
                let! r := decodeElems (decode k E G w p) n vs [] l s in
                Ok (VSlice (Some r), None)
              else Ok (v, typeError w n (N.lor TypeArray TypeNull))
          | _ => Panic
          end
      | KArray size e =>
          match v with
          | VArray l =>
              if negb (length l =? size)%nat then Panic
              else if (ty =? TypeArray)%N then
                let! r := decodeArray (decode k E G w p) (zero E e) n vs l in Ok (VArray r, None)
              else if (ty =? TypeNull)%N then Ok (VArray (repeat (zero E e) size), None)
              else Ok (v, typeError w n TypeArray)
          | _ => Panic
          end
      | KMap kt e =>
          match v with
          | VMap _ =>
              if (ty =? TypeNull)%N then Ok (v, None)
              else if (ty =? TypeObject)%N then decodeMap (decode k E G w p) (zero E e) kt n vs v
              else Ok (v, typeError w n (N.lor TypeObject TypeNull))
          | _ => Panic
          end
      | KIface false =>
          match v with
          | VIface _ =>
              let! g := Node_ToInterface w n in
              match g with
              | Some g => if (t =? tIface)%nat then Ok (VIface (ofGo g), None) else Panic
              | None => Ok (v, typeError w n TypeAnyValue)
              end
          | _ => Panic
          end
      | KString =>
          match v with
          | VString _ =>
              if (ty =? TypeString)%N then let! s := Unescaped raw in Ok (VString s, None)
              else if (ty =? TypeNull)%N then Ok (VString [], None)
              else Ok (v, typeError w n TypeString)
          | _ => Panic
          end
      | KBool =>
          match v with
          | VBool _ =>
              let (b, ok) := Node_ToBool w n in
              if ok then Ok (VBool b, None)
              else if (ty =? TypeNull)%N then Ok (VBool false, None)
              else Ok (v, typeError w n TypeBoolean)
          | _ => Panic
          end
      | KInt bits =>
          match v with
          | VInt _ =>
              if (ty =? TypeNumber)%N then
                let (z, ok) := ParseInt raw in
                if ok then Ok (setInt bits z, None)
                else match scParseInt raw with Some z => Ok (setInt bits z, None) | None => Ok (v, Some UStrconv) end
              else if (ty =? TypeNull)%N then Ok (VInt 0, None)
              else Ok (v, typeError w n TypeNumber)
          | _ => Panic
          end
      | KUint bits =>
          match v with
          | VUint _ =>
              if (ty =? TypeNumber)%N then
                let (z, ok) := ParseUint raw in
                if ok then Ok (setUint bits z, None)
                else match scParseUint raw with Some z => Ok (setUint bits z, None) | None => Ok (v, Some UStrconv) end
              else if (ty =? TypeNull)%N then Ok (VUint 0, None)
              else Ok (v, typeError w n TypeNumber)
          | _ => Panic
          end
      | KFloat32 | KFloat64 =>
          match v with
          | VFloat _ =>
              if (ty =? TypeNumber)%N then
                let f := ParseFloat raw in
                if feq f f then Ok (setFloat (tkind T) f, None)
                else match scParseFloat E raw with Some f => Ok (setFloat (tkind T) f, None) | None => Ok (v, Some UStrconv) end
              else if (ty =? TypeNull)%N then Ok (VFloat zeroF, None)
              else Ok (v, typeError w n TypeNumber)
          | _ => Panic
          end
      | KStruct _ | KIface true | KOther => Panic
      end
      end
  | _ => Panic
  end
  end.

(* Between two levels of the document a decoder goes through pointer types only; when there are more of them
   than types, the recursion is infinite. *)
Definition decodeFuel (E : env) (w : world) (n : Node) : nat :=
  let ns := match getDoc w (Node_Document w n) with Some d => dnodes d | None => [] end in
  depthFuel ns * S (length (types E)).
(* decode.go:40-55, 67-72, 81-87, 94-124, 486-491 and unjson.go:49-58 with a target x != nil of type t; the
   result has the new value of x *)
Definition UnmarshalFromNode (E : env) (w : world) (n : Node) (t : tid) (x : gv) : res (gv * option uerr) :=
  match typeOf E t with
  | None => Panic
  | Some T =>
      match tkind T with
      | KPtr e =>
          if isNodeU (tmeth T) then callNodeU E t x w n
          else if isJSONU (tmeth T) then let! o := Node_WrapUnmarshalJSON w n in wrapped o (callJSONU E t x) x
          else if isTextU (tmeth T) then wrapped (Node_WrapUnmarshalText w n) (callTextU E t x) x
          else
            let! r := newCodec E decodeOptions (IDec e) in
            match r with
            | None => Ok (x, Some UInvalidType)
            | Some (o, G) =>
                match x with
                | VPtr None => if (Node_Type w n =? TypeNull)%N then Ok (x, None) else Panic
                | VPtr (Some v) => let! y := decode (decodeFuel E w n) E G w o v n in Ok (VPtr (Some (fst y)), snd y)
                | _ => Panic
                end
            end
      | _ => Ok (x, Some UInvalidType)
      end
  end.
(* unjson.go:65-80: a type that cannot be decoded is reported before the text is parsed.  The document from
   njson.Blank() is empty and has some revision. *)
Definition UnmarshalFromString (E : env) (rev : N) (s : bytes) (t : tid) (x : gv) : res (gv * option uerr) :=
  match typeOf E t with
  | None => Panic
  | Some T =>
      let! ok := match tkind T with
                 | KPtr e => if unmarshals (tmeth T) then Ok true else let! r := newCodec E decodeOptions (IDec e) in Ok match r with Some _ => true | None => false end
                 | _ => Ok false
                 end in
      if negb ok then Ok (x, Some UInvalidType) else
      let! p := Document_Parse [mkDoc [] rev] 0 s in
      match p with
      | (w, (n, _, None)) => UnmarshalFromNode E w n t x
      | (_, (_, _, Some e)) => Ok (x, Some (UParse e))
      end
  end.
(* unjson.go:40-42 *)
Definition Unmarshal := UnmarshalFromString.
