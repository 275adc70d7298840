(* Model of the code generator: internal/generator.  It has three parts: the generator, which makes code for a type;
   the Go compiler, as far as it rejects such code; and what the code does.

   The generated code is made of a dozen templates.  It is modelled by terms ([acode] for AppendJSON methods, [ucode] for
   UnmarshalNodeJSON methods) with one constructor for each template; the comments give the lines of its text.
   Go types and values are those of Codec.v.

   Simplifications: the package github.com/alxarch/meta is not in the repository.  Of it the model takes: NewFields gives
   for each struct a list of fields in any order, each with the path to it ([fieldsOf]); ParseTag looks up the key and
   splits at commas; WithTag leaves what ParseTag finds; Params.Has finds a parameter and With adds one; IsString tells
   the kind; code made of parts with an error has the error.  uintptr is an entry KUint 64 of the table.  Go's regular
   expressions and the functions that change the case of names are functions in the options.  All types are in one
   package, the methods generated have names that the type has no method of, and names in tags are text that may stand
   in a Go source file (UTF-8, no NUL). *)
From Verif Require Import Bytes Types Parser Doc DocStr Strjson Float Num Iface Wrap Options Codec GoLit.

(* options.go:16-27; gName is JSONFieldName (lines 32-37), gTag is TagKey() (98-103), gOmit the name of the method *)
Record gopts := mkG { gTag : bytes; gOmit : bytes; gOnlyExported : bool; gOnlyTagged : bool; gForceOmit : bool; gMatch : bytes -> bool; gName : bytes -> bytes }.
(* meta.Field: name, whether exported, path as in Codec.v (with -1 where a pointer is followed), type, tag, and the tag's
   Lookup *)
Record mfield := mkMF { mname : bytes; mexported : bool; mpath : list Z; mtype : tid; mtag : bytes; mlookup : bytes -> option bytes }.
(* meta.NewFields(t, true); the types time.Time and time.Duration, if the package imports time; time.Parse with the
   format time.RFC3339; and the types that declare a field, or a method of T or *T, with the name of the generated one:
   AppendJSON and UnmarshalNodeJSON (options.go:39-52; other names are not modelled) *)
Record genv := mkGE { fieldsOf : tid -> list mfield; isTime : tid -> bool; isDuration : tid -> bool; parseTime : bytes -> gv + uerr; hasAppend : tid -> bool; hasUnmarshal : tid -> bool }.

(* options.go:138-146 *)
Definition MatchField (G : gopts) (name : bytes) : bool := if bseqb name (str "_") then false else gMatch G name.
(* the words between commas *)
Fixpoint splitComma (s : bytes) : bytes * list bytes :=
  match s with
  | [] => ([], [])
  | c :: r => let (a, l) := splitComma r in if beqb c x2c then ([], a :: l) else (c :: a, l)
  end.
Definition has (param : bytes) (params : list bytes) : bool := existsb (bseqb param) params.
Definition omitEmpty : bytes := str "omitempty".
Definition rawParam : bytes := str "raw".
(* options.go:109-136, and append.go:137-139 (unmarshal.go:319-321): the name in JSON and the parameters *)
Definition parseVar (G : gopts) (f : mfield) : option (bytes * list bytes) :=
  if negb (MatchField G (mname f)) then None
  else if gOnlyExported G && negb (mexported f) then None
  else
    let '(name, params, tagged) := match mlookup f (gTag G) with Some s => (splitComma s, true) | None => ([], [], false) end in
    if gOnlyTagged G && negb tagged then None
    else if bseqb name (str "-") then None
    else
      let name := match name with [] => gName G (mname f) | _ => name end in
      Some (match name with [] => mname f | _ => name end, if gForceOmit G then params ++ [omitEmpty] else params).

(* < on strings *)
Fixpoint less (a b : bytes) : bool :=
  match a, b with
  | _, [] => false
  | [], _ :: _ => true
  | x :: a, y :: b => if (bN x <? bN y)%N then true else if (bN y <? bN x)%N then false else less a b
  end.
(* sort.SliceStable with the function of append.go:127-129 *)
Fixpoint insert (f : mfield) (l : list mfield) : list mfield :=
  match l with
  | [] => [f]
  | g :: r => if less (mtag g) (mtag f) then g :: insert f r else f :: l
  end.
Fixpoint sortTags (l : list mfield) : list mfield := match l with [] => [] | f :: r => insert f (sortTags r) end.

(* append.go:130-143: the fields written *)
Fixpoint chosen (G : gopts) (used : list bytes) (l : list mfield) : list (bytes * list bytes * mfield) :=
  match l with
  | [] => []
  | f :: r =>
      match parseVar G f with
      | None => chosen G used r
      | Some (name, params) => if has name used then chosen G used r else (name, params, f) :: chosen G (name :: used) r
      end
  end.

(* ---- append.go ---- *)

(* the conditions of append.go:55-84, in order: !v.Omit(), v != nil, len(v) > 0, v, v != 0 *)
Inductive ocond := OMethod (t : tid) | ONotNil | OLen | OTrue | ONotZero.
(* The templates, in order: append.go:171-176, 178-184, 186-194, 199-205, 207-223, 225-234, 121-165, 241, 244-247,
   249-252, 255, 257, 259, 265-271.  AString tells whether the type is string itself. *)
Inductive acode :=
| AAppender (t : tid) | AMarshaler (t : tid) | AText (t : tid)
| APtr (c : acode) | AMap (k c : acode) | ASlice (c : acode) | AStruct (fs : afields)
| ABool | ARaw | AString (exact : bool) | AFloat | AUint | AInt | AIface
with afields := ANil | ACons (name : bytes) (path : list Z) (o : option ocond) (c : acode) (r : afields).

(* append.go:52-95; None is an error, Some None no condition.  KOther stands for chan and func types here. *)
Definition typeOmiter (E : env) (G : gopts) (t : tid) : option (option ocond) :=
  match typeOf E t with
  | None => None
  | Some T =>
      if hasOmit (tmeth T) (gOmit G) then Some (Some (OMethod t)) else
      match tkind T with
      | KPtr _ => Some (Some ONotNil)
      | KMap _ _ | KSlice _ | KString => Some (Some OLen)
      | KStruct _ => None
      | KBool => Some (Some OTrue)
      | KInt _ | KUint _ | KFloat32 | KFloat64 => Some (Some ONotZero)
      | KIface false => Some (Some ONotNil)
      | KIface true | KArray _ _ | KOther => Some None
      end
  end.
(* append.go:144-159 for the fields, all of which are generated, even after an error *)
Fixpoint appendFields (gen : tid -> bool -> res (option acode)) (E : env) (G : gopts) (l : list (bytes * list bytes * mfield)) : res (option afields) :=
  match l with
  | [] => Ok (Some ANil)
  | (name, params, f) :: r =>
      let! c := gen (mtype f) (has rawParam params) in
      let o := if has omitEmpty params then typeOmiter E G (mtype f) else Some None in
      let! fs := appendFields gen E G r in
      Ok match c, o, fs with Some c, Some o, Some fs => Some (ACons name (mpath f) o c fs) | _, _, _ => None end
  end.
(* append.go:167-278; raw tells params.Has("raw").  Ok None is an error.  The recursion is infinite for a type that
   contains itself: then it is deeper than there are types. *)
Fixpoint typeAppender (fuel : nat) (E : env) (G : gopts) (M : genv) (t : tid) (raw : bool) : res (option acode) :=
  match fuel with O => Diverge | S k =>
  match typeOf E t with
  | None => Ok None
  | Some T =>
      if isAppender (tmeth T) then Ok (Some (AAppender t))
      else if isJSON (tmeth T) then Ok (Some (AMarshaler t))
      else if isText (tmeth T) then Ok (Some (AText t))
      else
      match tkind T with
      | KPtr e => let! c := typeAppender k E G M e raw in Ok (option_map APtr c)
      | KMap kt e =>
          let! ck := typeAppender k E G M kt false in
          let! c := typeAppender k E G M e raw in
          Ok match ck, c with Some ck, Some c => Some (AMap ck c) | _, _ => None end
      | KSlice e => let! c := typeAppender k E G M e raw in Ok (option_map ASlice c)
      | KStruct _ => let! fs := appendFields (typeAppender k E G M) E G (chosen G [] (sortTags (fieldsOf M t))) in Ok (option_map AStruct fs)
      | KBool => Ok (Some ABool)
      | KString => Ok (Some (if raw then ARaw else AString (t =? tString)%nat))
      | KFloat32 | KFloat64 => Ok (Some AFloat)
      | KUint _ => Ok (Some AUint)
      | KInt _ => Ok (Some AInt)
      | KIface false => Ok (Some AIface)
      | KIface true | KArray _ _ | KOther => Ok None
      end
  end
  end.
(* append.go:24-42: the body of the method *)
Definition Appender (E : env) (G : gopts) (M : genv) (t : tid) : res (option acode) := typeAppender (S (length (types E))) E G M t false.

(* Is the code correct Go?  A name must be a Go string as it is (GoLit.v). *)
(* does it use the variable v? *)
Definition usesV (c : acode) : bool := match c with AStruct ANil => false | _ => true end.
(* The errors are: a pointer is never dereferenced (append.go:199-205), except for its fields; a value of a defined string
   type is no argument for AppendEscaped (251); []byte is no byte (268); a variable v that is not used.  A pointer to a
   pointer is fine if the code does nothing but compare it with nil. *)
Fixpoint onlyNil (c : acode) : bool := match c with AStruct ANil => true | APtr c => onlyNil c | _ => false end.
Fixpoint compilesA (c : acode) : bool :=
  match c with
  | APtr (AStruct fs) => compilesF fs
  | APtr (APtr c) => onlyNil c
  | APtr _ => false
  | AMap k c => compilesA k && usesV k && compilesA c && usesV c
  | ASlice c => compilesA c && usesV c
  | AStruct fs => compilesF fs
  | AString exact => exact
  | AIface => false
  | _ => true
  end
with compilesF (fs : afields) : bool :=
  match fs with
  | ANil => true
  | ACons name _ o c r => goodName name && compilesA c && (usesV c || match o with Some _ => true | None => false end) && compilesF r
  end.
(* the method for the type t; in its body v is the pointer (append.go:33-35).  A type has one field or method of a name. *)
Definition compilesAppender (M : genv) (t : tid) (c : acode) : bool :=
  negb (hasAppend M t) && match c with AStruct fs => compilesF fs | AAppender _ | AMarshaler _ | AText _ => true | _ => false end.

Definition isNilPtr (v : gv) : bool := match v with VPtr None => true | _ => false end.
(* append.go:55-84 for a value of the type; a panic for a value that cannot be of the type *)
Definition condHolds (E : env) (o : ocond) (v : gv) : res bool :=
  match o, v with
  | OMethod t, _ => let! b := callOmit E t v in Ok (negb b)
  | ONotNil, VPtr x => Ok (match x with Some _ => true | None => false end)
  | ONotNil, VIface x => Ok (match x with Some _ => true | None => false end)
  | OLen, VString s => Ok (match s with [] => false | _ => true end)
  | OLen, VSlice x => Ok (match x with Some (_ :: _, _) => true | _ => false end)
  | OLen, VMap x => Ok (match x with Some (_ :: _) => true | _ => false end)
  | OTrue, VBool b => Ok b
  | ONotZero, VInt z | ONotZero, VUint z => Ok (negb (z =? 0)%Z)
  | ONotZero, VFloat f => Ok (negb (feq f zeroF))
  | _, _ => Panic
  end.
(* append.go:227-233 *)
Fixpoint runElems (run : encodes) (first : bool) (l : list gv) (out : bytes) : res (bytes * option uerr) :=
  match l with
  | [] => Ok (append1 out x5d, None)
  | v :: r =>
      let! o := run (if first then out else append1 out x2c) v in
      match o with (out, None) => runElems run false r out | _ => Ok o end
  end.
(* append.go:209-221 *)
Definition closeObject (more : bool) : bytes := if more then [x7d] else [x7b; x7d].
Fixpoint runEntries (runKey run : encodes) (more : bool) (m : list (gv * gv)) (out : bytes) : res (bytes * option uerr) :=
  match m with
  | [] => Ok (out ++ closeObject more, None)
  | (key, v) :: r =>
      let! o := runKey (out ++ [if more then x2c else x7b; x22]) key in
      match o with
      | (out, None) =>
          let! o := run (out ++ [x22; x3a]) v in
          match o with (out, None) => runEntries runKey run true r out | _ => Ok o end
      | _ => Ok o
      end
  end.
(* What the code (append.go:167-278) does with the value v and the output so far. *)
Fixpoint runA (E : env) (c : acode) (out : bytes) (v : gv) {struct c} : res (bytes * option uerr) :=
  match c, v with
  | AAppender t, _ => callAppend E t v out
  | AMarshaler t, _ => encodeJSON E t out v
  | AText t, _ => encodeText E t out v
  | APtr _, VPtr None => Ok (out ++ strNull, None)
  | APtr c, VPtr (Some x) => runA E c out x
  | AMap k c, VMap m => runEntries (runA E k) (runA E c) false (mapOrder E out (match m with Some m => m | None => [] end)) out
  | ASlice c, VSlice x => runElems (runA E c) true (match x with Some (l, _) => l | None => [] end) (append1 out x5b)
  | AStruct fs, VStruct _ => runFields E fs false v out
  | ABool, VBool b => Ok (out ++ (if b then strTrue else strFalse), None)
  | ARaw, VString s => Ok (out ++ x22 :: s ++ [x22], None)
  | AString _, VString s => encodeString false out s
  | AFloat, VFloat f => let! out := AppendFloat (ftoa E) out f 64 in Ok (out, None)
  | AUint, VUint z => Ok (out ++ FormatUint (Z.to_N z), None)
  | AInt, VInt z => Ok (out ++ FormatInt z, None)
  | _, _ => Panic
  end
(* append.go:146-154 with the condition of 91-93 around it, inside the block of 98-118: a nil pointer on the path, the
   field itself included, ends it *)
with runFields (E : env) (fs : afields) (more : bool) (v : gv) (out : bytes) {struct fs} : res (bytes * option uerr) :=
  match fs with
  | ANil => Ok (out ++ closeObject more, None)
  | ACons name path o c r =>
      let! f := fieldByIndex v path in
      match f with
      | None => runFields E r more v out
      | Some x =>
          if isNilPtr x then runFields E r more v out else
          let! b := match o with Some o => condHolds E o x | None => Ok true end in
          if negb b then runFields E r more v out
          else
            let! y := runA E c (out ++ (if more then x2c else x7b) :: x22 :: litText name ++ [x22; x3a]) x in
            match y with (out, None) => runFields E r true v out | _ => Ok y end
      end
  end.
(* append.go:31-40: the method; None is the nil pointer.  If the type got its AppendJSON from an embedded field, the
   generated method takes its place: v.AppendJSON(out) calls the generated method, without end. *)
Definition runAppender (E : env) (c : acode) (out : bytes) (p : option gv) : res (bytes * option uerr) :=
  match p with
  | None => Ok (out ++ strNull, None)
  | Some v => match c with AAppender _ => Diverge | _ => runA E c out v end
  end.

(* ---- unmarshal.go ---- *)

(* What a string is as a key of a map: itself, a value in an interface{}, or nothing. *)
Inductive mkey := MString | MAny | MOther.
Definition keyOf (E : env) (t : tid) : mkey :=
  if (t =? tString)%nat then MString else match typeOf E t with Some T => match tkind T with KIface false => MAny | _ => MOther end | None => MOther end.
Definition boxKey (k : mkey) (s : bytes) : gv := match k with MAny => VIface (Some (tString, VString s)) | _ => VString s end.
Definition isKey (k : mkey) (s : bytes) (x : gv) : bool :=
  match k, x with
  | MAny, VIface (Some (t, VString s')) => (t =? tString)%nat && bseqb s' s
  | MAny, _ => false
  | _, VString s' => bseqb s' s
  | _, _ => false
  end.
(* The templates, in order: unmarshal.go:216-222, 227-244, 198-202, 207-211, 249-253, 271-293, 345-353 with 332-339,
   109-134, 139-150, 163, 298, 165, 167, 169, 171, 155. *)
Inductive ucode :=
| UTime | UDuration | UNode (t : tid) | UJSON (t : tid) | UText (t : tid)
| UMap (k : mkey) (e : tid) (c : ucode) | UStruct (t : tid) (fs : ufields) | USlice (e : tid) (c : ucode) | UPtr (e : tid) (c : ucode)
| UBool | URaw | UString | UInt (bits : Z) | UUint (bits : Z) | UFloat (k : kind) | UIface
with ufields := UNil | UCons (name : bytes) (path : list Z) (c : ucode) (r : ufields).
Fixpoint lastField (fs : ufields) (name : bytes) (path : list Z) (c : ucode) : ufields :=
  match fs with UNil => UCons name path c UNil | UCons n p d r => UCons n p d (lastField r name path c) end.

(* unmarshal.go:357-390 *)
Fixpoint canUnmarshal (fuel : nat) (E : env) (t : tid) : res bool :=
  match fuel with O => Diverge | S k =>
  match typeOf E t with
  | None => Ok false
  | Some T =>
      match tkind T with
      | KMap _ _ => Ok true
      | KStruct fs => Ok (match fs with [] => false | _ => true end)
      | KSlice e | KPtr e => canUnmarshal k E e
      | KBool | KString | KInt _ | KUint _ | KFloat32 | KFloat64 => Ok true
      | KIface m => Ok (negb m)
      | KArray _ _ | KOther => Ok false
      end
  end
  end.
Definition isStringKind (E : env) (t : tid) : bool := match typeOf E t with Some T => match tkind T with KString => true | _ => false end | None => false end.
(* unmarshal.go:303-344; the first error ends it *)
Fixpoint unmarshalFields (gen : tid -> res (option ucode)) (E : env) (G : gopts) (used : list bytes) (l : list mfield) (fs : ufields) : res (option ufields) :=
  match l with
  | [] => Ok (Some fs)
  | f :: r =>
      if bseqb (mname f) (str "_") then unmarshalFields gen E G used r fs else
      let! can := canUnmarshal (S (length (types E))) E (mtype f) in
      if negb can then unmarshalFields gen E G used r fs else
      match parseVar G f with
      | None => unmarshalFields gen E G used r fs
      | Some (name, params) =>
          if has name used then unmarshalFields gen E G used r fs
          else
            let! c := if has rawParam params && isStringKind E (mtype f) then Ok (Some URaw) else gen (mtype f) in
            match c with
            | None => Ok None
            | Some c => unmarshalFields gen E G (name :: used) r (lastField fs name (mpath f) c)
            end
      end
  end.
(* unmarshal.go:66-105 *)
Fixpoint typeUnmarshaler (fuel : nat) (E : env) (G : gopts) (M : genv) (t : tid) : res (option ucode) :=
  match fuel with O => Diverge | S k =>
  match typeOf E t with
  | None => Ok None
  | Some T =>
      if isTime M t then Ok (Some UTime)
      else if isDuration M t then Ok (Some UDuration)
      else if isNodeU (tptr T) then Ok (Some (UNode t))
      else if isJSONU (tptr T) then Ok (Some (UJSON t))
      else if isTextU (tptr T) then Ok (Some (UText t))
      else
      match tkind T with
      | KMap kt e => let! c := typeUnmarshaler k E G M e in Ok (option_map (UMap (keyOf E kt) e) c)
      | KStruct _ => let! fs := unmarshalFields (typeUnmarshaler k E G M) E G [] (fieldsOf M t) UNil in Ok (option_map (UStruct t) fs)
      | KSlice e => let! c := typeUnmarshaler k E G M e in Ok (option_map (USlice e) c)
      | KPtr e => let! c := typeUnmarshaler k E G M e in Ok (option_map (UPtr e) c)
      | KBool => Ok (Some UBool)
      | KString => Ok (Some UString)
      | KInt b => Ok (Some (UInt b))
      | KUint b => Ok (Some (UUint b))
      | (KFloat32 | KFloat64) as kd => Ok (Some (UFloat kd))
      | KIface false => Ok (Some UIface)
      | KIface true | KArray _ _ | KOther => Ok None
      end
  end
  end.
(* unmarshal.go:11-38 *)
Definition Unmarshaler (E : env) (G : gopts) (M : genv) (t : tid) : res (option ucode) := typeUnmarshaler (S (length (types E))) E G M t.

(* does it use the variable r?  The template of UNode has v instead (unmarshal.go:198-202). *)
Definition usesR (c : ucode) : bool := match c with UStruct _ UNil | UNode _ => false | _ => true end.
(* The errors are: a name that is no raw string (GoLit.v) in 339; v is not declared (199), njson.Number and others do not exist (229-235), nor does njson.AnyValue (155);
   a key of a map must be a string (288) or any value; a variable r that is not used. *)
Fixpoint compilesU (c : ucode) : bool :=
  match c with
  | UDuration | UNode _ | UIface => false
  | UMap k _ c => match k with MOther => false | _ => true end && compilesU c && usesR c
  | USlice _ c | UPtr _ c => compilesU c && usesR c
  | UStruct _ fs => compilesUF fs
  | _ => true
  end
with compilesUF (fs : ufields) : bool :=
  match fs with
  | UNil => true
  | UCons name _ c r => goodRaw name && compilesU c && usesR c && compilesUF r
  end.
(* the method for the type t; a type of kind pointer has no methods *)
Definition compilesUnmarshaler (M : genv) (t : tid) (c : ucode) : bool :=
  negb (hasUnmarshal M t) && (compilesU c && usesR c && match c with UPtr _ _ => false | _ => true end).

(* unmarshal.go:178-194 and 336: run f on the field that the path leads to; nil pointers on the way are replaced *)
Fixpoint ensureAt (E : env) (index : list Z) (t : tid) (v : gv) (f : gv -> res (gv * option uerr)) : res (gv * option uerr) :=
  match index with
  | [] => f v
  | i :: r =>
      if (i =? -1)%Z then
        match elemType E t, v with
        | Some e, VPtr x => let! y := ensureAt E r e (match x with Some x => x | None => zero E e end) f in Ok (VPtr (Some (fst y)), snd y)
        | _, _ => Panic
        end
      else
        match v, fieldType E t (Z.to_nat i) with
        | VStruct l, Some ft =>
            match fieldAt l i with
            | Some x => let! y := ensureAt E r ft x f in Ok (VStruct (replaceNth l (Z.to_nat i) (fst y)), snd y)
            | None => Panic
            end
        | _, _ => Panic
        end
  end.
(* unmarshal.go:122-127; l are the elements from the current one on *)
Fixpoint runSlots (run : decodes) (n : Node) (vs : list V) (l : list gv) : res (list gv * option uerr) :=
  match vs, l with
  | x :: vs, e :: l =>
      let! y := run e (Node_With n (vid x)) in
      match y with
      | (e, None) => let! r := runSlots run n vs l in Ok (e :: fst r, snd r)
      | (e, Some err) => Ok (e :: l, Some err)
      end
  | _, _ => Ok (l, None)
  end.
(* m[k] = x *)
Fixpoint setAt (k : mkey) (s : bytes) (x : gv) (m : list (gv * gv)) : list (gv * gv) :=
  match m with
  | [] => [(boxKey k s, x)]
  | (k', y) :: r => if isKey k s k' then (k', x) :: r else (k', y) :: setAt k s x r
  end.
(* unmarshal.go:281-289 *)
Fixpoint runKeys (run : decodes) (mk : mkey) (z : gv) (n : Node) (vs : list V) (m : list (gv * gv)) : res (list (gv * gv) * option uerr) :=
  match vs with
  | [] => Ok (m, None)
  | x :: vs =>
      let! y := run z (Node_With n (vid x)) in
      match y with
      | (y, None) => runKeys run mk z n vs (setAt mk (vkey x) y m)
      | (_, e) => Ok (m, e)
      end
  end.
(* unmarshal.go:349-352: the values of the object; cases is the switch *)
Fixpoint runMembers (cases : bytes -> option decodes) (n : Node) (vs : list V) (v : gv) : res (gv * option uerr) :=
  match vs with
  | [] => Ok (v, None)
  | x :: vs =>
      match cases (vkey x) with
      | None => runMembers cases n vs v
      | Some run =>
          let! y := run v (Node_With n (vid x)) in
          match y with (v, None) => runMembers cases n vs v | _ => Ok y end
      end
  end.
(* What the code (unmarshal.go:66-353) does with the node n and *r = v: the new value, and the error. *)
Fixpoint runU (E : env) (M : genv) (w : world) (c : ucode) (v : gv) (n : Node) {struct c} : res (gv * option uerr) :=
  let ty := Node_Type w n in
  let vs := ivalues (Node_Values w n) in
  match c, v with
  | UTime, _ => Ok (match parseTime M (Node_Raw w n) with inl x => (x, None) | inr e => (v, Some e) end)
  | UJSON t, _ => let! o := Node_WrapUnmarshalJSON w n in wrapped o (callJSONU E t v) v
  | UText t, _ => wrapped (Node_WrapUnmarshalText w n) (callTextU E t v) v
  | UMap k e c, VMap x =>
      if (ty =? TypeNull)%N then Ok (VMap None, None)
      else if (ty =? TypeObject)%N then
        let! m := runKeys (runU E M w c) k (zero E e) n vs (match x with Some m => m | None => [] end) in Ok (VMap (Some (fst m)), snd m)
      else Ok (v, typeError w n (N.lor TypeObject TypeNull))
  | UStruct t fs, VStruct _ =>
      if negb (ty =? TypeObject)%N then Ok (v, typeError w n TypeObject)
      else runMembers (runCase E M w fs t) n vs v
  | USlice e c, VSlice x =>
      if (ty =? TypeArray)%N then
        let size := length vs in
        let (l, s) := match x with
                      | None => (repeat (zero E e) size, [])
                      | Some (l, s) => if (length (l ++ s) <? size)%nat then (repeat (zero E e) (length l + size), []) else (firstn size (l ++ s), skipn size (l ++ s))
                      end in
        let! r := runSlots (runU E M w c) n vs l in
        Ok (VSlice (match x, fst r with None, [] => None | _, _ => Some (fst r, s) end), snd r)
      else if (ty =? TypeNull)%N then Ok (VSlice None, None)
      else Ok (v, typeError w n (N.lor TypeArray TypeNull))
  | UPtr e c, VPtr x =>
      if (ty =? TypeNull)%N then Ok (VPtr None, None)
      else let! y := runU E M w c (match x with Some x => x | None => zero E e end) n in Ok (VPtr (Some (fst y)), snd y)
  | UBool, VBool _ => let (b, ok) := Node_ToBool w n in Ok (if ok then (VBool b, None) else (v, typeError w n TypeBoolean))
  | URaw, VString _ => Ok (VString (Node_Raw w n), None)
  | UString, VString _ => let! s := Node_Unescaped w n in Ok (VString s, None)
  | UInt bits, VInt _ => let (i, ok) := Node_ToInt w n in Ok (if ok then (setInt bits i, None) else (v, typeError w n TypeNumber))
  | UUint bits, VUint _ => let (u, ok) := Node_ToUint w n in Ok (if ok then (setUint bits u, None) else (v, typeError w n TypeNumber))
  | UFloat k, VFloat _ => let (f, ok) := Node_ToFloat w n in Ok (if ok then (setFloat k f, None) else (v, typeError w n TypeNumber))
  | _, _ => Panic
  end
(* the switch of unmarshal.go:350-352, the cases of 332-339 *)
with runCase (E : env) (M : genv) (w : world) (fs : ufields) (t : tid) (key : bytes) {struct fs} : option decodes :=
  match fs with
  | UNil => None
  | UCons name path c r =>
      if bseqb name key then Some (fun v n => ensureAt E path t v (fun x => runU E M w c x n)) else runCase E M w r t key
  end.
(* unmarshal.go:19-36: the method; the receiver is not nil, v is what it points to *)
Definition runUnmarshaler (E : env) (M : genv) (w : world) (c : ucode) (v : gv) (n : Node) : res (gv * option uerr) :=
  let ty := Node_Type w n in
  if negb (Type_IsValue ty) then Ok (v, typeError w n TypeAnyValue)
  else if (ty =? TypeNull)%N then Ok (v, None)
  else runU E M w c v n.
