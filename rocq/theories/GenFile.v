(* Model of the files and the command of the code generator: internal/generator/generator.go, cmd/njson/njson.go and the
   receivers of internal/generator/append.go and unmarshal.go.

   Simplifications: the packages github.com/alxarch/meta, go/parser and go/format are not modelled: the types of a
   package, the code of a method and the formatting of a file are inputs, functions that may fail.  A package of go/types
   is its path and its name.  The time in the header is a text.  The values of flags are inputs; the name of the
   package and the options set by flags are in CmdOpts.v.  os.Create truncates the file if it succeeds; format.Node writes all or nothing. *)
From Verif Require Import Bytes ErrText.

(* types.Package: Path() and Name() *)
Record pkg := mkPkg { ppath : bytes; pname : bytes }.
(* strings.HasPrefix, HasSuffix, TrimSuffix *)
Fixpoint HasPrefix (s p : bytes) : bool :=
  match p, s with
  | [], _ => true
  | a :: p, b :: s => beqb a b && HasPrefix s p
  | _ :: _, [] => false
  end.
Definition HasSuffix (s suf : bytes) : bool := HasPrefix (rev s) (rev suf).
Definition TrimSuffix (s suf : bytes) : bytes := if HasSuffix s suf then firstn (length s - length suf) s else s.

(* generator.go:103-114 *)
Definition Filename (name : bytes) : bytes :=
  if HasSuffix name (str "_test") then TrimSuffix name (str "_test") ++ str "_njson_test.go" else name ++ str "_njson.go".

(* generator.go:30-36; gname and gpath are Name() and Path() of the package, the map is a list of pairs *)
Record gen := mkGen { gname : bytes; gpath : bytes; gimports : list (bytes * pkg); gbuffer : bytes }.
(* m[k] = p *)
Fixpoint setPkg (m : list (bytes * pkg)) (k : bytes) (p : pkg) : list (bytes * pkg) :=
  match m with
  | [] => [(k, p)]
  | (k', p') :: r => if bseqb k' k then (k', p) :: r else (k', p') :: setPkg r k p
  end.
(* generator.go:116-120 *)
Definition Reset (g : gen) : gen := mkGen (gname g) (gpath g) [] [].
(* generator.go:122-136 *)
Definition import1 (g : gen) (p : pkg) : gen :=
  if bseqb (ppath p) (gpath g) then g else mkGen (gname g) (gpath g) (setPkg (gimports g) (ppath p) p) (gbuffer g).
Definition Import (g : gen) (imports : list pkg) : gen := fold_left import1 imports g.
(* append.go:12-21, unmarshal.go:39-49; None: the code has an error *)
Definition writeCode (g : gen) (code : option (list pkg * bytes)) : option gen :=
  match code with
  | None => None
  | Some (imports, text) => let g := Import g imports in Some (mkGen (gname g) (gpath g) (gimports g) (gbuffer g ++ text))
  end.

(* filepath.Base, with / as the separator *)
Fixpoint dropSlashes (s : bytes) : bytes := match s with c :: r => if beqb c x2f then dropSlashes r else s | [] => [] end.
Fixpoint upToSlash (s : bytes) : bytes := match s with c :: r => if beqb c x2f then [] else c :: upToSlash r | [] => [] end.
Definition Base (path : bytes) : bytes :=
  match path with
  | [] => str "."
  | _ => match dropSlashes (rev path) with [] => str "/" | r => rev (upToSlash r) end
  end.
(* strings.Join with a line end *)
Fixpoint joinLines (l : list bytes) : bytes := match l with [] => [] | [x] => x | x :: r => x ++ x0a :: joinLines r end.
Section Print.
  (* strconv.IsPrint *)
  Variable isPrint : N -> bool.
  (* generator.go:213-219 *)
  Definition importLine (e : bytes * pkg) : bytes :=
    let (path, p) := e in
    if bseqb (Base path) (pname p) then str "import " ++ quoteString isPrint path
    else str "import " ++ pname p ++ x20 :: quoteString isPrint path.
  (* generator.go:196-198, 205-222; ts is the time, order the imports in the order in which the map is walked *)
  Definition Header (g : gen) (ts : bytes) (order : list (bytes * pkg)) : bytes :=
    joinLines ((str "// Code generated by njson on " ++ ts ++ str "; DO NOT EDIT.") :: (str "package " ++ gname g) :: map importLine order).
  (* generator.go:138-147 *)
  Definition DumpTo (g : gen) (ts : bytes) (order : list (bytes * pkg)) : bytes := Header g ts order ++ gbuffer g.
End Print.

(* The first comment of a file that begins with a comment of the form //, and its Text(): the lines that begin with //,
   without the slashes and a space, and without blank lines at the start; lines like //go:build are not treated
   differently here.  Text() also drops blanks at line ends. *)
Fixpoint firstLine (s : bytes) : bytes * option bytes :=
  match s with
  | [] => ([], None)
  | c :: r => if beqb c x0a then ([], Some r) else let (l, t) := firstLine r in (c :: l, t)
  end.
Definition uncomment (line : bytes) : bytes :=
  match line with _ :: _ :: c :: r => if beqb c x20 then r else c :: r | _ => [] end.
Definition blank (c : byte) : bool := beqb c x20 || beqb c x09 || beqb c x0d.
Fixpoint commentText (fuel : nat) (s : bytes) : bytes :=
  match fuel with
  | O => []
  | S k =>
      let (l, rest) := firstLine s in
      if HasPrefix l (str "//") then
        if forallb blank (uncomment l) then match rest with Some r => commentText k r | None => [] end else uncomment l
      else []
  end.
(* generator.go:200-203: the prefix lies in the first line *)
Definition IsGeneratedByNJSON (file : bytes) : bool := HasPrefix (commentText (length file) file) (str "Code generated by njson").

(* append.go:29, unmarshal.go:17: strings.ToLower of the first byte of the name; the bytes from 80 on are no UTF-8 by
   themselves, strings.ToLower gives U+FFFD for them.  A name has a byte. *)
Definition receiverName (typeName : bytes) : bytes :=
  match typeName with
  | [] => []
  | c :: _ => if ((65 <=? bN c) && (bN c <=? 90))%N then [Nb (bN c + 32)] else if (bN c <? 128)%N then [c] else [xef; xbf; xbd]
  end.

(* ---- cmd/njson/njson.go ---- *)

(* regexp.QuoteMeta *)
Definition special (c : byte) : bool := existsb (beqb c) (str "\.+*?()|[]{}^$").
Definition QuoteMeta (s : bytes) : bytes := flat_map (fun c => if special c then [x5c; c] else [c]) s.
(* flag.Arg *)
Definition Arg (args : list bytes) (i : nat) : bytes := nth i args [].
Record flags := mkFlags { fAppend : bool; fUnmarshal : bool; fMatch : bytes; fDebug : bool; fWrite : bool }.
(* What the command does: whether it ends without Fatal, the file afterwards (None: there is none), and what is written
   to the standard output. *)
Record outcome := mkOut { oOk : bool; oFile : option bytes; oStdout : bytes }.
Section Command.
  (* regexp.Compile; generator.NewFromDir and AllStructs; the code of the methods of a type; PrintTo; os.Create *)
  Variable compile : bytes -> option (bytes -> bool).
  Variable structs : option (list bytes).
  Variables unmarshaler appender : bytes -> option (list pkg * bytes).
  Variable printTo : gen -> option bytes.
  Variable create : bool.

  (* njson.go:68-74 *)
  Definition matchOk (F : flags) : bool := if bseqb (fMatch F) (str ".*") then true else match compile (fMatch F) with Some _ => true | None => false end.
  (* njson.go:85-97; None: Fatal *)
  Definition typeFilter (m : bytes) : option (bytes -> bool) :=
    if bseqb m [] || bseqb m (str "*") then Some (fun _ => true)
    else if bseqb (QuoteMeta m) m then Some (fun name => bseqb name m)
    else compile m.
  (* njson.go:75-78 *)
  Definition generates (F : flags) : bool * bool := if Bool.eqb (fAppend F) (fUnmarshal F) then (true, true) else (fUnmarshal F, fAppend F).
  (* njson.go:116-132 *)
  Definition writeType (u a : bool) (g : gen) (t : bytes) : option gen :=
    match (if u then writeCode g (unmarshaler t) else Some g) with
    | None => None
    | Some g => if a then writeCode g (appender t) else Some g
    end.
  Fixpoint writeTypes (u a : bool) (g : gen) (ts : list bytes) : option gen :=
    match ts with
    | [] => Some g
    | t :: r => match writeType u a g t with Some g => writeTypes u a g r | None => None end
    end.
  (* njson.go:41-174; g0 is the generator, old the file before *)
  Definition run (F : flags) (args : list bytes) (g0 : gen) (old : option bytes) : outcome :=
    let fatal := mkOut false old [] in
    if negb (matchOk F) then fatal
    else
      let (u, a) := generates F in
      match structs with
      | None => fatal
      | Some all =>
          match typeFilter (Arg args 1) with
          | None => fatal
          | Some keep =>
              let types := filter keep all in
              match types with
              | [] => fatal
              | _ =>
                  match writeTypes u a (Reset g0) types with
                  | None => fatal
                  | Some g =>
                      if fDebug F then mkOut true old []
                      else if fWrite F then
                        if create then match printTo g with Some s => mkOut true (Some s) [] | None => mkOut false (Some []) [] end
                        else fatal
                      else match printTo g with Some s => mkOut true old s | None => fatal end
                  end
              end
          end
      end.
End Command.
