(* Model of the options of the generator and of how the command sets them: internal/generator/options.go:16-204 and
   cmd/njson/njson.go:18-74.

   Simplifications: an option is a function on the record of the options (Option, line 30; the logger has no effect on
   the code and is left out).  The functions of package strcase, strings.ToLower, regexp.Compile and the absolute path of
   -p are inputs. *)
From Verif Require Import Bytes Gen GenFile.

(* options.go:16-27; None is nil.  oomiter is the name of the method of the interface. *)
Record options := mkOpts { otag : bytes; oappend : bytes; ounmarshal : bytes; oomiter : option bytes; oexported : bool; otagged : bool; oforce : bool;
  omatch : option (bytes -> bool); oname : option (bytes -> bytes) }.
(* new(Generator), generator.go:91 *)
Definition noOptions : options := mkOpts [] [] [] None false false false None None.
Definition option := options -> options.
(* options.go:149-153 *)
Definition TagKey (key : bytes) : option := fun o => mkOpts key (oappend o) (ounmarshal o) (oomiter o) (oexported o) (otagged o) (oforce o) (omatch o) (oname o).
(* options.go:156-165; methodOmit, generator.go:180, is Omit *)
Definition OmitMethod (name : bytes) : option :=
  let name := match name with [] => str "Omit" | _ => name end in
  fun o => mkOpts (otag o) (oappend o) (ounmarshal o) (Some name) (oexported o) (otagged o) (oforce o) (omatch o) (oname o).
(* options.go:170-177, 180-187 *)
Definition AppendMethod (name : bytes) : option :=
  let name := match name with [] => str "AppendJSON" | _ => name end in
  fun o => mkOpts (otag o) name (ounmarshal o) (oomiter o) (oexported o) (otagged o) (oforce o) (omatch o) (oname o).
Definition UnmarshalMethod (name : bytes) : option :=
  let name := match name with [] => str "UnmarshalNodeJSON" | _ => name end in
  fun o => mkOpts (otag o) (oappend o) name (oomiter o) (oexported o) (otagged o) (oforce o) (omatch o) (oname o).
(* options.go:200-204, 91-95, 84-88 *)
Definition ForceOmitEmpty (on : bool) : option := fun o => mkOpts (otag o) (oappend o) (ounmarshal o) (oomiter o) (oexported o) (otagged o) on (omatch o) (oname o).
Definition OnlyExported (on : bool) : option := fun o => mkOpts (otag o) (oappend o) (ounmarshal o) (oomiter o) on (otagged o) (oforce o) (omatch o) (oname o).
Definition OnlyTagged (on : bool) : option := fun o => mkOpts (otag o) (oappend o) (ounmarshal o) (oomiter o) (oexported o) on (oforce o) (omatch o) (oname o).
(* options.go:74-81; None is a nil regexp, and .* matches every name *)
Definition MatchFieldName (rx : Datatypes.option (bytes -> bool)) : option :=
  let m := match rx with Some m => m | None => fun _ => true end in
  fun o => mkOpts (otag o) (oappend o) (ounmarshal o) (oomiter o) (oexported o) (otagged o) (oforce o) (Some m) (oname o).
(* generator.go:92-95 *)
Definition apply (l : list option) (o : options) : options := fold_left (fun o f => f o) l o.

(* options.go:98-103 *)
Definition options_TagKey (o : options) : bytes := match otag o with [] => str "json" | k => k end.
(* options.go:32-37 *)
Definition JSONFieldName (o : options) (name : bytes) : bytes := match oname o with None => name | Some f => f name end.
(* options.go:39-52 *)
Definition options_UnmarshalMethod (o : options) : bytes := match ounmarshal o with [] => str "UnmarshalNodeJSON" | m => m end.
Definition options_AppendMethod (o : options) : bytes := match oappend o with [] => str "AppendJSON" | m => m end.
(* append.go:45-50 *)
Definition OmiterName (o : options) : bytes := match oomiter o with None => str "Omit" | Some m => m end.
(* the options as Gen.v has them; options.go:138-146 without the test of the blank identifier, which is in Gen.MatchField *)
Definition genOptions (o : options) : gopts :=
  mkG (options_TagKey o) (OmiterName o) (oexported o) (otagged o) (oforce o) (match omatch o with None => fun _ => true | Some m => m end) (JSONFieldName o).

(* path.Ext: from the last dot of the last element on *)
Fixpoint extFrom (rev : bytes) : Datatypes.option bytes :=
  match rev with
  | [] => None
  | c :: r => if beqb c x2f then None else if beqb c x2e then Some [c] else match extFrom r with Some e => Some (e ++ [c]) | None => None end
  end.
Definition Ext (path : bytes) : bytes := match extFrom (rev path) with Some e => e | None => [] end.
(* njson.go:44-52; abs is the absolute path, path.Base is filepath.Base with / *)
Definition targetPkg (abs : bytes) (args : list bytes) : bytes :=
  match Arg args 0 with
  | [] => let b := Base abs in TrimSuffix b (Ext b)
  | name => name
  end.

(* njson.go:18-31, the flags that are options *)
Record optFlags := mkOF { ofKey : bytes; ofTagged : bool; ofExported : bool; ofForce : bool; ofMatch : bytes; ofCase : bytes }.
Section Options.
  Variables ToSnake ToLower ToLowerCamel ToCamel : bytes -> bytes.
  Variable compile : bytes -> Datatypes.option (bytes -> bool).
  (* options.go:55-70 *)
  Definition fieldNamer (mode : bytes) : Datatypes.option (bytes -> bytes) :=
    if bseqb mode (str "snake") then Some ToSnake
    else if bseqb mode (str "lower") then Some ToLower
    else if bseqb mode (str "camel") then Some ToLowerCamel
    else if bseqb mode (str "Camel") then Some ToCamel
    else None.
  Definition TransformFieldCase (mode : bytes) : option :=
    let f := fieldNamer mode in
    fun o => mkOpts (otag o) (oappend o) (ounmarshal o) (oomiter o) (oexported o) (otagged o) (oforce o) (omatch o) f.
  (* njson.go:53-74; None: Fatal *)
  Definition commandOptions (F : optFlags) : Datatypes.option (list option) :=
    let l := [TagKey (ofKey F)] ++ (if ofForce F then [ForceOmitEmpty true] else []) ++ (if ofExported F then [OnlyExported true] else [])
      ++ (if ofTagged F then [OnlyTagged true] else []) ++ (if negb (bseqb (ofCase F) (str "none")) then [TransformFieldCase (ofCase F)] else []) in
    if negb (bseqb (ofMatch F) (str ".*")) then match compile (ofMatch F) with None => None | Some rx => Some (l ++ [MatchFieldName (Some rx)]) end
    else Some l.
  (* the options of the generator that the command makes *)
  Definition commandGen (F : optFlags) : Datatypes.option options := match commandOptions F with Some l => Some (apply l noOptions) | None => None end.
End Options.
