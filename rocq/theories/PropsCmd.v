(* Property theorems: the flags of the command and the options of the generator (C71).  Only statements and examples;
   proofs are in CmdThms.v. *)
From Verif Require Import Bytes JsonSpec Codec Gen GenFile CmdOpts CmdSpec CmdThms.

(* C71: the fields that take part, their names and parameters, from the flags. *)
Theorem C71_fields : forall snake lower lowerCamel camel compile F o f name params, commandGen snake lower lowerCamel camel compile F = Some o ->
  parseVar (genOptions o) f = Some (name, params) <-> cmd_field snake lower lowerCamel camel compile F f name params.
Proof. exact C71_fields_lem. Qed.
Print Assumptions C71_fields.
(* C71: the flags are refused only if the pattern is no regular expression. *)
Theorem C71_fatal : forall snake lower lowerCamel camel compile F, commandGen snake lower lowerCamel camel compile F = None <-> ofMatch F <> str ".*" /\ compile (ofMatch F) = None.
Proof. exact C71_fatal_lem. Qed.
Print Assumptions C71_fatal.
(* C71: no flag changes the names of methods. *)
Theorem C71_methods : forall snake lower lowerCamel camel compile F o, commandGen snake lower lowerCamel camel compile F = Some o ->
  options_AppendMethod o = str "AppendJSON" /\ options_UnmarshalMethod o = str "UnmarshalNodeJSON" /\ gOmit (genOptions o) = str "Omit".
Proof. exact C71_methods_lem. Qed.
Print Assumptions C71_methods.
(* C71: each option sets what it is for and nothing else. *)
Theorem C71_options : forall snake lower lowerCamel camel o n s b, let '(tag, app, unm, omi, ex, tg, fo) := seen o in
  seen (TagKey s o) = (or_default s (str "json"), app, unm, omi, ex, tg, fo) /\ seen (AppendMethod s o) = (tag, or_default s (str "AppendJSON"), unm, omi, ex, tg, fo) /\
  seen (UnmarshalMethod s o) = (tag, app, or_default s (str "UnmarshalNodeJSON"), omi, ex, tg, fo) /\ seen (OmitMethod s o) = (tag, app, unm, or_default s (str "Omit"), ex, tg, fo) /\
  seen (OnlyExported b o) = (tag, app, unm, omi, b, tg, fo) /\ seen (OnlyTagged b o) = (tag, app, unm, omi, ex, b, fo) /\ seen (ForceOmitEmpty b o) = (tag, app, unm, omi, ex, tg, b) /\
  seen (MatchFieldName n o) = seen o /\ seen (TransformFieldCase snake lower lowerCamel camel s o) = seen o /\
  Forall (fun f : option => omatch (f o) = omatch o /\ oname (f o) = oname o) [TagKey s; AppendMethod s; UnmarshalMethod s; OmitMethod s; OnlyExported b; OnlyTagged b; ForceOmitEmpty b] /\
  omatch (TransformFieldCase snake lower lowerCamel camel s o) = omatch o /\ oname (MatchFieldName n o) = oname o /\
  (forall name, gMatch (genOptions (MatchFieldName n o)) name = match n with None => true | Some m => m name end) /\
  (forall name, cased snake lower lowerCamel camel s name (gName (genOptions (TransformFieldCase snake lower lowerCamel camel s o)) name)).
Proof. exact (fun a b c d => C71_options_lem a b c d (fun _ => None)). Qed.
Print Assumptions C71_options.
(* C71: without a package in the arguments, it is the last element of the path up to its last dot. *)
Theorem C71_pkg : forall dir base args, base <> [] -> ~ In x2f base ->
  (forall name r, args = name :: r -> name <> [] -> targetPkg (dir ++ x2f :: base) args = name) /\
  (nth 0 args [] = [] -> (~ In x2e base -> targetPkg (dir ++ x2f :: base) args = base) /\
    (forall stem ext, base = stem ++ x2e :: ext -> ~ In x2e ext -> targetPkg (dir ++ x2f :: base) args = stem)).
Proof. exact C71_pkg_lem. Qed.
Print Assumptions C71_pkg.

(* -k "" -only-exported -omitempty -match U -case snake *)
Example C71_example :
  let id := fun n : bytes => n in
  let compile := fun p => if bseqb p (str "U") then Some (fun n => HasPrefix n p) else None in
  let F := mkOF [] false true true (str "U") (str "snake") in
  let field name exported tag := mkMF name exported [0%Z] 0 [] (fun k => if bseqb k (str "json") then tag else None) in
  exists o, commandGen (fun _ => str "user_id") id id id compile F = Some o /\
    parseVar (genOptions o) (field (str "UserID") true None) = Some (str "user_id", [str "omitempty"]) /\
    parseVar (genOptions o) (field (str "UserID") true (Some (str "u,raw"))) = Some (str "u", [str "raw"; str "omitempty"]) /\
    parseVar (genOptions o) (field (str "Unit") false None) = None /\ parseVar (genOptions o) (field (str "Name") true None) = None /\
    commandGen id id id id compile (mkOF [] false true true (str "[") (str "snake")) = None /\
    targetPkg (str "/src/yaml.v2") [[]] = str "yaml" /\ targetPkg (str "/src/yaml.v2") [str "other"] = str "other".
Proof. eexists. split; [reflexivity|]. repeat split; reflexivity. Qed.
