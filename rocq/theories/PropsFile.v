(* Property theorems: the files of the code generator and its command (C65, C66).  Only statements and examples; proofs
   are in GenFileThms. *)
From Coq Require Import Permutation.
From Verif Require Import Bytes StrSpec ErrText ErrSpec GenFile GenFileSpec GenFileThms.
Local Open Scope N_scope.

(* C65: the file for a package is a Go file, and a test file just when the package is a test package. *)
Theorem C65_filename : forall name, ends (Filename name) (str ".go") /\ (ends (Filename name) (str "_test.go") <-> ends name (str "_test")).
Proof. exact C65_filename_lem. Qed.
Print Assumptions C65_filename.

(* C65: packages of different names get different files. *)
Theorem C65_filename_inj : forall name name', Filename name = Filename name' -> name = name'.
Proof. exact C65_filename_inj_lem. Qed.
Print Assumptions C65_filename_inj.

(* C65: whatever packages the code needs, and in whatever order the map of them is walked, the file has one line that
   says it is generated, the package clause, one declaration for every package but its own, each binding the name the
   code uses, and then the code. *)
Theorem C65_file : forall isPrint g0 ps ts order body,
  prints isPrint -> one_line ts -> ident (gname g0) -> Forall (fun p => ident (pname p)) ps -> body = [] \/ (exists b, body = x0a :: b) ->
  let g := Import (Reset g0) ps in Permutation order (gimports g) ->
  exists decls rest,
    lines (DumpTo isPrint (mkGen (gname g) (gpath g) (gimports g) body) ts order) =
      (str "// Code generated by njson on " ++ ts ++ str "; DO NOT EDIT.") :: (str "package " ++ gname g0) :: decls ++ rest /\
    Forall2 (fun d e => declares isPrint d (fst e) (pname (snd e))) decls order /\
    NoDup (map fst order) /\ (forall x, In x (map fst order) <-> x <> gpath g0 /\ In x (map ppath ps)) /\
    (forall x q, In (x, q) order -> ppath q = x /\ In q ps) /\
    (forall b, body = x0a :: b -> rest = lines b) /\ (body = [] -> rest = []).
Proof. exact C65_file_lem. Qed.
Print Assumptions C65_file.

(* C65: the generator knows its files again, and so do other tools. *)
Theorem C65_recognised : forall isPrint g ts order, one_line ts -> IsGeneratedByNJSON (DumpTo isPrint g ts order) = true.
Proof. exact C65_recognised_lem. Qed.
Print Assumptions C65_recognised.
Theorem C65_marks : forall file, IsGeneratedByNJSON file = true <-> comment_starts file (str "Code generated by njson").
Proof. exact njson_marks. Qed.
Print Assumptions C65_marks.
Theorem C65_generated : forall ts, generated_line (str "// Code generated by njson on " ++ ts ++ str "; DO NOT EDIT.").
Proof. exact C65_generated_lem. Qed.
Print Assumptions C65_generated.

Example C65_marks_example : IsGeneratedByNJSON (str "//" ++ x0a :: str "//Code generated by njson") = true /\ IsGeneratedByNJSON (str "// Code generated by bytemaper; DO NOT EDIT.") = false /\
  comment_starts (str "//" ++ x0a :: str "//Code generated by njson") (str "Code generated by njson").
Proof. split; [reflexivity|]. split; [reflexivity|]. exists [[]], [], []. split; [reflexivity|]. split; [repeat constructor|left; reflexivity]. Qed.

(* C65 in full, that the declarations bind different names, is false: two packages of the same name. *)
Theorem C65_clash_refuted : forall isPrint, exists g ps d d', Permutation (gimports (Import g ps)) [(ppath pkgA, pkgA); (ppath pkgB, pkgB)] /\
  Forall (fun p => ident (pname p)) ps /\ declares isPrint d (ppath pkgA) (str "model") /\ declares isPrint d' (ppath pkgB) (str "model") /\
  forall ts, exists c, Header isPrint (Import g ps) ts (gimports (Import g ps)) = c ++ x0a :: d ++ x0a :: d'.
Proof. exact C65_clash_lem. Qed.
Print Assumptions C65_clash_refuted.

(* a test package; the package twice; a path whose last element is not the name *)
Definition ascii_print (r : N) : bool := (32 <=? r) && (r <? 127).
Example C65_example :
  Filename (str "foo_test") = str "foo_njson_test.go" /\ Filename (str "foo") = str "foo_njson.go" /\
  Header ascii_print gen0 stamp (gimports (Import (Reset gen0) [pkgN; pkgY; pkgN])) =
    str "// Code generated by njson on Mon, 02 Jan 2006 15:04:05 UTC; DO NOT EDIT." ++ x0a :: str "package foo_test" ++ x0a ::
    str "import ""github.com/alxarch/njson""" ++ x0a :: str "import yaml ""gopkg.in/yaml.v2""".
Proof. vm_compute. auto. Qed.

(* C66: a run that ends well has written, for just the types of the package the argument stands for, the methods that
   were asked for, all of which could be made; the reading method of a type before its writing method.  The file is
   written only with -w and without -d. *)
Theorem C66_run : forall compile structs unmarshaler appender printTo create F args g0 old o,
  run compile structs unmarshaler appender printTo create F args g0 old = o -> oOk o = true ->
  exists all types g, structs = Some all /\ types <> [] /\ incl types all /\ (forall t, In t types <-> In t all /\ wanted compile (nth 1 args []) t) /\
    (NoDup all -> NoDup types) /\
    gbuffer g = flat_map (fun t => codeOf (fUnmarshal F || negb (fAppend F)) (unmarshaler t) ++ codeOf (fAppend F || negb (fUnmarshal F)) (appender t)) types /\
    Forall (fun t => madeOf (fUnmarshal F || negb (fAppend F)) (unmarshaler t) /\ madeOf (fAppend F || negb (fUnmarshal F)) (appender t)) types /\
    (fDebug F = true -> oFile o = old /\ oStdout o = []) /\
    (fDebug F = false -> exists s, printTo g = Some s /\ if fWrite F then oFile o = Some s /\ oStdout o = [] else oFile o = old /\ oStdout o = s).
Proof. exact C66_run_lem. Qed.
Print Assumptions C66_run.

(* C66: the name of a type of the package does, the name of no type stops the command. *)
Theorem C66_named : forall compile structs unmarshaler appender printTo create F args g0 old all name,
  structs = Some all -> NoDup all -> nth 1 args [] = name -> name <> [] -> plain_name name -> matchOk compile F = true ->
  (In name all -> (fUnmarshal F = true \/ fAppend F = false -> unmarshaler name <> None) -> (fAppend F = true \/ fUnmarshal F = false -> appender name <> None) ->
     (forall g, printTo g <> None) -> create = true ->
     oOk (run compile structs unmarshaler appender printTo create F args g0 old) = true) /\
  (~ In name all -> run compile structs unmarshaler appender printTo create F args g0 old = mkOut false old []).
Proof. exact C66_named_lem. Qed.
Print Assumptions C66_named.

(* C66: a run that fails writes nothing, unless it fails because the code could not be formatted.
   Missing for the full statement: the file is created before the code is formatted. *)
Theorem C66_kept_partial : forall compile structs unmarshaler appender printTo create F args g0 old o,
  run compile structs unmarshaler appender printTo create F args g0 old = o -> oOk o = false ->
  oStdout o = [] /\ (oFile o = old \/ fWrite F = true /\ oFile o = Some [] /\ exists g, printTo g = None).
Proof. exact C66_kept_lem. Qed.
Print Assumptions C66_kept_partial.

(* C66 in full, that a run that fails keeps the file, is false. *)
Theorem C66_kept_refuted : exists printTo old o, old <> [] /\
  run (fun _ => None) (Some [str "A"; str "B"]) exCode exCode printTo true exFlags [str "p"; str "A"] gen0 (Some old) = o /\
  oOk o = false /\ oFile o = Some [].
Proof. exact C66_lost_lem. Qed.
Print Assumptions C66_kept_refuted.

(* C66: only the first type of the arguments is used ... *)
Theorem C66_args : forall compile structs unmarshaler appender printTo create F p t more g0 old,
  run compile structs unmarshaler appender printTo create F (p :: t :: more) g0 old =
  run compile structs unmarshaler appender printTo create F [p; t] g0 old.
Proof. exact C66_args_lem. Qed.
Print Assumptions C66_args.
(* ... so that methods for every type that is given, as the usage text says, is false. *)
Theorem C66_args_refuted : exists o,
  run (fun _ => None) (Some [str "A"; str "B"]) exCode exCode exPrint true exFlags [str "p"; str "A"; str "B"] gen0 None = o /\
  oOk o = true /\ oFile o = Some (x0a :: str "func A").
Proof. exact C66_more_lem. Qed.
Print Assumptions C66_args_refuted.

(* C66: the receiver of the methods of a type whose name begins with an ASCII letter is a small ASCII letter.
   Missing for the full statement: names that begin with other characters. *)
Theorem C66_receiver_partial : forall c r, (65 <= bN c <= 90 \/ 97 <= bN c <= 122) -> exists d, receiverName (c :: r) = [d] /\ 97 <= bN d <= 122.
Proof. exact C66_receiver_lem. Qed.
Print Assumptions C66_receiver_partial.
(* C66 in full, that the receiver is a name the methods can use, is false: the blank identifier, and U+FFFD, which is no letter. *)
Theorem C66_receiver_refuted :
  (exists t, ident t /\ receiverName t = str "_") /\ (exists t, valid_utf8 t /\ ident t /\ receiverName t = utf8 65533).
Proof. exact C66_receiver_bad_lem. Qed.
Print Assumptions C66_receiver_refuted.

(* both methods of all types; the argument is a regular expression; the name of no type *)
Definition exStarts (s : bytes) : option (bytes -> bool) :=
  match s with c :: a :: _ => if beqb c x5e then Some (fun t => match t with b :: _ => beqb a b | [] => false end) else None | _ => None end.
Definition exRun := run exStarts (Some [str "Aa"; str "B"; str "Ab"]) exCode (fun t => Some ([], x0a :: str "app " ++ t)) exPrint true.
Example C66_example :
  exRun (mkFlags false false (str ".*") false false) [str "p"; str "^A"] gen0 (Some (str "old")) =
    mkOut true (Some (str "old")) (x0a :: str "func Aa" ++ x0a :: str "app Aa" ++ x0a :: str "func Ab" ++ x0a :: str "app Ab") /\
  exRun (mkFlags true false (str ".*") false true) [str "p"] gen0 (Some (str "old")) =
    mkOut true (Some (x0a :: str "app Aa" ++ x0a :: str "app B" ++ x0a :: str "app Ab")) [] /\
  exRun (mkFlags true false (str ".*") false true) [str "p"; str "C"] gen0 (Some (str "old")) = mkOut false (Some (str "old")) [] /\
  receiverName (str "Tag") = str "t".
Proof. vm_compute. auto. Qed.
