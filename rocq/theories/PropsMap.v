(* Property C73: the command that writes the lookup tables.  Only statements, each closed by [exact]. *)
From Verif Require Import Bytes ErrSpec GenFile GenFileSpec MapCmd MapSpec MapThms.
Local Open Scope N_scope.

(* Every argument asks for one table, but those without a name. *)
Theorem C73_args : forall U a, (nameless a /\ forall n t, ~ asks U a n t) \/ (~ nameless a /\ exists n t, asks U a n t /\ forall n' t', asks U a n' t' -> n' = n /\ t' = t).
Proof. exact C73_args_lem. Qed.
Print Assumptions C73_args.
(* The file: line by line, with the tables asked for in the order of their names. *)
Theorem C73_file : forall U isPrint pkg file prefix create args, prints isPrint -> isPrint 65279 = false -> ~ In x0a pkg -> ~ In x0a prefix -> Forall (fun a => ~ nameless a) args ->
  (forall a n t, In a args -> asks U a n t -> ~ In x0a n) -> file = [] \/ create = true ->
  exists l text, tables U args l /\ table_lines pkg prefix l (lines text) /\
    bytemaper isPrint U pkg file prefix create args = Some (match file with [] => mkOut true None text | _ => mkOut true (Some text) [] end).
Proof. exact C73_file_lem. Qed.
Print Assumptions C73_file.
(* It fails only if the file cannot be created or for an argument without a name; then a file that was there is empty. *)
Theorem C73_fatal : forall U isPrint pkg file prefix create args, exists r, bytemaper isPrint U pkg file prefix create args = Some r /\
  (oOk r = false <-> (file <> [] /\ create = false) \/ Exists nameless args) /\ (oOk r = false -> oStdout r = [] /\ (oFile r = if match file with [] => false | _ => create end then Some [] else None)).
Proof. exact C73_fatal_lem. Qed.
Print Assumptions C73_fatal.
(* A set of one byte gives a table of zeros: strconv.Unquote gets it without quotes, and its error is dropped. *)
Theorem C73_single : forall U n c, ~ In x3a n -> ~ In n kinds -> n <> [] -> exists t, asks U (n ++ [x3a; c]) n t /\ forall d, tbl t d = x00.
Proof. exact C73_single_lem. Qed.
Print Assumptions C73_single.
(* refuted: the entries of the bytes behind the colon are 1; a run that fails leaves the file as it was. *)
Theorem C73_single_refuted : exists n c, ident n /\ ~ In n kinds /\ forall U t, asks U (n ++ [x3a; c]) n t -> tbl t c <> x01.
Proof. exact C73_single_refuted_lem. Qed.
Print Assumptions C73_single_refuted.
Theorem C73_lost_refuted : exists U isPrint args r, bytemaper isPrint U (str "p") (str "bytemaps.go") (str "bytemap") true args = Some r /\ oOk r = false /\ oFile r = Some [].
Proof. exact C73_lost_lem. Qed.
Print Assumptions C73_lost_refuted.
Example C73_example : (let p := uIsPrint exU in prints p /\ p 65279 = false) /\ Forall (fun a => ~ nameless a) (map str ["IsSep:,]\t"; "FromHex:Hex"; "ToLower"]%string) /\
  (exists t, asks exU (str "IsSep:,]\t") (str "IsSep") t /\ tbl t x09 = x01 /\ tbl t x2c = x01 /\ tbl t x74 = x00) /\ (exists t, asks exU (str "FromHex:Hex") (str "Hex") t /\ tbl t x41 = x0a) /\
  (exists t, asks exU (str "ToLower") (str "ToLower") t /\ tbl t x41 = x61 /\ tbl t xc4 = x00) /\
  exists r, bytemaper (uIsPrint exU) exU (str "main") [] (str "bytemap") true (map str ["IsSep:,]\t"; "FromHex:Hex"; "ToLower"]%string) = Some r /\ oOk r = true /\
    firstn 5 (map (firstn 44) (lines (oStdout r))) = [str "// Code generated by bytemaper; DO NOT EDIT."; str "package main"; []; str "const ("; x09 :: str "bytemapHex = ""\xff\xff\xff\xff\xff\xff\xff\"] /\
    skipn 8 (lines (oStdout r)) = [[]; str "func Hex(c byte) byte {"; x09 :: str "return bytemapHex[c]"; str "}"; []; str "func IsSep(c byte) bool {"; x09 :: str "return bytemapIsSep[c] == 1"; str "}";
      []; str "func ToLower(c byte) byte {"; x09 :: str "return bytemapToLower[c]"; str "}"; []].
Proof. exact C73_example_lem. Qed.
