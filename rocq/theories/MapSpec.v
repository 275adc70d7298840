(* Specification vocabulary for C73: the command that writes lookup tables. *)
From Coq Require Import Sorted.
From Verif Require Import Bytes JsonSpec StrSpec GoLitSpec TagSpec GenSpec GenFileSpec MapCmd.
Local Open Scope N_scope.

(* The names with a meaning. *)
Definition kinds : list bytes := map str ["ToJSON"; "ToISO3166"; "ToISO639"; "ToHex"; "FromHex"; "IsControl"; "IsPunct"; "IsDigit"; "IsSpace"; "IsPrint"; "ToLower"; "ToUpper"; "ToTitle"]%string.
Definition truth (b : bool) (x : byte) : Prop := x = if b then x01 else x00.
Definition ascii_rune (r : Z) (x : byte) : Prop := (r = Z.of_N (bN x) /\ bN x < 128) \/ ((r < 0 \/ 128 <= r)%Z /\ x = x00).
(* [entry U kind c x]: the entry of the table kind for the byte c is x. *)
Inductive entry (U : uni) : bytes -> byte -> byte -> Prop :=
| en_json c x : json_class c x -> entry U (str "ToJSON") c x
| en_upper c : 65 <= bN c <= 90 -> entry U (str "ToISO3166") c c
| en_raised c x : 97 <= bN c <= 122 -> bN c = bN x + 32 -> entry U (str "ToISO3166") c x
| en_Z c : ~ 65 <= bN c <= 90 -> ~ 97 <= bN c <= 122 -> entry U (str "ToISO3166") c x5a
| en_lower c : 97 <= bN c <= 122 -> entry U (str "ToISO639") c c
| en_lowered c x : 65 <= bN c <= 90 -> bN x = bN c + 32 -> entry U (str "ToISO639") c x
| en_z c : ~ 65 <= bN c <= 90 -> ~ 97 <= bN c <= 122 -> entry U (str "ToISO639") c x7a
| en_hex c x : bN c < 16 -> hexdigit x -> ~ 65 <= bN x <= 70 -> hexval x = bN c -> entry U (str "ToHex") c x
| en_nohex c : 16 <= bN c -> entry U (str "ToHex") c xff
| en_digit c x : 48 <= bN c <= 57 -> bN x + 48 = bN c -> entry U (str "FromHex") c x
| en_small c x : 97 <= bN c <= 122 -> bN x + 87 = bN c -> entry U (str "FromHex") c x
| en_large c x : 65 <= bN c <= 90 -> bN x + 55 = bN c -> entry U (str "FromHex") c x
| en_other c : ~ 48 <= bN c <= 57 -> ~ 65 <= bN c <= 90 -> ~ 97 <= bN c <= 122 -> entry U (str "FromHex") c xff
| en_control c x : truth (uIsControl U (bN c)) x -> entry U (str "IsControl") c x
| en_punct c x : truth (uIsPunct U (bN c)) x -> entry U (str "IsPunct") c x
| en_isdigit c x : truth (uIsDigit U (bN c)) x -> entry U (str "IsDigit") c x
| en_space c x : truth (uIsSpace U (bN c)) x -> entry U (str "IsSpace") c x
| en_print c x : truth (uIsPrint U (bN c)) x -> entry U (str "IsPrint") c x
| en_tolower c x : ascii_rune (uToLower U (bN c)) x -> entry U (str "ToLower") c x
| en_toupper c x : ascii_rune (uToUpper U (bN c)) x -> entry U (str "ToUpper") c x
| en_totitle c x : ascii_rune (uToTitle U (bN c)) x -> entry U (str "ToTitle") c x.
Definition table (t : bytes) (P : byte -> byte -> Prop) : Prop := length t = 256%nat /\ forall c, P c (tbl t c).

(* What is behind the colon: at least two bytes, a Go string without its quotes, or with them. *)
Definition given (s v : bytes) : Prop :=
  (2 <= length s)%nat /\ ((~ (exists r, s = x22 :: r) /\ ~ ends s [x22] /\ tag_value s v) \/ exists b, s = x22 :: b ++ [x22] /\ tag_value b v).
(* [asks U a name t]: the argument a asks for the table t with this name. *)
Inductive asks (U : uni) : bytes -> bytes -> bytes -> Prop :=
| as_kind k t : In k kinds -> table t (entry U k) -> asks U k k t
| as_named k s v t : In k kinds -> given s v -> v <> [] -> table t (entry U k) -> asks U (k ++ x3a :: s) v t
| as_unnamed k s t : In k kinds -> (forall v, given s v -> v = []) -> table t (entry U k) -> asks U (k ++ x3a :: s) k t
| as_set n s v t : ~ In x3a n -> ~ In n kinds -> n <> [] -> given s v -> table t (fun c x => truth (existsb (beqb c) v) x) -> asks U (n ++ x3a :: s) n t
| as_bad n s t : ~ In x3a n -> ~ In n kinds -> n <> [] -> (forall v, ~ given s v) -> t = repeat x00 256 -> asks U (n ++ x3a :: s) n t
| as_empty n t : ~ In x3a n -> ~ In n kinds -> n <> [] -> t = repeat x00 256 -> asks U n n t.
(* What an argument cannot be: nothing, or with nothing before the colon. *)
Definition nameless (a : bytes) : Prop := a = [] \/ exists s, a = x3a :: s.
(* The tables of a run, by name; of arguments with the same name the last counts. *)
Definition tables (U : uni) (args : list bytes) (l : list (bytes * bytes)) : Prop :=
  StronglySorted (fun a b => before (fst a) (fst b)) l /\
  forall n t, In (n, t) l <-> exists pre a post, args = pre ++ a :: post /\ asks U a n t /\ forall a' t', In a' post -> ~ asks U a' n t'.
(* The declarations of a table in the file: a constant, whose literal reads as the table, and a function. *)
Definition const_line (prefix : bytes) (e : bytes * bytes) (l : bytes) : Prop :=
  exists q, l = x09 :: prefix ++ fst e ++ str " = """ ++ q ++ [x22] /\ source_text q /\ go_string q (snd e).
Inductive func_lines (prefix : bytes) : bytes -> list bytes -> Prop :=
| fl_is n : func_lines prefix (str "Is" ++ n) [[]; str "func Is" ++ n ++ str "(c byte) bool {"; x09 :: str "return " ++ prefix ++ str "Is" ++ n ++ str "[c] == 1"; str "}"]
| fl_to n : (forall r, n <> str "Is" ++ r) -> func_lines prefix n [[]; str "func " ++ n ++ str "(c byte) byte {"; x09 :: str "return " ++ prefix ++ n ++ str "[c]"; str "}"].
Definition table_lines (pkg prefix : bytes) (l : list (bytes * bytes)) (ls : list bytes) : Prop :=
  exists cs fs, Forall2 (const_line prefix) l cs /\ Forall2 (fun e => func_lines prefix (fst e)) l fs /\
    ls = [str "// Code generated by bytemaper; DO NOT EDIT."; str "package " ++ pkg; []; str "const ("] ++ cs ++ [str ")"] ++ List.concat fs ++ [[]].
