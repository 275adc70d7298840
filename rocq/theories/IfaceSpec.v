(* Specification vocabulary for C24. *)
From Verif Require Import Bytes JsonSpec Parser Doc DocSpec Strjson Float Num Iface.

(* The Go value of a tree: strings are unescaped, numbers parsed; a map has each key once, with the value
   of the last member that has it.  Keys are taken as they are written. *)
Inductive go_of : jval -> goval -> Prop :=
| go_null : go_of JNull GNil
| go_true : go_of JTrue (GBool true)
| go_false : go_of JFalse (GBool false)
| go_str s o : Unescaped s = Ok o -> go_of (JStr s) (GString o)
| go_num s : ParseFloat s <> FNaN -> go_of (JNum s) (GFloat (ParseFloat s))
| go_arr ts vs : Forall2 go_of ts vs -> go_of (JArr ts) (GSlice vs)
| go_obj ms vs m : Forall2 (fun x y => fst x = fst y /\ go_of (snd x) (snd y)) ms vs ->
    NoDup (map fst m) -> (forall k, assoc k m = assoc k (rev vs)) -> go_of (JObj ms) (GMap m).

(* Every number in the tree is parsed. *)
Inductive numbers_parse : jval -> Prop :=
| np_null : numbers_parse JNull | np_true : numbers_parse JTrue | np_false : numbers_parse JFalse
| np_str s : numbers_parse (JStr s)
| np_num s : ParseFloat s <> FNaN -> numbers_parse (JNum s)
| np_arr ts : Forall numbers_parse ts -> numbers_parse (JArr ts)
| np_obj ms : Forall (fun m => numbers_parse (snd m)) ms -> numbers_parse (JObj ms).
