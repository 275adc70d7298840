(* Specification vocabulary for the positions of errors: C79. *)
From Verif Require Import Bytes Types JsonSpec Parser.

(* The text a ParseError reports. *)
Definition tok (g : token) : bytes := match g with GotByte c => [c] | GotStr s => s end.
(* What a ParseError says it wanted: any value, the rest one byte of some or a literal. *)
Inductive would_do : wanted -> bytes -> Prop :=
| wd_any v x : lenient_value v x -> would_do (WantStr (str "any value")) x
| wd_lit x : x <> str "any value" -> would_do (WantStr x) x
| wd_rune c : would_do (WantRune c) [c]
| wd_runes cs c : In c cs -> would_do (WantRunes cs) [c].
(* The type of the value that was being read, and all that could come next there (but spaces, and digits after a
   number): a value, a comma or the bracket after an element, and so on. *)
Inductive goes_with : N -> wanted -> Prop :=
| gw_any : goes_with TypeAnyValue (WantStr (str "any value"))
| gw_element : goes_with TypeArray (WantRunes [x2c; x5d])
| gw_first : goes_with TypeObject (WantRunes [x7d; x22])
| gw_key : goes_with TypeObject (WantRune x22)
| gw_colon : goes_with TypeObject (WantRune x3a)
| gw_member : goes_with TypeObject (WantRunes [x2c; x7d])
| gw_true : goes_with TypeBoolean (WantStr (str "true"))
| gw_false : goes_with TypeBoolean (WantStr (str "false"))
| gw_null : goes_with TypeNull (WantStr (str "null")).

(* [unfinished ty s]: the text s ends inside a value of type ty: the innermost one that has begun, or any value where
   one has to begin.  A literal has begun with its first byte; what follows is too short for it, and not looked at. *)
Definition no_end (strOK : bytes -> Prop) (s : bytes) : Prop := forall a b, s = a ++ x22 :: b -> ~ strOK a.
Inductive unfinished : N -> bytes -> Prop :=
| uf_none u : ws u -> unfinished TypeAnyValue u
| uf_string u s : ws u -> no_end lenient_string s -> unfinished TypeString (u ++ x22 :: s)
| uf_true u s : ws u -> length s < 3 -> unfinished TypeBoolean (u ++ x74 :: s)
| uf_false u s : ws u -> length s < 4 -> unfinished TypeBoolean (u ++ x66 :: s)
| uf_null u s : ws u -> length s < 3 -> unfinished TypeNull (u ++ x6e :: s)
| uf_bracket u s : ws u -> ws s -> unfinished TypeArray (u ++ x5b :: s)
| uf_array u ty s : ws u -> ~ ws s -> in_elements ty s -> unfinished ty (u ++ x5b :: s)
| uf_brace u s : ws u -> ws s -> unfinished TypeObject (u ++ x7b :: s)
| uf_object u s1 ty s : ws u -> ws s1 -> in_members ty s -> unfinished ty (u ++ x7b :: s1 ++ x22 :: s)
with in_elements : N -> bytes -> Prop :=
| ie_value ty s : unfinished ty s -> in_elements ty s
| ie_after s1 v w s2 : ws s1 -> lenient_value v w -> ws s2 -> in_elements TypeArray (s1 ++ w ++ s2)
| ie_more s1 v w s2 ty s : ws s1 -> lenient_value v w -> ws s2 -> in_elements ty s -> in_elements ty (s1 ++ w ++ s2 ++ x2c :: s)
(* behind the opening quote of a key *)
with in_members : N -> bytes -> Prop :=
| im_key s : no_end esc_content s -> in_members TypeObject s
| im_colon k u : esc_content k -> ws u -> in_members TypeObject (k ++ x22 :: u)
| im_value k u ty s : esc_content k -> ws u -> unfinished ty s -> in_members ty (k ++ x22 :: u ++ x3a :: s)
| im_after k u s1 v w s2 : esc_content k -> ws u -> ws s1 -> lenient_value v w -> ws s2 -> in_members TypeObject (k ++ x22 :: u ++ x3a :: s1 ++ w ++ s2)
| im_comma k u s1 v w s2 s3 : esc_content k -> ws u -> ws s1 -> lenient_value v w -> ws s2 -> ws s3 ->
    in_members TypeObject (k ++ x22 :: u ++ x3a :: s1 ++ w ++ s2 ++ x2c :: s3)
| im_more k u s1 v w s2 s3 ty s : esc_content k -> ws u -> ws s1 -> lenient_value v w -> ws s2 -> ws s3 -> in_members ty s ->
    in_members ty (k ++ x22 :: u ++ x3a :: s1 ++ w ++ s2 ++ x2c :: s3 ++ x22 :: s).
