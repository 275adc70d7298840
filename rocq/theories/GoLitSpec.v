(* Specification vocabulary: string literals of Go (language specification, "String literals"). *)
From Verif Require Import Bytes JsonSpec StrSpec.
Local Open Scope N_scope.

(* Source text: UTF-8 without NUL and without a byte order mark. *)
Definition source_text (s : bytes) : Prop := exists rs, Forall (fun r => scalar r /\ r <> 0 /\ r <> 65279) rs /\ s = utf8s rs.
(* A backslash and one character. *)
Inductive go_escape : byte -> byte -> Prop :=
| ge_a : go_escape x61 x07 | ge_b : go_escape x62 x08 | ge_f : go_escape x66 x0c | ge_n : go_escape x6e x0a | ge_r : go_escape x72 x0d
| ge_t : go_escape x74 x09 | ge_v : go_escape x76 x0b | ge_backslash : go_escape x5c x5c | ge_quote : go_escape x22 x22.
Definition octdigit (c : byte) : Prop := 48 <= bN c <= 55.
(* [go_string s v]: v is the value of the interpreted string with s between its quotes. *)
Inductive go_string : bytes -> bytes -> Prop :=
| gs_end : go_string [] []
| gs_char c s v : c <> x22 -> c <> x0a -> c <> x5c -> go_string s v -> go_string (c :: s) (c :: v)
| gs_escape e b s v : go_escape e b -> go_string s v -> go_string (x5c :: e :: s) (b :: v)
| gs_byte a b s v : hexdigit a -> hexdigit b -> go_string s v -> go_string (x5c :: x78 :: a :: b :: s) (Nb (16 * hexval a + hexval b) :: v)
| gs_octal a b c s v : octdigit a -> octdigit b -> octdigit c -> 64 * hexval a + 8 * hexval b + hexval c < 256 -> go_string s v ->
    go_string (x5c :: a :: b :: c :: s) (Nb (64 * hexval a + 8 * hexval b + hexval c) :: v)
| gs_u a b c d s v : hexdigit a -> hexdigit b -> hexdigit c -> hexdigit d -> scalar (hex4 a b c d) -> go_string s v ->
    go_string (x5c :: x75 :: a :: b :: c :: d :: s) (utf8 (hex4 a b c d) ++ v)
| gs_U a b c d a' b' c' d' s v : Forall hexdigit [a; b; c; d; a'; b'; c'; d'] -> scalar (65536 * hex4 a b c d + hex4 a' b' c' d') -> go_string s v ->
    go_string (x5c :: x55 :: a :: b :: c :: d :: a' :: b' :: c' :: d' :: s) (utf8 (65536 * hex4 a b c d + hex4 a' b' c' d') ++ v).
(* A name between quotes, and between backquotes (where a carriage return would be dropped). *)
Definition name_quoted (s : bytes) : Prop := source_text s /\ exists v, go_string s v.
Definition name_raw (s : bytes) : Prop := source_text s /\ ~ In x60 s /\ ~ In x0d s.
