(* Specification: UTF-8 (RFC 3629) and the meaning of JSON strings (RFC 8259, section 7).  Nothing in
   this file refers to the model. *)
From Verif Require Import Bytes JsonSpec.

(* Unicode scalar values. *)
Definition scalar (r : N) : Prop := (r < 55296 \/ 57344 <= r < 1114112)%N.

(* RFC 3629, section 3. *)
Definition utf8 (r : N) : bytes :=
  if (r <? 128)%N then [Nb r]
  else if (r <? 2048)%N then [Nb (192 + r / 64); Nb (128 + r mod 64)]
  else if (r <? 65536)%N then [Nb (224 + r / 4096); Nb (128 + (r / 64) mod 64); Nb (128 + r mod 64)]
  else [Nb (240 + r / 262144); Nb (128 + (r / 4096) mod 64); Nb (128 + (r / 64) mod 64); Nb (128 + r mod 64)].

Definition utf8s (rs : list N) : bytes := concat (map utf8 rs).
Definition valid_utf8 (s : bytes) : Prop := exists rs, Forall scalar rs /\ s = utf8s rs.

(* The characters of a byte string, a byte that starts no valid sequence counting as U+FFFD. *)
Definition replacement : N := 65533.
Inductive runes : bytes -> list N -> Prop :=
| ru_nil : runes [] []
| ru_char r s rs : scalar r -> runes s rs -> runes (utf8 r ++ s) (r :: rs)
| ru_bad c s rs : (forall r t, scalar r -> c :: s <> utf8 r ++ t) -> runes s rs -> runes (c :: s) (replacement :: rs).

(* Value of a hexadecimal digit and of four of them. *)
Definition hexval (c : byte) : N :=
  let n := bN c in
  if (n <? 58)%N then (n - 48)%N else if (n <? 71)%N then (n - 55)%N else (n - 87)%N.
Definition hex4 (a b c d : byte) : N := (4096 * hexval a + 256 * hexval b + 16 * hexval c + hexval d)%N.

Definition high (r : N) : Prop := (55296 <= r < 56320)%N.
Definition low (r : N) : Prop := (56320 <= r < 57344)%N.

(* Two-character escapes. *)
Inductive escape_char : byte -> byte -> Prop :=
| ec_quote : escape_char x22 x22
| ec_backslash : escape_char x5c x5c
| ec_slash : escape_char x2f x2f
| ec_b : escape_char x62 x08
| ec_f : escape_char x66 x0c
| ec_n : escape_char x6e x0a
| ec_r : escape_char x72 x0d
| ec_t : escape_char x74 x09.

(* Four hexadecimal digits follow. *)
Definition four_hex (w : bytes) : Prop :=
  exists a b c d w', w = a :: b :: c :: d :: w' /\ hexdigit a /\ hexdigit b /\ hexdigit c /\ hexdigit d.
(* The text starts with an escaped low surrogate. *)
Definition starts_low (w : bytes) : Prop :=
  exists a b c d w', w = x5c :: x75 :: a :: b :: c :: d :: w' /\
    hexdigit a /\ hexdigit b /\ hexdigit c /\ hexdigit d /\ low (hex4 a b c d).

(* [meaning w out]: out is w with its escapes replaced by what they stand for.  Unpaired surrogates
   stand for U+FFFD; anything that is not a JSON escape is kept as it is. *)
Inductive meaning : bytes -> bytes -> Prop :=
| m_nil : meaning [] []
| m_plain c w o : c <> x5c -> meaning w o -> meaning (c :: w) (c :: o)
| m_escape e c w o : escape_char e c -> meaning w o -> meaning (x5c :: e :: w) (c :: o)
| m_u a b c d w o : hexdigit a -> hexdigit b -> hexdigit c -> hexdigit d ->
    scalar (hex4 a b c d) -> meaning w o ->
    meaning (x5c :: x75 :: a :: b :: c :: d :: w) (utf8 (hex4 a b c d) ++ o)
| m_pair a b c d a' b' c' d' w o : hexdigit a -> hexdigit b -> hexdigit c -> hexdigit d ->
    hexdigit a' -> hexdigit b' -> hexdigit c' -> hexdigit d' ->
    high (hex4 a b c d) -> low (hex4 a' b' c' d') -> meaning w o ->
    meaning (x5c :: x75 :: a :: b :: c :: d :: x5c :: x75 :: a' :: b' :: c' :: d' :: w)
            (utf8 (65536 + 1024 * (hex4 a b c d - 55296) + (hex4 a' b' c' d' - 56320)) ++ o)
| m_unpaired a b c d w o : hexdigit a -> hexdigit b -> hexdigit c -> hexdigit d ->
    low (hex4 a b c d) \/ high (hex4 a b c d) /\ ~ starts_low w -> meaning w o ->
    meaning (x5c :: x75 :: a :: b :: c :: d :: w) (utf8 replacement ++ o)
| m_last : meaning [x5c] [x5c]
| m_bad e w o : (forall c, ~ escape_char e c) -> e <> x75 -> meaning w o -> meaning (x5c :: e :: w) (x5c :: e :: o)
| m_bad_u w o : ~ four_hex w -> meaning w o -> meaning (x5c :: x75 :: w) (x5c :: x75 :: o).

(* The strings for which Unescaped is right: every \u followed by four bytes is followed by four
   hexadecimal digits, and an unpaired surrogate is not followed by another \u and four bytes. *)
Definition u_next (w : bytes) : Prop := exists a b c d w', w = x5c :: x75 :: a :: b :: c :: d :: w'.
Inductive tame : bytes -> Prop :=
| t_nil : tame []
| t_plain c w : c <> x5c -> tame w -> tame (c :: w)
| t_last : tame [x5c]
| t_other e w : e <> x75 -> tame w -> tame (x5c :: e :: w)
| t_short w : length w < 4 -> tame w -> tame (x5c :: x75 :: w)
| t_u a b c d w : hexdigit a -> hexdigit b -> hexdigit c -> hexdigit d ->
    scalar (hex4 a b c d) \/ ~ u_next w -> tame w -> tame (x5c :: x75 :: a :: b :: c :: d :: w)
| t_pair a b c d a' b' c' d' w : hexdigit a -> hexdigit b -> hexdigit c -> hexdigit d ->
    hexdigit a' -> hexdigit b' -> hexdigit c' -> hexdigit d' ->
    high (hex4 a b c d) -> low (hex4 a' b' c' d') -> tame w ->
    tame (x5c :: x75 :: a :: b :: c :: d :: x5c :: x75 :: a' :: b' :: c' :: d' :: w).

(* What Escaped writes for one character. *)
Definition hexchar (n : N) : byte := if (n <? 10)%N then Nb (48 + n) else Nb (87 + n).
Definition u_escape (r : N) : bytes :=
  [x5c; x75; hexchar (r / 4096); hexchar ((r / 256) mod 16); hexchar ((r / 16) mod 16); hexchar (r mod 16)].
Definition html_char (r : N) : bool := (r =? 60)%N || (r =? 62)%N || (r =? 38)%N.   (* < > & *)
Definition escape_of (html : bool) (r : N) : bytes :=
  if (r =? 34)%N then [x5c; x22]
  else if (r =? 92)%N then [x5c; x5c]
  else if (r =? 47)%N then [x5c; x2f]
  else if (r =? 8)%N then [x5c; x62]
  else if (r =? 12)%N then [x5c; x66]
  else if (r =? 10)%N then [x5c; x6e]
  else if (r =? 13)%N then [x5c; x72]
  else if (r =? 9)%N then [x5c; x74]
  else if ((r <? 32) || (r =? 127))%N || html && html_char r then u_escape r
  else if (r =? replacement)%N || (r =? 8232)%N || (r =? 8233)%N then u_escape r
  else utf8 r.

(* What toJSON says about a byte. *)
Inductive json_class : byte -> byte -> Prop :=
| jc_self c : In c [x22; x2f; x5c] -> json_class c x5c             (* backslash, then the byte itself *)
| jc_short e c : escape_char e c -> ~ In c [x22; x2f; x5c] -> json_class c e     (* backslash, then e *)
| jc_control c : (bN c < 32 \/ bN c = 127)%N -> (forall e, ~ escape_char e c) -> json_class c x00
| jc_html c : In c [x3c; x3e; x26] -> json_class c x01
| jc_high c : (128 <= bN c)%N -> json_class c xff
| jc_plain c : (32 <= bN c < 127)%N -> ~ In c [x22; x2f; x5c; x3c; x3e; x26] -> json_class c x80.
