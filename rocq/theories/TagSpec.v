(* Specification vocabulary: struct tags by the convention of package reflect. *)
From Verif Require Import Bytes JsonSpec StrSpec GoLitSpec OptSpec.

(* Keys: not empty, without control characters, spaces, quotes and colons. *)
Definition tag_key (k : bytes) : Prop := k <> [] /\ Forall (fun c => (32 < bN c)%N /\ c <> x7f /\ c <> x3a /\ c <> x22) k.
(* What can stand between the quotes of a value. *)
Inductive tag_text : bytes -> Prop :=
| tt_end : tag_text []
| tt_char c s : c <> x22 -> c <> x5c -> tag_text s -> tag_text (c :: s)
| tt_escape c s : tag_text s -> tag_text (x5c :: c :: s).
(* A pair, with spaces before it; a list of pairs. *)
Definition tag_pair (n : nat) (k b : bytes) : bytes := repeat x20 n ++ k ++ x3a :: x22 :: b ++ [x22].
Inductive tag_pairs : list (bytes * bytes) -> bytes -> Prop :=
| tp_nil : tag_pairs [] []
| tp_cons n k b ps s : tag_key k -> tag_text b -> tag_pairs ps s -> tag_pairs ((k, b) :: ps) (tag_pair n k b ++ s).
(* What a text between quotes stands for: a Go string, bytes that are not UTF-8 counting as U+FFFD. *)
Definition tag_value (b v : bytes) : Prop := exists rs, runes b rs /\ go_string (utf8s rs) v.
(* [tag_finds tag k v]: the first pair with this key has the value v. *)
Definition tag_finds (tag k v : bytes) : Prop :=
  exists ps pre n b rest, tag = pre ++ tag_pair n k b ++ rest /\ tag_pairs ps pre /\ (forall b', ~ In (k, b') ps) /\ tag_key k /\ tag_text b /\ tag_value b v.
(* s occurs in t *)
Definition occurs_in (s t : bytes) : Prop := exists a b, t = a ++ s ++ b.
