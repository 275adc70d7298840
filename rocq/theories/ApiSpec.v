(* Specification vocabulary for documents built through the API. *)
From Verif Require Import Bytes JsonSpec Parser Doc Api Strjson.

(* The strings given to Text, TextHTML, SetString and SetStringHTML satisfy P, keys are string contents as
   the parser delimits them, and numbers are number tokens. *)
Definition escaped_from (P : bytes -> Prop) (e : bytes) : Prop := exists s h, Escaped s h false = Ok e /\ P s.
Definition built (c : call) : Prop :=
  match c with
  | CTextRaw _ e | CSetStringRaw _ e => escaped_from plain_end e
  | CNumberRaw _ s | CSetNumberRaw _ s => lenient_number s
  | CSet _ k _ => esc_content k
  | _ => True
  end.

(* Any strings, RFC 8259 keys and numbers, and parsed texts that are RFC 8259 values. *)
Definition built_rfc (c : call) : Prop :=
  match c with
  | CParse _ s => exists s1 v w tail, s = s1 ++ w ++ tail /\ ws s1 /\ rfc_value_plain v w /\ (is_num v = true -> num_stop tail)
  | CTextRaw _ e | CSetStringRaw _ e => escaped_from (fun _ => True) e
  | CNumberRaw _ s | CSetNumberRaw _ s => rfc_number s
  | CSet _ k _ => rfc_chars k
  | _ => True
  end.

(* A type with one bit: 1, 2, 4, ..., 128. *)
Definition single (t : N) : Prop := exists i, (i < 8 /\ t = 2 ^ i)%N.
