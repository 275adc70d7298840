(* Specification: JSON trees and grammars.  Nothing in this file refers to the model. *)
From Verif Require Import Bytes.

(* A JSON value.  Strings, keys and numbers carry their source text (a string without its quotes),
   because njson keeps them unconverted until asked. *)
Inductive jval : Type :=
| JStr (raw : bytes)
| JNum (raw : bytes)
| JTrue
| JFalse
| JNull
| JArr (vs : list jval)
| JObj (ms : list (bytes * jval)).

Definition is_num (v : jval) : bool := match v with JNum _ => true | _ => false end.

(* Insignificant whitespace of RFC 8259, section 2. *)
Definition ws_byte (c : byte) : Prop := c = x20 \/ c = x09 \/ c = x0a \/ c = x0d.
Definition ws (s : bytes) : Prop := Forall ws_byte s.

(* The grammar of JSON values (RFC 8259, sections 2-5), parametric in what counts as string
   content, key content, number token and whitespace. *)
Section Grammar.
  Variables (wsOK strOK keyOK numOK : bytes -> Prop).

  Inductive value : jval -> bytes -> Prop :=
  | v_str w : strOK w -> value (JStr w) (x22 :: w ++ [x22])
  | v_num w : numOK w -> value (JNum w) w
  | v_true : value JTrue (str "true")
  | v_false : value JFalse (str "false")
  | v_null : value JNull (str "null")
  | v_arr0 s : wsOK s -> value (JArr []) (x5b :: s ++ [x5d])
  | v_arr vs w : elements vs w -> value (JArr vs) (x5b :: w ++ [x5d])
  | v_obj0 s : wsOK s -> value (JObj []) (x7b :: s ++ [x7d])
  | v_obj ms w : members ms w -> value (JObj ms) (x7b :: w ++ [x7d])
  with elements : list jval -> bytes -> Prop :=     (* non-empty, comma separated *)
  | el_one s1 v w s2 :
      wsOK s1 -> value v w -> wsOK s2 -> elements [v] (s1 ++ w ++ s2)
  | el_cons s1 v w s2 vs w' :
      wsOK s1 -> value v w -> wsOK s2 -> elements vs w' ->
      elements (v :: vs) (s1 ++ w ++ s2 ++ x2c :: w')
  with members : list (bytes * jval) -> bytes -> Prop :=
  | mem_one s1 k s2 s3 v w s4 :
      wsOK s1 -> keyOK k -> wsOK s2 -> wsOK s3 -> value v w -> wsOK s4 ->
      members [(k, v)] (s1 ++ x22 :: k ++ x22 :: s2 ++ x3a :: s3 ++ w ++ s4)
  | mem_cons s1 k s2 s3 v w s4 ms w' :
      wsOK s1 -> keyOK k -> wsOK s2 -> wsOK s3 -> value v w -> wsOK s4 -> members ms w' ->
      members ((k, v) :: ms) (s1 ++ x22 :: k ++ x22 :: s2 ++ x3a :: s3 ++ w ++ s4 ++ x2c :: w').
End Grammar.

Scheme value_mind := Induction for value Sort Prop
  with elements_mind := Induction for elements Sort Prop
  with members_mind := Induction for members Sort Prop.
Combined Scheme grammar_mind from value_mind, elements_mind, members_mind.

(* ---- RFC 8259 tokens ---- *)

Definition digit (c : byte) : Prop := (48 <= bN c <= 57)%N.
Definition digit19 (c : byte) : Prop := (49 <= bN c <= 57)%N.
Definition hexdigit (c : byte) : Prop :=
  ((48 <= bN c <= 57) \/ (65 <= bN c <= 70) \/ (97 <= bN c <= 102))%N.

(* RFC 8259, section 6: number = [ minus ] int [ frac ] [ exp ] *)
Inductive rfc_int : bytes -> Prop :=
| int_zero : rfc_int [x30]
| int_nz d ds : digit19 d -> Forall digit ds -> rfc_int (d :: ds).
Inductive rfc_frac : bytes -> Prop :=
| frac_none : rfc_frac []
| frac_some d ds : Forall digit (d :: ds) -> rfc_frac (x2e :: d :: ds).
Inductive rfc_exp : bytes -> Prop :=
| exp_none : rfc_exp []
| exp_plain e d ds : e = x65 \/ e = x45 -> Forall digit (d :: ds) -> rfc_exp (e :: d :: ds)
| exp_signed e sg d ds : e = x65 \/ e = x45 -> sg = x2d \/ sg = x2b ->
    Forall digit (d :: ds) -> rfc_exp (e :: sg :: d :: ds).
Inductive rfc_number : bytes -> Prop :=
| rfc_num m i f e : m = [] \/ m = [x2d] -> rfc_int i -> rfc_frac f -> rfc_exp e ->
    rfc_number (m ++ i ++ f ++ e).

(* RFC 8259, section 7: char = unescaped / escape ...  Bytes >= 0x80 (UTF-8) count as unescaped;
   UTF-8 validity is not required here, so the set is a superset of RFC string contents. *)
Inductive rfc_chars : bytes -> Prop :=
| chars_nil : rfc_chars []
| chars_plain c w : (32 <= bN c)%N -> c <> x22 -> c <> x5c -> rfc_chars w -> rfc_chars (c :: w)
| chars_esc c w : In c [x22; x5c; x2f; x62; x66; x6e; x72; x74] ->   (* one of: quote, backslash, slash, b f n r t *)
    rfc_chars w -> rfc_chars (x5c :: c :: w)
| chars_u a b c d w : hexdigit a -> hexdigit b -> hexdigit c -> hexdigit d ->
    rfc_chars w -> rfc_chars (x5c :: x75 :: a :: b :: c :: d :: w).

(* RFC 8259 value texts. *)
Definition rfc_value : jval -> bytes -> Prop := value ws rfc_chars rfc_chars rfc_number.

(* ---- Lenient tokens, as njson delimits them ---- *)

(* Bytes that end a number token: whitespace , ] } *)
Definition num_end (c : byte) : Prop := ws_byte c \/ c = x2c \/ c = x5d \/ c = x7d.

(* A number token: starts with - or a digit and runs up to a terminator. *)
Definition lenient_number (w : bytes) : Prop :=
  exists c w', w = c :: w' /\ (c = x2d \/ digit c) /\ Forall (fun b => ~ num_end b) w'.

(* Content in which every backslash takes the next byte with it and no bare quote occurs. *)
Inductive esc_content : bytes -> Prop :=
| esc_nil : esc_content []
| esc_plain c w : c <> x22 -> c <> x5c -> esc_content w -> esc_content (c :: w)
| esc_pair c w : esc_content w -> esc_content (x5c :: c :: w).

(* Content of a string value as njson delimits it: either no quote inside and the last byte is not
   a backslash, or the first quote inside directly follows a backslash and the rest is
   [esc_content]. *)
Inductive lenient_string : bytes -> Prop :=
| ls_plain w : ~ In x22 w -> (forall u, w <> u ++ [x5c]) -> lenient_string w
| ls_esc a b : ~ In x22 a -> esc_content b -> lenient_string (a ++ x5c :: x22 :: b).

Definition lenient_value : jval -> bytes -> Prop :=
  value ws lenient_string esc_content lenient_number.

(* String contents njson finds the end of: they contain a quote, or do not end in a backslash. *)
Definition plain_end (w : bytes) : Prop := In x22 w \/ forall u, w <> u ++ [x5c].

(* RFC values whose string values all satisfy plain_end (keys are unrestricted). *)
Definition rfc_value_plain : jval -> bytes -> Prop :=
  value ws (fun w => rfc_chars w /\ plain_end w) rfc_chars rfc_number.

(* The input ends in a word that starts like a literal, is shorter and is not a prefix of it. *)
Definition broken_literal (s : bytes) : Prop :=
  exists u w lit, In lit [str "true"; str "false"; str "null"] /\ s = u ++ w /\
    length w < length lit /\ hd_error w = hd_error lit /\ forall x, lit <> w ++ x.

(* What may follow a number token that was read completely. *)
Definition num_stop (tail : bytes) : Prop :=
  match tail with [] => True | c :: _ => num_end c end.

(* ---- Minified text ---- *)

Fixpoint join (sep : byte) (l : list bytes) : bytes :=
  match l with
  | [] => []
  | [x] => x
  | x :: l' => x ++ sep :: join sep l'
  end.

(* The text of a tree without whitespace. *)
Fixpoint print (v : jval) : bytes :=
  match v with
  | JStr w => x22 :: w ++ [x22]
  | JNum w => w
  | JTrue => str "true"
  | JFalse => str "false"
  | JNull => str "null"
  | JArr vs => x5b :: join x2c (map print vs) ++ [x5d]
  | JObj ms => x7b :: join x2c (map (fun m => x22 :: fst m ++ x22 :: x3a :: print (snd m)) ms) ++ [x7d]
  end.

(* [drop_ws w w']: w' is w with some whitespace bytes deleted. *)
Inductive drop_ws : bytes -> bytes -> Prop :=
| dw_nil : drop_ws [] []
| dw_keep c w w' : drop_ws w w' -> drop_ws (c :: w) (c :: w')
| dw_drop c w w' : ws_byte c -> drop_ws w w' -> drop_ws (c :: w) w'.

(* ---- Induction over trees ---- *)
Section JvalInd.
  Variable P : jval -> Prop.
  Hypothesis Hstr : forall w, P (JStr w).
  Hypothesis Hnum : forall w, P (JNum w).
  Hypothesis Htrue : P JTrue.
  Hypothesis Hfalse : P JFalse.
  Hypothesis Hnull : P JNull.
  Hypothesis Harr : forall vs, Forall P vs -> P (JArr vs).
  Hypothesis Hobj : forall ms, Forall (fun m => P (snd m)) ms -> P (JObj ms).
  Fixpoint jval_ind' (v : jval) : P v :=
    match v with
    | JStr w => Hstr w
    | JNum w => Hnum w
    | JTrue => Htrue
    | JFalse => Hfalse
    | JNull => Hnull
    | JArr vs => Harr vs (list_ind (Forall P) (Forall_nil P)
                                (fun x l IH => Forall_cons x (jval_ind' x) IH) vs)
    | JObj ms => Hobj ms (list_ind (Forall (fun m => P (snd m))) (Forall_nil _)
                                (fun x l IH => Forall_cons x (jval_ind' (snd x)) IH) ms)
    end.
End JvalInd.
