(* Property C79: where the parser reports an error and what it says it wanted.  Only statements, each closed by
   [exact]. *)
From Verif Require Import Bytes Types JsonSpec Parser Doc DocSpec ErrPosSpec ParsePos.
Local Open Scope nat_scope.

(* The text up to the position can still be completed, by everything the error says was wanted; with what the error
   says it got it cannot, whatever follows.  Type and want go together. *)
Theorem C79_partial : forall W r s W' n tail p ty g w, Document_Parse W r s = Ok (W', (n, tail, Some (ParseError p ty g w))) ->
  exists before after, s = before ++ tok g ++ after /\ tok g <> [] /\ p = lenN before /\ goes_with ty w /\
    (forall x, Document_Parse W r (before ++ tok g ++ x) = Ok (W', (n, tail, Some (ParseError p ty g w)))) /\
    (exists x, would_do w x) /\ (forall x, would_do w x -> exists t W2 n2, Document_Parse W r (before ++ x ++ t) = Ok (W2, (n2, [], None))).
Proof. exact C79_lem. Qed.
Print Assumptions C79_partial.
Example C79_example : Document_Parse W79 0 (str "{""a"": [1 2]}") = Ok (W79, (mkN 0 0 None, [], Some (ParseError 9 TypeArray (GotByte x32) (WantRunes [x2c; x5d])))) /\
  str "{""a"": [1 2]}" = str "{""a"": [1 " ++ tok (GotByte x32) ++ str "]}" /\ would_do (WantRunes [x2c; x5d]) [x5d] /\
  exists W2 n2, Document_Parse W79 0 (str "{""a"": [1 " ++ [x5d] ++ str "}") = Ok (W2, (n2, [], None)).
Proof. exact ex79_lem. Qed.
(* When the text ends too early, the type is that of the innermost value that has begun and not ended; the text comes
   back whole and nothing changes.  Every text that ends so gives this error. *)
Theorem C79_eof : forall W r s ty, r < length W ->
  unfinished ty s <-> Document_Parse W r s = Ok (W, (mkN 0 0 None, s, Some (UnexpectedEOF ty))).
Proof. exact C79_eof_iff_lem. Qed.
Print Assumptions C79_eof.
Example C79_eof_example : Document_Parse W79 0 (str "{""a"": [1, ""x") = Ok (W79, (mkN 0 0 None, str "{""a"": [1, ""x", Some (UnexpectedEOF TypeString))) /\
  Document_Parse W79 0 (str "{""a"": [1 ") = Ok (W79, (mkN 0 0 None, str "{""a"": [1 ", Some (UnexpectedEOF TypeArray))) /\
  Document_Parse W79 0 (str "[{""a"": [1] ") = Ok (W79, (mkN 0 0 None, str "[{""a"": [1] ", Some (UnexpectedEOF TypeObject))).
Proof. exact ex79_eof_lem. Qed.
(* In full, that the byte at the position is the first that cannot stand there, it is false: for a misspelt literal the
   position is that of its first byte ([1, nulx] is reported at the n). *)
Theorem C79_refuted : exists s p ty g w before after t v, (forall W r, r < length W ->
    (exists tail, Document_Parse W r s = Ok (W, (mkN 0 0 None, tail, Some (ParseError p ty g w)))) /\
    (exists W2 n2, Document_Parse W r (before ++ t) = Ok (W2, (n2, [], None)) /\ tree_of W2 n2 v)) /\
  s = before ++ after /\ (p + 1 < lenN before)%N.
Proof. exact C79_refuted_lem. Qed.
Print Assumptions C79_refuted.
(* What was wanted is not all that would do: at the start of an array the closing bracket is left out. *)
Theorem C79_want_refuted : exists s p ty g w before after c t, (forall W r, r < length W ->
    (exists tail, Document_Parse W r s = Ok (W, (mkN 0 0 None, tail, Some (ParseError p ty g w)))) /\
    (exists W2 n2, Document_Parse W r (before ++ c :: t) = Ok (W2, (n2, [], None)) /\ tree_of W2 n2 (JArr []))) /\
  s = before ++ tok g ++ after /\ p = lenN before /\ (forall y, ~ would_do w (c :: y)) /\ ~ ws_byte c.
Proof. exact C79_want_refuted_lem. Qed.
Print Assumptions C79_want_refuted.
