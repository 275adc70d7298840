(* Property theorems: the texts of errors (C64).  Only statements and examples; proofs are in ErrThms. *)
From Verif Require Import Bytes Types StrSpec Parser Doc Num ErrText ErrSpec ErrThms.
Local Open Scope N_scope.

(* C64: whatever bytes were given, the text of an error is one line of UTF-8 without control characters. *)
Theorem C64_line : forall isPrint, prints isPrint ->
  (forall e, one_line (perror_Error isPrint e)) /\ (forall e, one_line (terr_Error e)).
Proof. exact C64_line_lem. Qed.
Print Assumptions C64_line.

(* C64: the text of an error of Document.Parse says which error it is: the place, what was there, what was wanted and
   the type that was being read. *)
Theorem C64_parse : forall isPrint w r s w1 n t e w' r' s' w1' n' t' e',
  Document_Parse w r s = Ok (w1, (n, t, Some e)) -> Document_Parse w' r' s' = Ok (w1', (n', t', Some e')) ->
  perror_Error isPrint e = perror_Error isPrint e' -> e = e'.
Proof. exact C64_parse_lem. Qed.
Print Assumptions C64_parse.

(* C64: the text of a type error says the type that was there, and the types that were wanted unless that type is one of them. *)
Theorem C64_type : forall t want t' want', type_mask t -> type_mask want -> type_mask t' -> type_mask want' ->
  terr_Error (TypeErr t want) = terr_Error (TypeErr t' want') ->
  t = t' /\ ((N.land want t <> 0 /\ N.land want' t <> 0) \/ want = want').
Proof. exact C64_type_lem. Qed.
Print Assumptions C64_type.

(* C64: the name of a Type is its own, except that 0 and the two bits that are no types share one. *)
Theorem C64_names : forall t u, t < 256 -> u < 256 -> Type_String t = Type_String u -> t = u \/ (In t [0; 1; 128] /\ In u [0; 1; 128]).
Proof. exact C64_names_lem. Qed.
Print Assumptions C64_names.

(* C64 in full, that different type errors have different texts, is false: the types wanted are left out when the type is one of them. *)
Theorem C64_type_refuted : exists t want want', type_mask t /\ type_mask want /\ type_mask want' /\ want <> want' /\
  terr_Error (TypeErr t want) = terr_Error (TypeErr t want').
Proof. exists TypeNumber, TypeNumber, TypeAnyValue. repeat split. discriminate. Qed.
Print Assumptions C64_type_refuted.

(* error_test.go:7-25, a literal with bytes that are not UTF-8, a line end and a quote *)
Definition ascii_print (r : N) : bool := (32 <=? r) && (r <? 127).
Example C64_example :
  prints ascii_print /\
  terr_Error (TypeErr TypeInvalid TypeAnyValue) = str "Invalid type InvalidToken not in [String Object Array Number Boolean Null]" /\
  perror_Error ascii_print (UnexpectedEOF TypeString) = str "Unexpected end of input while scanning String" /\
  perror_Error ascii_print (ParseError 2 TypeString (GotByte x3f) (WantRunes [x22; x7d])) = str "Invalid token '?' != ['""' '}'] at position 2 while scanning String" /\
  perror_Error ascii_print (ParseError 7 TypeNull (GotStr [x6e; xff; x0a; x22; xc3; xa9]) (WantStr (str "null"))) = str "Invalid token ""n\xff\n\""\u00e9"" != ""null"" at position 7 while scanning Null" /\
  type_mask TypeInvalid /\ type_mask TypeAnyValue.
Proof. split; [|repeat split; reflexivity]. intros r H. unfold ascii_print in H. apply Bool.andb_true_iff in H as [A B]. apply N.leb_le in A. apply N.ltb_lt in B. unfold control. lia. Qed.
Example C64_parse_example : exists w r s w1 n t e, Document_Parse w r s = Ok (w1, (n, t, Some e)) /\
  perror_Error ascii_print e = str "Invalid token ""n\xff\nx"" != ""null"" at position 1 while scanning Null".
Proof. exists [mkDoc [] 0], O, [x5b; x6e; xff; x0a; x78]. repeat eexists. Qed.
