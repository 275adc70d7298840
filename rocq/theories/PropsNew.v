(* Property theorems: the methods of a document that make nodes, its root, AppendJSON of a document (C70).  Only
   statements and examples; proofs are in NewThms.v. *)
From Verif Require Import Bytes Types JsonSpec Parser Doc DocSpec Strjson StrSpec DocStr Float FloatSpec Num NumSpec FmtSpec FmtThms NewSpec NewThms.

(* ---- C70 ---- *)

(* Null, False, True, Object, Array, TextRaw; a number by its text. *)
Theorem C70_new : forall w r d, nth_error w r = Some d ->
  (exists w' n, Document_Null w r = Ok (w', n) /\ made w r w' n JNull) /\ (exists w' n, Document_False w r = Ok (w', n) /\ made w r w' n JFalse) /\
  (exists w' n, Document_True w r = Ok (w', n) /\ made w r w' n JTrue) /\ (exists w' n, Document_Object w r = Ok (w', n) /\ made w r w' n (JObj [])) /\
  (exists w' n, Document_Array w r = Ok (w', n) /\ made w r w' n (JArr [])) /\ (forall s, exists w' n, Document_TextRaw w r s = Ok (w', n) /\ made w r w' n (JStr s)) /\
  (forall s, exists w' n, Document_NumberRaw w r s = Ok (w', n) /\ made w r w' n (JNum s)).
Proof. exact C70_new_lem. Qed.
Print Assumptions C70_new.
(* Text and TextHTML: each character is escaped as C27_exact says, and the text reads back. *)
Theorem C70_text : forall w r d s rs, nth_error w r = Some d -> runes s rs ->
  (exists w' n, Document_Text w r s = Ok (w', n) /\ made w r w' n (JStr (concat (map (escape_of false) rs))) /\ Node_Unescaped w' n = Ok (utf8s rs)) /\
  (exists w' n, Document_TextHTML w r s = Ok (w', n) /\ made w r w' n (JStr (concat (map (escape_of true) rs))) /\ Node_Unescaped w' n = Ok (utf8s rs)).
Proof. exact C70_text_lem. Qed.
Print Assumptions C70_text.
(* Number: a JSON number that rounds to the float. *)
Theorem C70_number : forall ftoa w r d f, ftoa_spec ftoa -> nth_error w r = Some d -> canonical b64 f -> finite f ->
  exists p w' n, Document_Number ftoa w r f = Ok (w', n) /\ made w r w' n (JNum (text p)) /\ rfc_number (text p) /\ rounded b64 (pneg p) (numval p) f.
Proof. exact C70_number_lem. Qed.
Print Assumptions C70_number.
(* For NaN and the infinities the node is none of JSON. *)
Theorem C70_number_refuted : forall ftoa w r d f, ftoa_special ftoa -> nth_error w r = Some d -> canonical b64 f -> ~ finite f ->
  exists s w' n, Document_Number ftoa w r f = Ok (w', n) /\ made w r w' n (JNum s) /\ ~ rfc_number s.
Proof. exact C70_number_other_lem. Qed.
Print Assumptions C70_number_refuted.
(* AppendJSON of a document is that of its root; an empty document is an error. *)
Theorem C70_root : forall w r d dst, nth_error w r = Some d ->
  (dnodes d = [] -> Document_AppendJSON w r dst = Ok (dst, Some (TypeErr TypeInvalid TypeAnyValue))) /\
  (forall n, dnodes d <> [] -> Document_Root w r = Ok n -> Document_AppendJSON w r dst = Node_AppendJSON w n dst) /\
  (forall n t, Document_Root w r = Ok n -> tree_of w n t -> Document_AppendJSON w r dst = Ok (dst ++ print t, None)).
Proof. exact C70_root_lem. Qed.
Print Assumptions C70_root.
Example C70_example :
  run70 = Ok ([mkN 0 0 (Some O); mkN 1 0 (Some O); mkN 1 3 (Some 1%nat); mkN 2 0 (Some O)], x5c :: str "u003c", str "<", str "<", str "4." ++ repeat x30 50, (str "x[]", None)) /\
  Document_AppendJSON w70 0%nat (str "x") = Ok (str "x", Some (TypeErr TypeInvalid TypeAnyValue)) /\
  runes (str "<") [60]%N /\ canonical b64 (FFin false (2 ^ 52) (-50)) /\ ftoa_spec exact_ftoa /\ ftoa_special exact_ftoa.
Proof. exact ex70_lem. Qed.
