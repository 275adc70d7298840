(* Property C45: field tags.  Only statements, each closed by [exact]. *)
From Verif Require Import Bytes JsonSpec OptSpec Options OptThms.

(* Every string is a list of parts joined by commas, in one way. *)
Theorem C45_parts : forall v, exists p ps, Forall no_comma (p :: ps) /\ v = join x2c (p :: ps) /\
  forall p' ps', Forall no_comma (p' :: ps') -> v = join x2c (p' :: ps') -> p' :: ps' = p :: ps.
Proof. exact split_exists_unique. Qed.
Print Assumptions C45_parts.
(* Missing: values longer than the whole tag, which Lookup can return only for tags that are not UTF-8. *)
Theorem C45_tag_partial : forall tag p ps, Forall no_comma (p :: ps) -> length (join x2c (p :: ps)) <= length tag ->
  parseTag tag (Some (join x2c (p :: ps))) = Some (p, bits ps, true).
Proof. exact parseTag_lem. Qed.
Print Assumptions C45_tag_partial.
Theorem C45_field_partial : forall o fname tag p ps, Forall no_comma (p :: ps) -> length (join x2c (p :: ps)) <= length tag ->
  parseField o fname tag (Some (join x2c (p :: ps))) = Some (match p with [] => fname | _ => p end, if o then N.lor (bits ps) 4 else bits ps, true).
Proof. exact parseField_lem. Qed.
Print Assumptions C45_field_partial.
Theorem C45_untagged : forall o fname tag, parseField o fname tag None = Some (fname, if o then 4%N else 0%N, false).
Proof. exact parseField_none. Qed.
Print Assumptions C45_untagged.
(* A tag of 20 bytes that are not UTF-8: Lookup turns each into the three bytes of U+FFFD. *)
Theorem C45_long_refuted : exists tag p ps, Forall no_comma (p :: ps) /\ parseTag tag (Some (join x2c (p :: ps))) <> Some (p, bits ps, true).
Proof. exact C45_long_lem. Qed.
Print Assumptions C45_long_refuted.
Example C45_example : let tag := str "json:" ++ [x22] ++ str "id,x,omitempty,html" ++ [x22] in
  parseField false (str "ID") tag (Some (str "id,x,omitempty,html")) = Some (str "id", 6%N, true) /\
  parseField true (str "ID") tag (Some (str ",8bit")) = Some (str "ID", 5%N, true).
Proof. split; vm_compute; reflexivity. Qed.
