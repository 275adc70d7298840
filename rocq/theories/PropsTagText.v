(* Property C68: struct tags from their text.  Only statements, each closed by [exact]. *)
From Verif Require Import Bytes JsonSpec StrSpec GoLitSpec OptSpec Options Tag TagSpec TagThms.

(* for every tag and key, the value found is that of the first pair with the key, all before it being pairs *)
Theorem C68_lookup : forall tag key, exists o, StructTag_Lookup tag key = Some o /\ forall v, o = Some v <-> tag_finds tag key v.
Proof. exact C68_lookup_lem. Qed.
Print Assumptions C68_lookup.
(* the codecs: name and hints, for every tag that is UTF-8 (C45 without its condition on lengths) *)
Theorem C68_field_partial : forall o fname tag key p ps, valid_utf8 tag -> Forall no_comma (p :: ps) -> tag_finds tag key (join x2c (p :: ps)) ->
  parseFieldOf o fname tag key = Some (match p with [] => fname | _ => p end, if o then N.lor (bits ps) 4 else bits ps, true).
Proof. exact C68_field_lem. Qed.
Print Assumptions C68_field_partial.
(* refuted: the same for tags that are not UTF-8 *)
Theorem C68_field_refuted : exists tag p ps, Forall no_comma (p :: ps) /\ tag_finds tag (str "json") (join x2c (p :: ps)) /\
  parseFieldOf false (str "A") tag (str "json") <> Some (p, bits ps, true).
Proof. exact C68_long_lem. Qed.
Print Assumptions C68_field_refuted.
Theorem C68_untagged : forall o fname tag key, (forall v, ~ tag_finds tag key v) -> parseFieldOf o fname tag key = Some (fname, if o then 4%N else 0%N, false).
Proof. exact C68_untagged_lem. Qed.
Print Assumptions C68_untagged.
(* the generator: omitempty is any part that contains it *)
Theorem C68_generator : forall tag key p ps, Forall no_comma (p :: ps) -> tag_finds tag (match key with [] => str "json" | _ => key end) (join x2c (p :: ps)) -> join x2c (p :: ps) <> str "-" ->
  exists om, ParseFieldTag tag key = Some (p, om, true) /\ (om = true <-> exists q, In q ps /\ occurs_in (str "omitempty") q).
Proof. exact C68_generator_lem. Qed.
Print Assumptions C68_generator.
Theorem C68_dash : forall tag key, tag_finds tag (match key with [] => str "json" | _ => key end) (str "-") -> ParseFieldTag tag key = Some (str "-", false, false).
Proof. exact C68_dash_lem. Qed.
Print Assumptions C68_dash.
Theorem C68_none : forall tag key, (forall v, ~ tag_finds tag (match key with [] => str "json" | _ => key end) v) -> ParseFieldTag tag key = Some ([], false, false).
Proof. exact C68_none_lem. Qed.
Print Assumptions C68_none.
(* refuted: omitempty only if it is one of the parts *)
Theorem C68_generator_refuted : exists tag p ps, Forall no_comma (p :: ps) /\ tag_finds tag (str "json") (join x2c (p :: ps)) /\ has (str "omitempty") ps = false /\ ParseFieldTag tag [] = Some (p, true, true).
Proof. exact C68_hint_refuted_lem. Qed.
Print Assumptions C68_generator_refuted.

(* xml:"a" json:"é,omitempty" json:"b" *)
Example C68_example : tag_finds ex_tag (str "json") (join x2c [utf8 233; str "omitempty"]) /\
  parseFieldOf false (str "A") ex_tag (str "json") = Some (utf8 233, 4%N, true) /\ ParseFieldTag ex_tag [] = Some (utf8 233, true, true) /\
  parseFieldOf true (str "A") ex_tag (str "yaml") = Some (str "A", 4%N, false) /\ ParseFieldTag ex_tag (str "xml") = Some (str "a", false, true).
Proof. split; [exact ex_tag_finds|]. repeat split; vm_compute; reflexivity. Qed.
(* a space in a key hides what follows; a value that is not UTF-8; - *)
Example C68_example_bad : StructTag_Lookup (str "a:""1"" b :""2"" json:""c""") (str "json") = Some None /\
  StructTag_Lookup (str "json:""" ++ [xff; x22]) (str "json") = Some (Some (utf8 65533)) /\
  ParseFieldTag (str "json:""-""") [] = Some (str "-", false, false) /\ ParseFieldTag (str "json:""-,""") [] = Some (str "-", false, true).
Proof. repeat split; vm_compute; reflexivity. Qed.
