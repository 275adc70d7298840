(* C74: the generated UnmarshalNodeJSON against Unmarshal.  Each theorem is closed by a lemma proved elsewhere. *)
From Verif Require Import Bytes Types JsonSpec Parser Doc DocSpec Strjson Float Num Iface IfaceSpec Options Codec CodecSpec CodecExamples DecodeSpec DecodeExamples Gen GenSpec GenExamples AgreeSpec AgreeUSpec AgreeUThms AgreeUExamples.
Local Open Scope nat_scope.

(* ---- C74: the generated UnmarshalNodeJSON stores the value that Unmarshal stores ---- *)

(* Partial: for types read by their kinds, without maps; the target is a zero value, no key is there twice and no array is
   empty, and the text has the JSON types that Unmarshal takes. *)
Theorem C74_partial : forall E G M w n t pt c v v' j, wf_types E -> embeds_structs E -> paths_ok E M -> no_point_loop E -> unmarshalers_return E M -> target E pt t -> ~ hazard E decodeOptions t -> same_reads E G M t ->
  tree_of w n j -> blank E t v -> orderly j -> ~ mismatch E decodeOptions t j -> Unmarshaler E G M t = Ok (Some c) -> compilesUnmarshaler M t c = true ->
  runUnmarshaler E M w c v n = Ok (v', None) -> UnmarshalFromNode E w n pt (VPtr (Some v)) = Ok (VPtr (Some v'), None).
Proof. exact C74_lem. Qed.
Print Assumptions C74_partial.
(* If the text has no null and numjson reads its numbers, neither returns an error. *)
Theorem C74_both_partial : forall E G M w n t pt c v j, wf_types E -> embeds_structs E -> paths_ok E M -> no_point_loop E -> unmarshalers_return E M -> target E pt t -> ~ hazard E decodeOptions t -> same_reads E G M t ->
  tree_of w n j -> blank E t v -> orderly j -> definite E j -> ~ mismatch E decodeOptions t j -> Unmarshaler E G M t = Ok (Some c) -> compilesUnmarshaler M t c = true ->
  exists v', runUnmarshaler E M w c v n = Ok (v', None) /\ UnmarshalFromNode E w n pt (VPtr (Some v)) = Ok (VPtr (Some v'), None).
Proof. exact C74_both_lem. Qed.
Print Assumptions C74_both_partial.
Example C74_example : (wf_types auE /\ embeds_structs auE /\ paths_ok auE auM /\ no_point_loop auE /\ unmarshalers_return auE auM) /\ target auE 11 10 /\ ~ hazard auE decodeOptions 10 /\ same_reads auE genG auM 10 /\
  tree_of (worldOf doc74) (nodeOf doc74) tree74 /\ blank auE 10 z74 /\ orderly tree74 /\ definite auE tree74 /\ ~ mismatch auE decodeOptions 10 tree74 /\
  exists c, Unmarshaler auE genG auM 10 = Ok (Some c) /\ compilesUnmarshaler auM 10 c = true /\ runUnmarshaler auE auM (worldOf doc74) c z74 (nodeOf doc74) = Ok (w74, None) /\
    UnmarshalFromNode auE (worldOf doc74) (nodeOf doc74) 11 (VPtr (Some z74)) = Ok (VPtr (Some w74), None).
Proof. exact ex74_lem. Qed.
(* Structs without embedded fields: both find the same fields. *)
Theorem C74_fields_partial : forall E G M u fs cs, kindOf E u = Some (KStruct fs) -> lists 0 fs (fieldsOf M u) -> Forall (tidy E) fs -> usual G fs -> distinct G (fieldsOf M u) -> handled E G (fieldsOf M u) ->
  structFields E decodeOptions u = Ok cs ->
  (forall name params f, heads E G (fieldsOf M u) name params f -> ~ raw_string E params (mtype f) /\ exists c, field_for cs name c /\ cindex c = mpath f /\ ctype c = mtype f) /\
  (forall c, In c cs -> exists params f, heads E G (fieldsOf M u) (ckey c) params f).
Proof. exact C74_fields_lem. Qed.
Print Assumptions C74_fields_partial.
Example C74_fields_example : exists fs cs, kindOf auE 10 = Some (KStruct fs) /\ lists 0 fs (fieldsOf auM 10) /\ Forall (tidy auE) fs /\ usual genG fs /\ distinct genG (fieldsOf auM 10) /\ handled auE genG (fieldsOf auM 10) /\
  structFields auE decodeOptions 10 = Ok cs /\ length cs = 4.
Proof. exact ex74_fields. Qed.
(* An empty array: nil or an empty slice. *)
Theorem C74_empty_refuted : exists E G M w n t pt c v j, (wf_types E /\ embeds_structs E /\ paths_ok E M /\ no_point_loop E /\ unmarshalers_return E M) /\ target E pt t /\ ~ hazard E decodeOptions t /\ same_reads E G M t /\
  tree_of w n j /\ blank E t v /\ ~ mismatch E decodeOptions t j /\ Unmarshaler E G M t = Ok (Some c) /\ compilesUnmarshaler M t c = true /\
  runUnmarshaler E M w c v n = Ok (VSlice None, None) /\ UnmarshalFromNode E w n pt (VPtr (Some v)) = Ok (VPtr (Some (VSlice (Some ([], [])))), None).
Proof. exact C74_empty_lem. Qed.
Print Assumptions C74_empty_refuted.
(* A key that is there twice: the slice of the generated code has one element too many. *)
Theorem C74_again_refuted : exists E G M w n t pt c v j l l', (wf_types E /\ embeds_structs E /\ paths_ok E M /\ no_point_loop E /\ unmarshalers_return E M) /\ target E pt t /\ ~ hazard E decodeOptions t /\ same_reads E G M t /\
  tree_of w n j /\ blank E t v /\ ~ mismatch E decodeOptions t j /\ Unmarshaler E G M t = Ok (Some c) /\ compilesUnmarshaler M t c = true /\
  runUnmarshaler E M w c v n = Ok (VStruct l, None) /\ UnmarshalFromNode E w n pt (VPtr (Some v)) = Ok (VPtr (Some (VStruct l')), None) /\
  nth_error l 2 = Some (VSlice (Some ([VString (str "b"); VString (str "c"); VString []], []))) /\ nth_error l' 2 = Some (VSlice (Some ([VString (str "b"); VString (str "c")], []))).
Proof. exact C74_again_lem. Qed.
Print Assumptions C74_again_refuted.
(* null for a number: the generated code returns an error, Unmarshal does not. *)
Theorem C74_null_refuted : exists E G M w n t pt c v j e, (wf_types E /\ embeds_structs E /\ paths_ok E M /\ no_point_loop E /\ unmarshalers_return E M) /\ target E pt t /\ ~ hazard E decodeOptions t /\ same_reads E G M t /\
  tree_of w n j /\ blank E t v /\ orderly j /\ ~ mismatch E decodeOptions t j /\ Unmarshaler E G M t = Ok (Some c) /\ compilesUnmarshaler M t c = true /\
  runUnmarshaler E M w c v n = Ok (v, Some e) /\ UnmarshalFromNode E w n pt (VPtr (Some v)) = Ok (VPtr (Some v), None).
Proof. exact C74_null_lem. Qed.
Print Assumptions C74_null_refuted.
(* A number for a string: Unmarshal returns an error, the generated code does not. *)
Theorem C74_string_refuted : exists E G M w n t pt c v j e, (wf_types E /\ embeds_structs E /\ paths_ok E M /\ no_point_loop E /\ unmarshalers_return E M) /\ target E pt t /\ ~ hazard E decodeOptions t /\ same_reads E G M t /\
  tree_of w n j /\ blank E t v /\ orderly j /\ definite E j /\ Unmarshaler E G M t = Ok (Some c) /\ compilesUnmarshaler M t c = true /\
  runUnmarshaler E M w c v n = Ok (VString [], None) /\ UnmarshalFromNode E w n pt (VPtr (Some v)) = Ok (VPtr (Some (VString [])), Some e).
Proof. exact C74_string_lem. Qed.
Print Assumptions C74_string_refuted.
