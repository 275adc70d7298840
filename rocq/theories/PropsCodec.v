(* Properties C41, C44, C46, C54: Marshal and the codecs of unjson.  Only statements, each closed by [exact]. *)
From Coq Require Import Permutation.
From Verif Require Import FloatSpec FmtSpec Bytes Types JsonSpec Parser Doc DocSpec Strjson Float Num NumSpec FmtThms Options Codec CodecSpec CodecMerge CodecBase CodecBuild CodecOmit CodecEnc CodecJson CodecExamples.
Local Open Scope nat_scope.

(* ---- C41 ---- *)

(* Marshal returns, and what it returns without an error is the RFC 8259 text of one value: for all types whose
   embedding is not cyclic, whose keys are JSON string contents and whose fields are not raw strings, when user
   methods return and write JSON (text methods: JSON string contents), the value given and those in interfaces are
   not nil pointers and have the methods of their type, not of the pointer to it, and finite floats stay finite when
   rounded to 32 bits.  Missing: what is excluded here, for which it is false. *)
Theorem C41_partial : forall E out x, wf_types E -> embeds_structs E -> (forall t, ~ cyclic E defaultOptions t) -> walks_maps E -> ftoa_spec (ftoa E) -> tags_json E defaultOptions ->
  methods_return E -> methods_write_json E ->
  match x with Some (t, v) => typed E t v /\ top_ok E t v /\ tops_ok E v /\ floats_json v | None => True end ->
  exists res err, AppendJSON E out x = Ok (res, err) /\ (err = None -> exists j w, res = out ++ w /\ rfc_value j w).
Proof. exact C41_lem. Qed.
Print Assumptions C41_partial.
(* The float64 2^128 is written as +Inf. *)
Theorem C41_refuted : exists E t v out, wf_types E /\ embeds_structs E /\ (forall t, ~ cyclic E defaultOptions t) /\ methods_return E /\ tags_json E defaultOptions /\ ftoa_spec (ftoa E) /\ ftoa_special (ftoa E) /\
  typed E t v /\ canonical_floats v /\ top_ok E t v /\ Marshal E (Some (t, v)) = Ok (out, None) /\ forall j, ~ rfc_value j out.
Proof. exact C41_refuted_lem. Qed.
Print Assumptions C41_refuted.
(* The result of MarshalText is not escaped. *)
Theorem C41_text_refuted : exists E t v out, wf_types E /\ methods_return E /\ typed E t v /\ top_ok E t v /\ Marshal E (Some (t, v)) = Ok (out, None) /\ forall j, ~ rfc_value j out.
Proof. exact C41_text_refuted_lem. Qed.
Print Assumptions C41_text_refuted.
(* A struct with MarshalJSON on its pointer and a nil pointer to it: Marshal panics. *)
Theorem C41_panic_refuted : exists E t t' v, wf_types E /\ typed E t v /\ typed E t' (VPtr None) /\ (exists r, newCodec E defaultOptions (IEnc t) = Ok (Some r)) /\ (exists r, newCodec E defaultOptions (IEnc t') = Ok (Some r)) /\
  Marshal E (Some (t, v)) = Panic /\ Marshal E (Some (t', VPtr None)) = Panic.
Proof. exact C41_panic_refuted_lem. Qed.
Print Assumptions C41_panic_refuted.
Example C41_example : wf_types exE /\ embeds_structs exE /\ (forall t, ~ cyclic exE defaultOptions t) /\ walks_maps exE /\ ftoa_spec (ftoa exE) /\ tags_json exE defaultOptions /\
  methods_return exE /\ methods_write_json exE /\ typed exE 12 ex41 /\ top_ok exE 12 ex41 /\ tops_ok exE ex41 /\ floats_json ex41 /\
  Marshal exE (Some (12, ex41)) = Ok (str "{""Name"":""a\"""",""Next"":{""Name"":""b"",""Next"":null,""Tags"":[],""M"":null},""Tags"":[""x"",""""],""M"":{""k"":[null,2."
    ++ repeat x30 22 ++ str ",{""B"":true}]}}", None).
Proof. exact ex41_lem. Qed.
(* A key with a quote is written as it is. *)
Example C41_key_example : exists E t v, typed E t v /\ Marshal E (Some (t, v)) = Ok ([x7b; x22; x61; x22; x62; x22; x3a] ++ str "1}", None).
Proof. exact ex41_key. Qed.

(* ---- C44 ---- *)

(* A struct codec writes an object; its members are, in order, the fields of the codec (fields the type offers, in
   declaration order) that can be reached and are not dropped, each with its key and what its encoder writes.
   Missing: every key once, which is C44_once_partial, and dropping exactly the empty fields, C44_empty_partial. *)
Theorem C44_partial : forall E O it o G p t fs fuel addr b v out, appends E -> ftoa_spec (ftoa E) -> ftoa_special (ftoa E) -> walks_maps E -> canonical_floats v ->
  newCodec E O it = Ok (Some (o, G)) -> nth_error G p = Some (CStruct t fs) -> encode fuel E G O p addr b v = Ok (out, None) ->
  exists l ms, structFields E O t = Ok (map fst fs) /\ offers E O t [] l /\ subseq (map fst fs) l /\ written E G O addr v fs ms /\ out = b ++ x7b :: join x2c (map member ms) ++ [x7d].
Proof. exact C44_lem. Qed.
Print Assumptions C44_partial.
(* A struct type without methods has such a codec. *)
Theorem C44_struct : forall E O t o G, fieldwise E t -> newCodec E O (IEnc t) = Ok (Some (o, G)) -> exists fs, nth_error G o = Some (CStruct t fs).
Proof. exact C44_top_lem. Qed.
Print Assumptions C44_struct.
(* No key twice, if for each key the first field declared with it has the shortest path (otherwise see C46_refuted). *)
Theorem C44_once_partial : forall E G O addr v t fs l ms, structFields E O t = Ok (map fst fs) -> offers E O t [] l -> (forall key, first_is_shortest l key) -> written E G O addr v fs ms -> NoDup (map fst ms).
Proof. exact C44_once_lem. Qed.
Print Assumptions C44_once_partial.
(* An omitempty field is dropped exactly when encoding/json would drop it, for all types without an omit method
   except arrays, structs written field by field and interfaces with methods. *)
Theorem C44_empty_partial : forall E O addr c x, typed E (ctype c) x -> silent E O (ctype c) -> omitempty c ->
  (forall n e, kindOf E (ctype c) <> Some (KArray n e)) -> ~ fieldwise E (ctype c) -> kindOf E (ctype c) <> Some (KIface true) -> kindOf E (ctype c) <> Some KOther ->
  (dropped E O addr c x <-> go_empty x).
Proof. exact C44_go_lem. Qed.
Print Assumptions C44_empty_partial.
(* An array of two zeros is dropped. *)
Theorem C44_refuted : exists E t v cs c x, typed E t v /\ structFields E defaultOptions t = Ok cs /\ In c cs /\ reaches v (cindex c) x /\ omitempty c /\ ~ go_empty x /\ dropped E defaultOptions false c x /\
  Marshal E (Some (t, v)) = Ok (str "{""H"":""x""}", None).
Proof. exact ex44_refuted. Qed.
Print Assumptions C44_refuted.
Example C44_example : appends exE /\ ftoa_spec (ftoa exE) /\ ftoa_special (ftoa exE) /\ walks_maps exE /\ canonical_floats ex44 /\ fieldwise exE 10 /\
  newCodec exE defaultOptions (IEnc 10) = Ok (Some (built exE 10)) /\ (exists fs, nth_error (snd (built exE 10)) (fst (built exE 10)) = Some (CStruct 10 fs)) /\
  enc44 10 (str "x=") ex44 = Ok (str "x={""H"":""x""}", None) /\
  enc44 15 [] (VStruct [VPtr (Some (VStruct [VInt 3])); VBool true]) = Ok (str "{""A"":3,""B"":true}", None) /\
  enc44 15 [] (VStruct [VPtr None; VBool true]) = Ok (str "{""B"":true}", None) /\
  enc44 18 [] (VStruct [ex44; VInt 0]) = Ok (str "{""X"":{""H"":""x""},""Y"":0}", None).
Proof. exact ex44_lem. Qed.
Example C44_once_example : nth_error (snd (built exE 17)) (fst (built exE 17)) = Some (CStruct 17 f17) /\ structFields exE defaultOptions 17 = Ok (map fst f17) /\ offers exE defaultOptions 17 [] l17 /\ (forall key, first_is_shortest l17 key) /\
  written exE (snd (built exE 17)) defaultOptions false (VStruct [VString (str "x"); VStruct [VInt 1]]) f17 [(str "A", str """x""")].
Proof. exact once_lem. Qed.
Example C44_empty_example : typed exE 13 (VSlice (Some ([], [VString (str "old")]))) /\ silent exE defaultOptions 13 /\ omitempty (mkC (str "T") [0]%Z 13 hintOmitempty) /\
  go_empty (VSlice (Some ([], [VString (str "old")]))) /\ dropped exE defaultOptions false (mkC (str "T") [0]%Z 13 hintOmitempty) (VSlice (Some ([], [VString (str "old")]))) /\
  ~ dropped exE defaultOptions false (mkC (str "T") [0]%Z 13 hintOmitempty) (VSlice (Some ([VString []], []))).
Proof. exact go_lem. Qed.

(* ---- C46 ---- *)

(* The codec of a struct has some of the fields the struct offers, in declaration order; decoding a key uses the first of
   them declared.  For a key whose first field has the shortest path that field alone is kept, for encoding and
   decoding, and it is the shortest (then earliest).
   Missing: keys where a deeper field is declared first; for them it is false. *)
Theorem C46_partial : forall E O t cs, structFields E O t = Ok cs -> forall l, offers E O t [] l -> subseq cs l /\
  (forall key, Get cs key = hd_error (with_key key l)) /\
  forall key, first_is_shortest l key ->
    match with_key key l with
    | [] => with_key key cs = []
    | c :: _ => with_key key cs = [c] /\ Get cs key = Some c /\ shortest_first l c
    end.
Proof. exact C46_partial_lem. Qed.
Print Assumptions C46_partial.
(* Collecting the fields returns unless the struct embeds itself. *)
Theorem C46_returns : forall E O t, isStruct E t = true -> (structFields E O t = Diverge <-> cyclic E O t) /\ structFields E O t <> Panic.
Proof. exact structFields_total_lem. Qed.
Print Assumptions C46_returns.
(* struct{ Inner; A string } with Inner struct{ A int }: decoding uses the deeper A, and encoding writes both. *)
Theorem C46_refuted : exists E t cs l c v, structFields E defaultOptions t = Ok cs /\ offers E defaultOptions t [] l /\ Get cs (ckey c) = Some c /\ ~ shortest_first l c /\
  typed E t v /\ Marshal E (Some (t, v)) = Ok (str "{""A"":1,""A"":""x""}", None).
Proof. exact ex46_refuted. Qed.
Print Assumptions C46_refuted.
Example C46_example : exists cs, structFields exE defaultOptions 17 = Ok cs /\ offers exE defaultOptions 17 [] [mkC (str "A") [0]%Z tString 0; mkC (str "A") [1; 0]%Z 6 0] /\
  first_is_shortest [mkC (str "A") [0]%Z tString 0; mkC (str "A") [1; 0]%Z 6 0] (str "A") /\ cs = [mkC (str "A") [0]%Z tString 0].
Proof. exact ex46_lem. Qed.

(* ---- C54 ---- *)

(* Building the codecs of a type returns, for recursive types too, and fails exactly when the type needs one for
   something that has none; if no struct embeds itself. *)
Theorem C54_partial : forall E O it, wf_types E -> (forall t, ~ cyclic E O t) -> itype it < length (types E) ->
  exists r, newCodec E O it = Ok r /\ (r = None <-> exists x, uses_star E O it x /\ lacks E x).
Proof. exact C54_lem. Qed.
Print Assumptions C54_partial.
(* type T struct{ *T } *)
Theorem C54_refuted : exists E t, wf_types E /\ cyclic E defaultOptions t /\ newCodec E defaultOptions (IDec t) = Diverge /\ newCodec E defaultOptions (IEnc t) = Diverge.
Proof. exact C54_refuted_lem. Qed.
Print Assumptions C54_refuted.
(* No type that embeds itself and has no method of its own ever gets an encoder. *)
Theorem C54_cyclic : forall E O t, cyclic E O t -> (exists T, typeOf E t = Some T /\ no_marshaler (tmeth T)) -> newCodec E O (IEnc t) = Diverge.
Proof. exact C54_cyclic_lem. Qed.
Print Assumptions C54_cyclic.
Example C54_example : (exists T, by_kind exE (IDec 11) T /\ uses exE defaultOptions (IDec 11) (IEnc 12)) /\ (exists o G, newCodec exE defaultOptions (IDec 11) = Ok (Some (o, G))) /\
  uses_star badE defaultOptions (IEnc 12) (IEnc 11) /\ lacks badE (IEnc 11) /\ newCodec badE defaultOptions (IEnc 12) = Ok None.
Proof. exact ex54_lem. Qed.
