(* Property C78: what Unmarshal stores against what json.Unmarshal of encoding/json stores.  Only statements, each closed by
   [exact]. *)
From Verif Require Import FloatSpec FmtSpec StrSpec Bytes Types JsonSpec Parser Doc DocSpec Strjson Options Codec CodecSpec CodecExamples DecodeSpec TreeSpec StdSpec StdExamples StdUSpec StdUThms StdUExamples.
Local Open Scope nat_scope.

(* If json.Unmarshal stores v' in a zero value, Unmarshal stores the same without an error.  Missing for the full property:
   maps, targets that are not zero values, keys that are there twice, and what the theorems below show to be otherwise. *)
Theorem C78_partial : forall E letter fold rev s t e v j v', unstd_world E letter -> target E t e -> ~ hazard E decodeOptions e -> blank E e v -> well_text s j -> well E letter fold j -> loads E letter fold e v j v' ->
  exists v'', Unmarshal E rev s t (VPtr (Some v)) = Ok (VPtr (Some v''), None) /\ equals v'' v'.
Proof. exact C78_lem. Qed.
Print Assumptions C78_partial.
(* Embedded structs, a field nested less than another of its name, a pointer to the type itself, an array that is shorter than
   the text, an interface with an object in it, an escape, a key without a field. *)
Example C78_example : unstd_world unE ascii /\ target unE 10 9 /\ ~ hazard unE decodeOptions 9 /\ blank unE 9 z78 /\ well_text s78 j78 /\ well unE ascii foldA j78 /\ loads unE ascii foldA 9 z78 j78 v78 /\
  Unmarshal unE 0 s78 10 (VPtr (Some z78)) = Ok (VPtr (Some v78), None).
Proof. exact ex78_lem. Qed.

(* A key that is the name of a field but for case is not found. *)
Theorem C78_case_refuted : exists E s t e v, (wf_types E /\ embeds_structs E /\ std_structs E ascii) /\ target E t e /\ blank E e v /\ s = str "{""a"":1}" /\ kindOf E e = Some (KStruct [fld (str "A") 6; fld (str "B") tString]) /\ stores_other E ascii foldA s t e v.
Proof. exact C78_case_lem. Qed.
Print Assumptions C78_case_refuted.
(* Keys are compared as they are written: an escape in one is not read. *)
Theorem C78_key_refuted : exists E s t e v, (wf_types E /\ embeds_structs E /\ std_structs E ascii) /\ target E t e /\ blank E e v /\ s = str "{""\u0041"":1}" /\ kindOf E e = Some (KStruct [fld (str "A") 6; fld (str "B") tString]) /\ stores_other E ascii foldA s t e v.
Proof. exact C78_key_lem. Qed.
Print Assumptions C78_key_refuted.
(* null sets a number to zero, where json.Unmarshal leaves it as it is. *)
Theorem C78_null_refuted : exists E t e v, (wf_types E /\ embeds_structs E /\ std_structs E ascii) /\ target E t e /\ ~ hazard E decodeOptions e /\ typed E e v /\ kindOf E e = Some (KInt 64) /\ stores_other E ascii foldA (str "null") t e v.
Proof. exact C78_null_lem. Qed.
Print Assumptions C78_null_refuted.
(* 2^53+1 is stored as 2^53. *)
Theorem C78_int_refuted : exists E t e v, (wf_types E /\ embeds_structs E /\ std_structs E ascii) /\ target E t e /\ ~ hazard E decodeOptions e /\ blank E e v /\ kindOf E e = Some (KInt 64) /\ stores_other E ascii foldA (str "9007199254740993") t e v.
Proof. exact C78_int_lem. Qed.
Print Assumptions C78_int_refuted.
(* A fraction of more than 19 digits. *)
Theorem C78_float_refuted : exists E t e v, (wf_types E /\ embeds_structs E /\ std_structs E ascii) /\ target E t e /\ ~ hazard E decodeOptions e /\ blank E e v /\ kindOf E e = Some KFloat64 /\ stores_other E ascii foldA (str "0.99999999999999999999e0") t e v.
Proof. exact C78_float_lem. Qed.
Print Assumptions C78_float_refuted.
(* A string that ends in a backslash is not read. *)
Theorem C78_string_refuted : exists E t e v, (wf_types E /\ embeds_structs E /\ std_structs E ascii) /\ target E t e /\ ~ hazard E decodeOptions e /\ blank E e v /\ kindOf E e = Some KString /\ stores_other E ascii foldA (str """\\""") t e v.
Proof. exact C78_string_lem. Qed.
Print Assumptions C78_string_refuted.
(* A slice of bytes is not read from base64. *)
Theorem C78_bytes_refuted : exists E t e u v, (wf_types E /\ embeds_structs E /\ std_structs E ascii) /\ target E t e /\ ~ hazard E decodeOptions e /\ blank E e v /\ kindOf E e = Some (KSlice u) /\ kindOf E u = Some (KUint 8) /\ stores_other E ascii foldA (str """AQI=""") t e v.
Proof. exact C78_bytes_lem. Qed.
Print Assumptions C78_bytes_refuted.
(* A nil map is not made: there is a panic. *)
Theorem C78_map_refuted : exists E t e v, (wf_types E /\ embeds_structs E /\ std_structs E ascii) /\ target E t e /\ blank E e v /\ kindOf E e = Some (KMap tString tIface) /\ stores_other E ascii foldA (str "{""k"":null}") t e v.
Proof. exact C78_map_lem. Qed.
Print Assumptions C78_map_refuted.
(* Numbers out of range are taken. *)
Theorem C78_range_refuted : exists E t e v, (wf_types E /\ embeds_structs E /\ std_structs E ascii) /\ target E t e /\ ~ hazard E decodeOptions e /\ blank E e v /\ kindOf E e = Some (KInt 8) /\ stores_more E ascii foldA (str "300") t e v.
Proof. exact C78_range_lem. Qed.
Print Assumptions C78_range_refuted.
(* Text after the value is taken. *)
Theorem C78_rest_refuted : exists E t e v, (wf_types E /\ embeds_structs E /\ std_structs E ascii) /\ target E t e /\ ~ hazard E decodeOptions e /\ blank E e v /\ kindOf E e = Some (KInt 64) /\ stores_more E ascii foldA (str "1]") t e v.
Proof. exact C78_rest_lem. Qed.
Print Assumptions C78_rest_refuted.
