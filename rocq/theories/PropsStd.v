(* Property C77: what Marshal writes against what json.Marshal of encoding/json writes.  Only statements, each closed by
   [exact]. *)
From Verif Require Import FloatSpec FmtSpec StrSpec Bytes Types JsonSpec Parser Doc DocSpec Strjson Options Codec CodecSpec CodecExamples TreeSpec StdSpec StdThms StdOne StdExamples.
Local Open Scope nat_scope.

(* The text appended says what json.Marshal writes.  Missing for the full property: types with methods, and what the
   theorems below show to be otherwise. *)
Theorem C77_partial : forall E letter out t v res, std_world E -> std_structs E letter -> std_value E t v -> portable E t v -> AppendJSON E out (Some (t, v)) = Ok (res, None) ->
  exists w j m, res = out ++ w /\ rfc_value j w /\ says j m /\ std E letter t v m.
Proof. exact C77_lem. Qed.
Print Assumptions C77_partial.
(* A field nested less than another of its name, embedded structs, a tag that is "-", omitempty and values in an
   interface. *)
Example C77_example : std_world stE /\ std_structs stE ascii /\ std_value stE 10 v77 /\ portable stE 10 v77 /\ AppendJSON stE (str "x") (Some (10, v77)) = Ok (str "x" ++ out77, None).
Proof. exact ex77_lem. Qed.

(* What json.Marshal writes is one value: the text above says that and nothing else.  Of maps with more than one key only the
   members are known, as their order is not fixed in this specification. *)
Theorem C77_unique : forall E letter t v m m', std_structs E letter -> formats_agree E v -> small_maps v -> std E letter t v m -> std E letter t v m' -> alike m m'.
Proof. exact C77_unique_lem. Qed.
Print Assumptions C77_unique.
Example C77_unique_example : std_structs stE ascii /\ formats_agree stE v77 /\ small_maps v77 /\ exists m, std stE ascii 10 v77 m.
Proof. exact ex77_unique_lem. Qed.

(* A nil slice is written as an empty array, not as null. *)
Theorem C77_nil_refuted : exists E letter t v, std_world E /\ std_structs E letter /\ std_value E t v /\ v = VSlice None /\ writes_other E letter t v.
Proof. exact C77_nil_lem. Qed.
Print Assumptions C77_nil_refuted.
(* A slice of bytes is written as an array, not in base64. *)
Theorem C77_bytes_refuted : exists E letter t e v, std_world E /\ std_structs E letter /\ std_value E t v /\ kindOf E t = Some (KSlice e) /\ kindOf E e = Some (KUint 8) /\ v = VSlice (Some ([VUint 104; VUint 105], [])) /\
  std E letter t v (SStr (str "aGk=")) /\ writes_other E letter t v.
Proof. exact C77_bytes_lem. Qed.
Print Assumptions C77_bytes_refuted.
(* A float64 is written with 32 bits. *)
Theorem C77_float_refuted : exists E letter t v f, std_world E /\ std_structs E letter /\ std_value E t v /\ kindOf E t = Some KFloat64 /\ v = VFloat f /\ writes_other E letter t v.
Proof. exact C77_float_lem. Qed.
Print Assumptions C77_float_refuted.
(* Fields: an array of zeros with omitempty, the option string, the tag "-,", a name with an apostrophe, an embedded struct
   of unexported type, and two fields of one name. *)
Theorem C77_fields_refuted : exists E letter i a inner, std_world E /\ kindOf E i = Some (KInt 64) /\ kindOf E a = Some (KArray 2 i) /\ kindOf E inner = Some (KStruct [fld (str "A") i]) /\
  field_case E letter [tagged (str "F") a (str "f,omitempty")] (VStruct [VArray [VInt 0; VInt 0]]) /\
  field_case E letter [tagged (str "A") i (str "a,string")] (VStruct [VInt 1]) /\
  field_case E letter [tagged (str "A") i (str "-,")] (VStruct [VInt 1]) /\
  field_case E letter [tagged (str "A") i (str "a'b")] (VStruct [VInt 1]) /\
  field_case E letter [mkField (str "inner") inner false true [] (fun _ => None)] (VStruct [VStruct [VInt 1]]) /\
  field_case E letter [tagged (str "A") i (str "x"); tagged (str "B") i (str "x")] (VStruct [VInt 1; VInt 2]).
Proof. exact C77_fields_lem. Qed.
Print Assumptions C77_fields_refuted.
(* Keys of maps that are integers: an error. *)
Theorem C77_keys_refuted : exists E letter t v k e, std_world E /\ std_structs E letter /\ std_value E t v /\ portable E t v /\ kindOf E t = Some (KMap k e) /\ kindOf E k = Some (KInt 64) /\ only_fails E letter t v.
Proof. exact C77_keys_lem. Qed.
Print Assumptions C77_keys_refuted.
(* A nil pointer: json.Marshal writes null, Marshal panics. *)
Theorem C77_pointer_refuted : exists E letter t, std_world E /\ std_structs E letter /\ typed E t (VPtr None) /\ std E letter t (VPtr None) SNull /\ AppendJSON E [] (Some (t, VPtr None)) = Panic.
Proof. exact C77_pointer_lem. Qed.
Print Assumptions C77_pointer_refuted.
