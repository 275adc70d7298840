(* Property C40: Unmarshal after Marshal.  Only statements, each closed by [exact]. *)
From Verif Require Import FloatSpec NumSpec FmtSpec StrSpec Bytes Types JsonSpec Parser Doc DocSpec Strjson Float Num FmtThms Iface IfaceSpec Options Codec CodecSpec CodecExamples DecodeSpec DecodeThms DecodeExamples RoundSpec RoundThms RoundExamples.
Local Open Scope nat_scope.

(* What Marshal writes for a value that survives is read by Unmarshal into the zero value without error, and gives
   the value again.  Missing: maps (except inside interfaces), defined interface types, types with methods, and the
   values that do not survive, for which it is false. *)
Theorem C40_partial : forall E rev t pt v z, go_env E -> two_way E pt t -> ~ hazard E defaultOptions t -> typed E t v -> survives E defaultOptions t v -> v <> VPtr None -> typed E t z -> blank E t z ->
  exists out v', Marshal E (Some (t, v)) = Ok (out, None) /\ Unmarshal E rev out pt (VPtr (Some z)) = Ok (VPtr (Some v'), None) /\ agree E defaultOptions t v v'.
Proof. exact C40_top. Qed.
Print Assumptions C40_partial.
Example C40_example : go_env rndE /\ two_way rndE 12 11 /\ ~ hazard rndE defaultOptions 11 /\ typed rndE 11 ex40 /\ survives rndE defaultOptions 11 ex40 /\ ex40 <> VPtr None /\ typed rndE 11 inner40 /\ blank rndE 11 inner40 /\
  exists out v', Marshal rndE (Some (11, ex40)) = Ok (out, None) /\ Unmarshal rndE 0 out 12 (VPtr (Some inner40)) = Ok (VPtr (Some v'), None) /\ v' = VStruct [VStruct [VUint 200]; VString (str "a""b"); VPtr (Some (VStruct [VStruct [VUint 0]; VString []; VPtr None; VInt 0; VFloat (FFin false 0 (-1074)); VSlice (Some ([], [])); VArray [VBool false; VBool false]; VIface None])); VInt (- 2 ^ 62)%Z; VFloat half3; VSlice (Some ([VString (str "x"); VString []], []));
  VArray [VBool true; VBool false]; VIface (Some (tMapSI, VMap (Some [(VString (str "k"), VIface (Some (tSliceI, VSlice (Some ([VIface None; VIface (Some (tFloat64, VFloat half3))], [])))))])))].
Proof. exact ex40_lem. Qed.
(* The string of one backslash is written and is not read back. *)
Theorem C40_refuted : exists E pt t v z out err, go_env E /\ two_way E pt t /\ typed E t v /\ typed E t z /\ blank E t z /\ v <> VPtr None /\
  kindOf E t = Some KString /\ Marshal E (Some (t, v)) = Ok (out, None) /\ Unmarshal E 0 out pt (VPtr (Some z)) = Ok (VPtr (Some z), Some err).
Proof. exact C40_refuted_lem. Qed.
Print Assumptions C40_refuted.
(* A byte that is not UTF-8 comes back as U+FFFD. *)
Theorem C40_utf8_refuted : exists E pt t v z out v', go_env E /\ two_way E pt t /\ typed E t v /\ typed E t z /\ blank E t z /\ v <> VPtr None /\
  kindOf E t = Some KString /\ Marshal E (Some (t, v)) = Ok (out, None) /\ Unmarshal E 0 out pt (VPtr (Some z)) = Ok (VPtr (Some v'), None) /\ ~ agree E defaultOptions t v v'.
Proof. exact C40_utf8_lem. Qed.
Print Assumptions C40_utf8_refuted.
(* An int64 that is no float64 value comes back changed. *)
Theorem C40_int_refuted : exists E pt t v z out v', go_env E /\ two_way E pt t /\ typed E t v /\ typed E t z /\ blank E t z /\ v <> VPtr None /\
  kindOf E t = Some (KInt 64) /\ Marshal E (Some (t, v)) = Ok (out, None) /\ Unmarshal E 0 out pt (VPtr (Some z)) = Ok (VPtr (Some v'), None) /\ ~ agree E defaultOptions t v v'.
Proof. exact C40_int_lem. Qed.
Print Assumptions C40_int_refuted.
(* A float64 is written with 32 bits and comes back changed. *)
Theorem C40_float_refuted : exists E pt t v z out v', go_env E /\ two_way E pt t /\ typed E t v /\ typed E t z /\ blank E t z /\ v <> VPtr None /\
  kindOf E t = Some KFloat64 /\ (exists f, v = VFloat f /\ canonical b64 f /\ finite f) /\ Marshal E (Some (t, v)) = Ok (out, None) /\ Unmarshal E 0 out pt (VPtr (Some z)) = Ok (VPtr (Some v'), None) /\ ~ agree E defaultOptions t v v'.
Proof. exact C40_float_lem. Qed.
Print Assumptions C40_float_refuted.
(* A map with an entry is written, and reading it into a nil map panics. *)
Theorem C40_map_refuted : exists E pt t v z out, go_env E /\ two_way E pt t /\ typed E t v /\ typed E t z /\ blank E t z /\ v <> VPtr None /\
  (exists k e, kindOf E t = Some (KMap k e)) /\ Marshal E (Some (t, v)) = Ok (out, None) /\ Unmarshal E 0 out pt (VPtr (Some z)) = Panic.
Proof. exact C40_map_lem. Qed.
Print Assumptions C40_map_refuted.
(* A pointer to a nil pointer comes back as nil. *)
Theorem C40_nil_refuted : exists E pt t v z out, go_env E /\ two_way E pt t /\ typed E t v /\ typed E t z /\ blank E t z /\ v <> VPtr None /\
  v = VPtr (Some (VPtr None)) /\ Marshal E (Some (t, v)) = Ok (out, None) /\ Unmarshal E 0 out pt (VPtr (Some z)) = Ok (VPtr (Some (VPtr None)), None) /\ ~ agree E defaultOptions t v (VPtr None).
Proof. exact C40_nil_lem. Qed.
Print Assumptions C40_nil_refuted.
(* An int64 in an interface comes back as a float64. *)
Theorem C40_iface_refuted : exists E pt v z out v', go_env E /\ two_way E pt tIface /\ typed E tIface v /\ typed E tIface z /\ blank E tIface z /\ v <> VPtr None /\
  v = VIface (Some (6, VInt 1)) /\ Marshal E (Some (tIface, v)) = Ok (out, None) /\ Unmarshal E 0 out pt (VPtr (Some z)) = Ok (VPtr (Some v'), None) /\ ~ agree E defaultOptions tIface v v'.
Proof. exact C40_iface_lem. Qed.
Print Assumptions C40_iface_refuted.
(* A key with a quote, in an interface, comes back escaped. *)
Theorem C40_key_refuted : exists E pt v z out v', go_env E /\ two_way E pt tIface /\ typed E tIface v /\ typed E tIface z /\ blank E tIface z /\ v <> VPtr None /\
  v = VIface (Some (tMapSI, VMap (Some [(VString [x22], VIface None)]))) /\ Marshal E (Some (tIface, v)) = Ok (out, None) /\ Unmarshal E 0 out pt (VPtr (Some z)) = Ok (VPtr (Some v'), None) /\ ~ agree E defaultOptions tIface v v'.
Proof. exact C40_key_lem. Qed.
Print Assumptions C40_key_refuted.
