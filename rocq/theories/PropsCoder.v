(* Properties C56, C57 and C58: encoder and decoder objects with any options.  Only statements, each closed by
   [exact]. *)
From Verif Require Import FloatSpec FmtSpec Bytes Types JsonSpec Parser Doc DocSpec Iface IfaceSpec Options Codec CodecSpec CodecExamples DecodeSpec DecodeExamples RoundSpec MethodSpec MethodExamples Coder CoderSpec CoderThms CoderExamples.
Local Open Scope nat_scope.

(* ---- C56: NewTypeEncoder and Encode ---- *)

(* There is no encoder exactly for the types without a method that have a part without a codec. *)
Theorem C56_new : forall E t O O', wf_types E -> completed O O' -> (forall u, ~ cyclic E O' u) -> t < length (types E) ->
  NewTypeEncoder E None O = Ok None /\
  exists r, NewTypeEncoder E (Some t) O = Ok r /\ (r = None <-> ~ encoded_by_method E t /\ exists u x, stands_for E t u /\ uses_star E O' (IEnc u) x /\ lacks E x).
Proof. exact C56_new_top. Qed.
Print Assumptions C56_new.
Example C56_new_example : wf_types codE /\ completed yamlO yamlF /\ (forall u, ~ cyclic codE yamlF u) /\ ~ encoded_by_method codE 21 /\ stands_for codE 21 16 /\ uses_star codE yamlF (IEnc 16) (IEnc 15) /\ lacks codE (IEnc 15) /\
  NewTypeEncoder codE (Some 21) yamlO = Ok None /\ NewTypeEncoder codE (Some 8) yamlO = Ok (Some enc8) /\ encoded_by_method codE 10.
Proof. exact ex56_new_lem. Qed.
(* What Encode appends is a JSON text.  Missing for the full property: nil pointers (C56_nil_refuted), methods that only
   the pointer type has (C56_method_refuted) and the options for NaN and infinities (C56_nan_refuted); the rest is as for
   C41_partial. *)
Theorem C56_partial : forall E t O O' m out s v, go_env E -> completed O O' -> (forall u, ~ cyclic E defaultOptions u) -> tags_json E O' -> methods_return E -> methods_write_json E -> oNaN O = false -> oInf O = false ->
  NewTypeEncoder E (Some t) O = Ok (Some m) -> own_methods E t -> accepts E t s -> typed E s v -> v <> VPtr None -> tops_ok E v -> floats_json v ->
  exists res err, Encode E m out (Some (s, v)) = Ok (res, err) /\ (err = None -> exists j w, res = out ++ w /\ rfc_value j w).
Proof. exact C56_top. Qed.
Print Assumptions C56_partial.
Example C56_example : go_env codE /\ completed yamlO yamlF /\ (forall u, ~ cyclic codE defaultOptions u) /\ tags_json codE yamlF /\ methods_return codE /\ methods_write_json codE /\ oNaN yamlO = false /\ oInf yamlO = false /\
  NewTypeEncoder codE (Some 8) yamlO = Ok (Some enc8) /\ own_methods codE 8 /\ accepts codE 8 7 /\ typed codE 7 v56 /\ v56 <> VPtr None /\ tops_ok codE v56 /\ floats_json v56 /\
  Encode codE enc8 (str "x=") (Some (7, v56)) = Ok (str "x={""alpha"":5,""next"":{""b"":""x""}}", None) /\
  AppendJSON codE (str "x=") (Some (7, v56)) = Ok (str "x={""A"":5,""B"":"""",""Next"":{""A"":0,""B"":""x"",""Next"":null}}", None).
Proof. exact ex56_lem. Qed.
Theorem C56_nil_refuted : exists E t O m s, go_env E /\ NewTypeEncoder E (Some t) O = Ok (Some m) /\ own_methods E t /\ accepts E t s /\ typed E s (VPtr None) /\ Encode E m [] (Some (s, VPtr None)) = Panic.
Proof. exact C56_nil_refuted_lem. Qed.
Print Assumptions C56_nil_refuted.
Theorem C56_nan_refuted : exists E O m t v out, go_env E /\ oNaN O = true /\ NewTypeEncoder E (Some t) O = Ok (Some m) /\ typed E t v /\ Encode E m [] (Some (t, v)) = Ok (out, None) /\ forall j, ~ rfc_value j out.
Proof. exact C56_nan_refuted_lem. Qed.
Print Assumptions C56_nan_refuted.
(* Values of every other type are rejected, and the buffer is returned as it was. *)
Theorem C56_reject : forall E t O m out, NewTypeEncoder E (Some t) O = Ok (Some m) ->
  Encode E m out None = Ok (out, Some UInvalidValue) /\
  forall s v, typed E s v -> v <> VPtr None -> ~ accepts E t s -> Encode E m out (Some (s, v)) = Ok (out, Some UInvalidValue).
Proof. exact C56_reject_lem. Qed.
Print Assumptions C56_reject.
Example C56_reject_example : NewTypeEncoder codE (Some 8) yamlO = Ok (Some enc8) /\ typed codE 6 (VInt 1) /\ VInt 1 <> VPtr None /\ ~ accepts codE 8 6 /\ Encode codE enc8 (str "x") (Some (6, VInt 1)) = Ok (str "x", Some UInvalidValue).
Proof. exact ex56_reject_lem. Qed.
(* Types with a method are encoded by it. *)
Theorem C56_method_partial : forall E t O m out s v u y U, NewTypeEncoder E (Some t) O = Ok (Some m) -> own_methods E t -> encoded_by_method E t -> stands_for E t u -> unpointed E s v u y -> typeOf E u = Some U ->
  marshals (tmeth U) = true /\ marshalled E u (tmeth U) out y (Encode E m out (Some (s, v))).
Proof. exact C56_method_lem. Qed.
Print Assumptions C56_method_partial.
Example C56_method_example : NewTypeEncoder codE (Some 9) yamlO = Ok (Some enc9) /\ own_methods codE 9 /\ encoded_by_method codE 9 /\ stands_for codE 9 9 /\ unpointed codE 10 (VPtr (Some (VInt 0))) 9 (VInt 0) /\ typeOf codE 9 = Some (mkT (KInt 64) textMU textMU) /\
  Encode codE enc9 [] (Some (10, VPtr (Some (VInt 0)))) = Ok (str """zero""", None) /\ Encode codE enc9 [] (Some (9, VInt 4)) = Ok (str """some""", None).
Proof. exact ex56_method_lem. Qed.
(* A method of the pointer type only: the encoder is made, and neither a value nor a pointer can be encoded. *)
Theorem C56_method_refuted : exists E t s O m v, go_env E /\ NewTypeEncoder E (Some t) O = Ok (Some m) /\ encoded_by_method E t /\ accepts E t s /\ kindOf E s = Some (KPtr t) /\ typed E s (VPtr (Some v)) /\
  Encode E m [] (Some (t, v)) = Panic /\ Encode E m [] (Some (s, VPtr (Some v))) = Panic.
Proof. exact C56_method_refuted_lem. Qed.
Print Assumptions C56_method_refuted.
(* A value and a pointer to it give the same, if no type has the Omit method on the pointer only. *)
Theorem C56_pointer_partial : forall E t O O' m out s ps y r, completed O O' -> omits_by_value E (oOmitMethod O') -> NewTypeEncoder E (Some t) O = Ok (Some m) -> kindOf E ps = Some (KPtr s) -> (forall e, kindOf E s <> Some (KPtr e)) ->
  Encode E m out (Some (s, y)) = Ok r -> Encode E m out (Some (ps, VPtr (Some y))) = Ok r.
Proof. exact C56_pointer_top. Qed.
Print Assumptions C56_pointer_partial.
Example C56_pointer_example : omits_by_value exP (str "Omit") /\ (exists m, NewTypeEncoder exP (Some 18) noOptions = Ok (Some m) /\ Encode exP m [] (Some (18, ex56p)) = Ok (str "{""X"":{""H"":""x""},""Y"":1}", None) /\
    Encode exP m [] (Some (19, VPtr (Some ex56p))) = Ok (str "{""X"":{""H"":""x""},""Y"":1}", None)) /\
  kindOf exP 19 = Some (KPtr 18) /\ (forall e, kindOf exP 18 <> Some (KPtr e)).
Proof. exact ex56_pointer_lem. Qed.
Theorem C56_pointer_refuted : exists E t s O m v, go_env E /\ NewTypeEncoder E (Some t) O = Ok (Some m) /\ kindOf E s = Some (KPtr t) /\ typed E t v /\
  Encode E m [] (Some (t, v)) = Ok (str "{""V"":7}", None) /\ Encode E m [] (Some (s, VPtr (Some v))) = Ok (str "{}", None).
Proof. exact C56_pointer_refuted_lem. Qed.
Print Assumptions C56_pointer_refuted.
(* AppendJSON is Encode of the encoder for the type with the default options. *)
Theorem C56_default : forall E out t v, AppendJSON E out (Some (t, v)) =
  let! m := NewTypeEncoder E (Some t) noOptions in match m with None => Ok ([], Some UInvalidType) | Some m => Encode E m out (Some (t, v)) end.
Proof. exact default_lem. Qed.
Print Assumptions C56_default.

(* ---- C57: NewTypeDecoder and Decode ---- *)

(* There is a decoder for interface{} and for pointer types with a method or with a codec for what they point to. *)
Theorem C57_new : forall E t tag O, wf_types E -> completed (tagOnly tag) O -> (forall u, ~ cyclic E O u) -> t < length (types E) ->
  exists r, NewTypeDecoder E (Some t) tag = Ok r /\ (r = None <-> kindOf E t <> Some (KIface false) /\
    forall T e, typeOf E t = Some T -> tkind T = KPtr e -> no_unmarshaler (tmeth T) /\ exists x, uses_star E O (IDec e) x /\ lacks E x).
Proof. exact C57_new_lem. Qed.
Print Assumptions C57_new.
Example C57_new_example : wf_types codE /\ completed (tagOnly (str "yaml")) yamlT /\ (forall u, ~ cyclic codE yamlT u) /\
  NewTypeDecoder codE (Some 8) (str "yaml") = Ok (Some dec8) /\ NewTypeDecoder codE (Some 7) (str "yaml") = Ok None /\ NewTypeDecoder codE (Some 21) (str "yaml") = Ok None /\ lacks codE (IDec 15) /\ uses_star codE yamlT (IDec 16) (IDec 15) /\
  NewTypeDecoder codE (Some tIface) (str "yaml") = Ok (Some DIface) /\ NewTypeDecoder codE (Some 10) (str "yaml") = Ok (Some DText).
Proof. exact ex57_new_lem. Qed.
(* What Decode stores, with the keys from the tag given.  Missing: maps and defined interface types, as for
   C43_partial. *)
Theorem C57_partial : forall E pi w n t e v j tag O d, wf_types E -> embeds_structs E -> completed (tagOnly tag) O -> target_with E O t e -> ~ hazard E O e -> typed E e v -> tree_of w n j ->
  NewTypeDecoder E (Some t) tag = Ok (Some d) ->
  exists v' err, Decode E pi w d (Some (t, VPtr (Some v))) n = Ok (Some (t, VPtr (Some v')), err) /\ typed E e v' /\ (~ mismatch E O e j -> err = None /\ stored E O e v j v').
Proof. exact C57_lem. Qed.
Print Assumptions C57_partial.
Example C57_example : wf_types codE /\ embeds_structs codE /\ completed (tagOnly (str "yaml")) yamlT /\ target_with codE yamlT 8 7 /\ ~ hazard codE yamlT 7 /\ typed codE 7 z57 /\ tree_of (worldOf in57) (nodeOf in57) tree57 /\
  NewTypeDecoder codE (Some 8) (str "yaml") = Ok (Some dec8) /\
  Decode codE 14 (worldOf in57) dec8 (Some (8, VPtr (Some z57))) (nodeOf in57) = Ok (Some (8, VPtr (Some out57)), None) /\
  UnmarshalFromNode codE (worldOf in57) (nodeOf in57) 8 (VPtr (Some z57)) = Ok (VPtr (Some (VStruct [VInt 9; VString (str "old"); VPtr None])), None).
Proof. exact ex57_lem. Qed.
(* An error means that the value does not fit the type; missing for the converse: slices and arrays, as for
   C42_partial. *)
Theorem C57_errors_partial : forall E pi w n t e v j tag O d x' err, wf_types E -> embeds_structs E -> completed (tagOnly tag) O -> target_with E O t e -> typed E e v -> tree_of w n j ->
  NewTypeDecoder E (Some t) tag = Ok (Some d) -> Decode E pi w d (Some (t, VPtr (Some v))) n = Ok (x', err) ->
  (err <> None -> mismatch E O e j) /\ (strict E O e -> mismatch E O e j -> err <> None).
Proof. exact C57_errors_lem. Qed.
Print Assumptions C57_errors_partial.
Example C57_errors_example : wf_types codE /\ embeds_structs codE /\ completed (tagOnly (str "yaml")) yamlT /\ target_with codE yamlT 8 7 /\ typed codE 7 z57 /\ tree_of (worldOf bad57) (nodeOf bad57) badTree57 /\
  NewTypeDecoder codE (Some 8) (str "yaml") = Ok (Some dec8) /\ strict codE yamlT 7 /\ mismatch codE yamlT 7 badTree57 /\
  exists x e, Decode codE 14 (worldOf bad57) dec8 (Some (8, VPtr (Some z57))) (nodeOf bad57) = Ok (x, Some e).
Proof. exact ex57_errors_lem. Qed.
(* The target of another type is rejected and left as it is. *)
Theorem C57_reject_partial : forall E pi w n t tag T e d, typeOf E t = Some T -> tkind T = KPtr e -> no_unmarshaler (tmeth T) -> NewTypeDecoder E (Some t) tag = Ok (Some d) ->
  Decode E pi w d None n = Ok (None, Some UInvalidValue) /\
  forall s v, s < length (types E) -> s <> t -> Decode E pi w d (Some (s, v)) n = Ok (Some (s, v), Some UInvalidValue).
Proof. exact C57_reject_lem. Qed.
Print Assumptions C57_reject_partial.
Example C57_reject_example : typeOf codE 8 = Some (plainT (KPtr 7)) /\ no_unmarshaler noMethods /\ NewTypeDecoder codE (Some 8) (str "yaml") = Ok (Some dec8) /\ 13 < length (types codE) /\
  Decode codE 14 (worldOf in57) dec8 (Some (13, VPtr (Some (VStruct [VInt 1])))) (nodeOf in57) = Ok (Some (13, VPtr (Some (VStruct [VInt 1]))), Some UInvalidValue).
Proof. exact ex57_reject_lem. Qed.
(* A nil pointer of the type is kept for null; otherwise Decode panics (the comment of line 39 promises a new value). *)
Theorem C57_nil : forall E pi w n j, tree_of w n j ->
  (forall t tag T e d, typeOf E t = Some T -> tkind T = KPtr e -> no_unmarshaler (tmeth T) -> NewTypeDecoder E (Some t) tag = Ok (Some d) ->
    (j = JNull -> Decode E pi w d (Some (t, VPtr None)) n = Ok (Some (t, VPtr None), None)) /\ (j <> JNull -> Decode E pi w d (Some (t, VPtr None)) n = Panic)) /\
  (kindOf E pi = Some (KPtr tIface) -> exists d, NewTypeDecoder E None [] = Ok (Some d) /\ Decode E pi w d (Some (pi, VPtr None)) n = Panic).
Proof. exact C57_nil_lem. Qed.
Print Assumptions C57_nil.
Example C57_nil_example : tree_of (worldOf in57i) (nodeOf in57i) (JArr [JTrue; JObj [(str "a", JNull)]]) /\ typeOf codE 8 = Some (plainT (KPtr 7)) /\ NewTypeDecoder codE (Some 8) (str "yaml") = Ok (Some dec8) /\
  Decode codE 14 (worldOf in57i) dec8 (Some (8, VPtr None)) (nodeOf in57i) = Panic.
Proof. exact ex57_nil_lem. Qed.
(* Decoders for types with a method reject by the method, not by the type. *)
Theorem C57_method_refuted : exists E pi t s d w n v v', go_env E /\ s <> t /\ (exists T, typeOf E t = Some T /\ unmarshals (tmeth T) = true) /\ NewTypeDecoder E (Some t) [] = Ok (Some d) /\ typed E s v /\ v' <> v /\ Decode E pi w d (Some (s, v)) n = Ok (Some (s, v'), None).
Proof. exact C57_method_refuted_lem. Qed.
Print Assumptions C57_method_refuted.
Theorem C57_method : forall E pi w n t T e x j tag, typeOf E t = Some T -> tkind T = KPtr e -> unmarshals (tmeth T) = true -> tree_of w n j ->
  exists d r, NewTypeDecoder E (Some t) tag = Ok (Some d) /\ unmarshalled E t (tmeth T) w n j x r /\ Decode E pi w d (Some (t, x)) n = (let! y := r in Ok (Some (t, fst y), snd y)) /\ Decode E pi w d None n = Ok (None, Some UInvalidValue).
Proof. exact C57_method_lem. Qed.
Print Assumptions C57_method.
Example C57_method_example : typeOf codE 10 = Some (mkT (KPtr 9) textMU noMethods) /\ unmarshals textMU = true /\ tree_of (worldOf (str """abc""")) (nodeOf (str """abc""")) (JStr (str "abc")) /\
  NewTypeDecoder codE (Some 10) [] = Ok (Some DText) /\ Decode codE 14 (worldOf (str """abc""")) DText (Some (10, VPtr (Some (VInt 0)))) (nodeOf (str """abc""")) = Ok (Some (10, VPtr (Some (VInt 3))), None).
Proof. exact ex57_method_lem. Qed.
(* The decoder for interface{}: its target is a pointer to one. *)
Theorem C57_iface : forall E pi w n t x j tag, kindOf E pi = Some (KPtr tIface) -> t = None \/ (exists i, t = Some i /\ kindOf E i = Some (KIface false)) -> tree_of w n j ->
  exists d, NewTypeDecoder E t tag = Ok (Some d) /\
    (numbers_parse j -> exists g, go_of j g /\ Decode E pi w d (Some (pi, VPtr (Some x))) n = Ok (Some (pi, VPtr (Some (VIface (ofGo g)))), None)) /\
    (~ numbers_parse j -> exists e, Decode E pi w d (Some (pi, VPtr (Some x))) n = Ok (Some (pi, VPtr (Some (VIface (left_over j)))), Some e)) /\
    (exists e, Decode E pi w d None n = Ok (None, Some e)) /\
    forall s v, s < length (types E) -> s <> pi -> exists e, Decode E pi w d (Some (s, v)) n = Ok (Some (s, v), Some e).
Proof. exact C57_iface_lem. Qed.
Print Assumptions C57_iface.
Example C57_iface_example : kindOf codE 14 = Some (KPtr tIface) /\ kindOf codE tIface = Some (KIface false) /\ tree_of (worldOf in57i) (nodeOf in57i) (JArr [JTrue; JObj [(str "a", JNull)]]) /\ numbers_parse (JArr [JTrue; JObj [(str "a", JNull)]]) /\
  NewTypeDecoder codE None [] = Ok (Some DIface) /\
  Decode codE 14 (worldOf in57i) DIface (Some (14, VPtr (Some (VIface None)))) (nodeOf in57i) =
    Ok (Some (14, VPtr (Some (VIface (Some (tSliceI, VSlice (Some ([VIface (Some (tBool, VBool true)); VIface (Some (tMapSI, VMap (Some [(VString (str "a"), VIface None)])))], []))))))), None).
Proof. exact ex57_iface_lem. Qed.
(* An error from that decoder does not leave the target as it is. *)
Theorem C57_iface_refuted : exists E pi w n d j v x e, go_env E /\ kindOf E pi = Some (KPtr tIface) /\ tree_of w n j /\ NewTypeDecoder E None [] = Ok (Some d) /\ typed E pi (VPtr (Some v)) /\
  Decode E pi w d (Some (pi, VPtr (Some v))) n = Ok (Some (pi, VPtr (Some x)), Some e) /\ v <> VIface None /\ x = VIface (Some (tSliceI, VSlice None)).
Proof. exact C57_iface_refuted_lem. Qed.
Print Assumptions C57_iface_refuted.
(* UnmarshalFromNode is Decode of the decoder for the type with the default tag. *)
Theorem C57_default : forall E pi w n t x, (forall m, kindOf E t <> Some (KIface m)) -> UnmarshalFromNode E w n t x =
  let! d := NewTypeDecoder E (Some t) [] in
  match d with
  | None => Ok (x, Some UInvalidType)
  | Some d => let! r := Decode E pi w d (Some (t, x)) n in Ok (match fst r with Some (_, y) => y | None => x end, snd r)
  end.
Proof. exact C57_default_lem. Qed.
Print Assumptions C57_default.

(* ---- C58: what an encoder writes, the decoder with the same tag reads ---- *)

(* For any options of the encoder, in particular with empty fields left out.  The types and values for which it is
   missing are those of C40_partial. *)
Theorem C58_partial : forall E O O' m d t pt v z out, go_env E -> (forall u, ~ cyclic E defaultOptions u) -> completed O O' -> tags_json E O' -> both_ways E O' pt t -> ~ hazard E O' t ->
  NewTypeEncoder E (Some t) O = Ok (Some m) -> NewTypeDecoder E (Some pt) (oTag O) = Ok (Some d) -> typed E t v -> survives E O' t v -> v <> VPtr None -> typed E t z -> blank E t z ->
  exists w, Encode E m out (Some (t, v)) = Ok (out ++ w, None) /\
    forall pi W i, i < length W -> exists W' n v', Document_Parse W i w = Ok (W', (n, [], None)) /\ Decode E pi W' d (Some (pt, VPtr (Some z))) n = Ok (Some (pt, VPtr (Some v')), None) /\ agree E O' t v v'.
Proof. exact C58_top. Qed.
Print Assumptions C58_partial.
Example C58_example : go_env codE /\ (forall u, ~ cyclic codE defaultOptions u) /\ completed yamlO yamlF /\ tags_json codE yamlF /\ both_ways codE yamlF 8 7 /\ ~ hazard codE yamlF 7 /\
  NewTypeEncoder codE (Some 7) yamlO = Ok (Some enc8) /\ NewTypeDecoder codE (Some 8) (oTag yamlO) = Ok (Some dec8) /\ typed codE 7 v56 /\ survives codE yamlF 7 v56 /\ v56 <> VPtr None /\ typed codE 7 z58 /\ blank codE 7 z58 /\
  Encode codE enc8 [] (Some (7, v56)) = Ok (str "{""alpha"":5,""next"":{""b"":""x""}}", None) /\
  Decode codE 14 (worldOf (str "{""alpha"":5,""next"":{""b"":""x""}}")) dec8 (Some (8, VPtr (Some z58))) (nodeOf (str "{""alpha"":5,""next"":{""b"":""x""}}")) = Ok (Some (8, VPtr (Some v56)), None).
Proof. exact ex58_lem. Qed.
(* With another tag nothing need come back. *)
Theorem C58_refuted : exists E O m d t pt v z w, go_env E /\ NewTypeEncoder E (Some t) O = Ok (Some m) /\ NewTypeDecoder E (Some pt) [] = Ok (Some d) /\ kindOf E pt = Some (KPtr t) /\ typed E t v /\ blank E t z /\ v <> z /\
  Encode E m [] (Some (t, v)) = Ok (w, None) /\ Decode E 14 (worldOf w) d (Some (pt, VPtr (Some z))) (nodeOf w) = Ok (Some (pt, VPtr (Some z)), None).
Proof. exact C58_refuted_lem. Qed.
Print Assumptions C58_refuted.
