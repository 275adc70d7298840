(* Properties C42 and C43: what Unmarshal stores, and when it reports an error.  Only statements, each closed by
   [exact]. *)
From Verif Require Import Bytes Types JsonSpec Parser Doc DocSpec Strjson Float Num Iface IfaceSpec Options Codec CodecSpec CodecExamples DecodeSpec DecodeThms DecodeExamples CoderExamples DecodeFirst.
Local Open Scope nat_scope.

(* ---- C42 ---- *)

(* Whenever Unmarshal into a type without slices and arrays returns, it returns an error exactly when the text does
   not begin with a JSON value or part of the value does not fit; with slices and arrays, it returns one only then.
   Missing: errors inside slices and arrays, numbers out of range, text after the value, for which it is false. *)
Theorem C42_partial : forall E rev s t e v x' err, wf_types E -> embeds_structs E -> target E t e -> typed E e v -> Unmarshal E rev s t (VPtr (Some v)) = Ok (x', err) ->
  (err <> None -> ~ (exists j, begins s j) \/ exists j, begins s j /\ mismatch E decodeOptions e j) /\
  (strict E decodeOptions e -> (~ (exists j, begins s j) \/ exists j, begins s j /\ mismatch E decodeOptions e j) -> err <> None).
Proof. exact C42_lem. Qed.
Print Assumptions C42_partial.
Theorem C42_node_partial : forall E w n t e v j x' err, wf_types E -> embeds_structs E -> target E t e -> typed E e v -> tree_of w n j ->
  UnmarshalFromNode E w n t (VPtr (Some v)) = Ok (x', err) ->
  (err <> None -> mismatch E decodeOptions e j) /\ (strict E decodeOptions e -> mismatch E decodeOptions e j -> err <> None).
Proof. exact C42_node_lem. Qed.
Print Assumptions C42_node_partial.
(* A type that cannot be decoded is reported whatever the text is; with any other type, a text that does not begin with
   a JSON value is a parse error.  The target stays as it is. *)
Theorem C42_first : forall E rev s t x, wf_types E -> (forall u, ~ cyclic E decodeOptions u) -> t < length (types E) ->
  (no_decoder E t -> Unmarshal E rev s t x = Ok (x, Some UInvalidType)) /\
  (~ no_decoder E t -> ~ (exists j, begins s j) -> exists pe, Unmarshal E rev s t x = Ok (x, Some (UParse pe))).
Proof. exact C42_first_lem. Qed.
Print Assumptions C42_first.
Example C42_first_example : wf_types codE /\ (forall u, ~ cyclic codE decodeOptions u) /\
  (no_decoder codE 21 /\ Unmarshal codE 0 (str "{") 21 (VPtr None) = Ok (VPtr None, Some UInvalidType)) /\
  (~ no_decoder codE 8 /\ ~ (exists j, begins (str "{") j) /\ exists pe, Unmarshal codE 0 (str "{") 8 (VPtr None) = Ok (VPtr None, Some (UParse pe))).
Proof. exact ex42_first_lem. Qed.
Example C42_example : wf_types decE /\ embeds_structs decE /\ target decE 9 8 /\ strict decE decodeOptions 8 /\ typed decE 8 z8 /\ begins in42 tree42 /\ mismatch decE decodeOptions 8 tree42 /\
  exists x err, Unmarshal decE 0 in42 9 (VPtr (Some z8)) = Ok (x, Some err).
Proof. exact ex42_lem. Qed.
(* What is left of a slice: the elements before the first that does not fit, and no error. *)
Theorem C42_slice_partial : forall E w n t s e x js, wf_types E -> embeds_structs E -> target E t s -> kindOf E s = Some (KSlice e) -> strict E decodeOptions e -> ~ hazard E decodeOptions e ->
  typed E s (VSlice x) -> tree_of w n (JArr js) ->
  exists l s0 l' s', slots E e x (length js) l s0 /\ UnmarshalFromNode E w n t (VPtr (Some (VSlice x))) = Ok (VPtr (Some (VSlice (Some (l', s')))), None) /\
    ((stored_each E decodeOptions e l js l' /\ s' = s0) \/ exists a j b, js = a ++ j :: b /\ mismatch E decodeOptions e j /\ stored_each E decodeOptions e (firstn (length a) l) a l').
Proof. exact C42_slice_lem. Qed.
Print Assumptions C42_slice_partial.
Example C42_slice_example : wf_types decE /\ embeds_structs decE /\ target decE 11 10 /\ kindOf decE 10 = Some (KSlice 7) /\ strict decE decodeOptions 7 /\ ~ hazard decE decodeOptions 7 /\
  typed decE 10 (VSlice (Some ([VInt 9; VInt 8], [VInt 6]))) /\ tree_of (worldOf (str "[1,""x"",3]")) (nodeOf (str "[1,""x"",3]")) slice42 /\
  UnmarshalFromNode decE (worldOf (str "[1,""x"",3]")) (nodeOf (str "[1,""x"",3]")) 11 (VPtr (Some (VSlice (Some ([VInt 9; VInt 8], [VInt 6]))))) = Ok (VPtr (Some (VSlice (Some ([VInt 1], [VInt 8; VInt 6])))), None).
Proof. exact slice_lem. Qed.
(* []int8 from [1,"x",3] *)
Theorem C42_refuted : exists E s t e v v', wf_types E /\ embeds_structs E /\ target E t e /\ ~ hazard E decodeOptions e /\ typed E e v /\ begins s slice42 /\ mismatch E decodeOptions e slice42 /\
  Unmarshal E 0 s t (VPtr (Some v)) = Ok (VPtr (Some v'), None) /\ v' = VSlice (Some ([VInt 1], [VInt 0; VInt 0])).
Proof. exact C42_refuted_lem. Qed.
Print Assumptions C42_refuted.
(* [2]int8 from ["x",2] *)
Theorem C42_array_refuted : exists E s t e v, wf_types E /\ embeds_structs E /\ target E t e /\ ~ hazard E decodeOptions e /\ typed E e v /\ begins s (JArr [JStr (str "x"); JNum (str "2")]) /\
  mismatch E decodeOptions e (JArr [JStr (str "x"); JNum (str "2")]) /\ Unmarshal E 0 s t (VPtr (Some v)) = Ok (VPtr (Some (VArray [VInt 7; VInt 2])), None).
Proof. exact C42_array_refuted_lem. Qed.
Print Assumptions C42_array_refuted.
(* int8 from 300 *)
Theorem C42_range_refuted : exists E s t e v z, wf_types E /\ embeds_structs E /\ target E t e /\ strict E decodeOptions e /\ kindOf E e = Some (KInt 8) /\ typed E e v /\ begins s (JNum (str "300")) /\
  int_of (str "300") z /\ (2 ^ 7 <= z)%Z /\ Unmarshal E 0 s t (VPtr (Some v)) = Ok (VPtr (Some (VInt 44)), None).
Proof. exact C42_range_refuted_lem. Qed.
Print Assumptions C42_range_refuted.
(* int8 from 1] *)
Theorem C42_rest_refuted : exists E s t e v, wf_types E /\ embeds_structs E /\ target E t e /\ strict E decodeOptions e /\ typed E e v /\ (forall j, ~ rfc_value j s) /\
  Unmarshal E 0 s t (VPtr (Some v)) = Ok (VPtr (Some (VInt 1)), None).
Proof. exact C42_rest_refuted_lem. Qed.
Print Assumptions C42_rest_refuted.

(* ---- C43 ---- *)

(* For every input, Unmarshal into a value decoded by kind, with no maps, no defined interface types and no fields
   embedded through pointers, returns and leaves a value of the type; if the value in the text fits, it is stored
   whole.  Missing: those three, nil targets, pointer types that loop and types with unmarshaler methods; it is false
   of the first five. *)
Theorem C43_partial : forall E rev s t e v, wf_types E -> embeds_structs E -> target E t e -> ~ hazard E decodeOptions e -> typed E e v ->
  exists v' err, Unmarshal E rev s t (VPtr (Some v)) = Ok (VPtr (Some v'), err) /\ typed E e v' /\
    forall j, begins s j -> ~ mismatch E decodeOptions e j -> err = None /\ stored E decodeOptions e v j v'.
Proof. exact C43_lem. Qed.
Print Assumptions C43_partial.
Theorem C43_node_partial : forall E w n t e v j, wf_types E -> embeds_structs E -> target E t e -> ~ hazard E decodeOptions e -> typed E e v -> tree_of w n j ->
  exists v' err, UnmarshalFromNode E w n t (VPtr (Some v)) = Ok (VPtr (Some v'), err) /\ typed E e v' /\ (~ mismatch E decodeOptions e j -> err = None /\ stored E decodeOptions e v j v').
Proof. exact C43_node_lem. Qed.
Print Assumptions C43_node_partial.
Example C43_example : wf_types decE /\ embeds_structs decE /\ target decE 9 8 /\ ~ hazard decE decodeOptions 8 /\ typed decE 8 z8 /\ begins in43 tree43 /\
  Unmarshal decE 5 in43 9 (VPtr (Some z8)) = Ok (VPtr (Some out43), None) /\ exists err, Unmarshal decE 5 (str "{""N"":") 9 (VPtr (Some z8)) = Ok (VPtr (Some z8), Some err).
Proof. exact ex43_lem. Qed.
(* Into a map that is not nil. *)
Theorem C43_map_partial : forall E w n t s e m j, wf_types E -> embeds_structs E -> target E t s -> kindOf E s = Some (KMap tString e) -> ~ hazard E decodeOptions e -> typed E s (VMap (Some m)) -> tree_of w n j ->
  exists v' err, UnmarshalFromNode E w n t (VPtr (Some (VMap (Some m)))) = Ok (VPtr (Some v'), err) /\ typed E s v' /\
    (~ mismatch E decodeOptions s j -> err = None /\ stored E decodeOptions s (VMap (Some m)) j v').
Proof. exact C43_map_lem. Qed.
Print Assumptions C43_map_partial.
Example C43_map_example : wf_types decE /\ embeds_structs decE /\ target decE 13 12 /\ kindOf decE 12 = Some (KMap tString 7) /\ ~ hazard decE decodeOptions 7 /\ typed decE 12 (VMap (Some [(VString (str "a"), VInt 1)])) /\
  tree_of (worldOf (str "{""b"":2,""a"":3}")) (nodeOf (str "{""b"":2,""a"":3}")) (JObj [(str "b", JNum (str "2")); (str "a", JNum (str "3"))]) /\
  UnmarshalFromNode decE (worldOf (str "{""b"":2,""a"":3}")) (nodeOf (str "{""b"":2,""a"":3}")) 13 (VPtr (Some (VMap (Some [(VString (str "a"), VInt 1)])))) =
    Ok (VPtr (Some (VMap (Some [(VString (str "a"), VInt 3); (VString (str "b"), VInt 2)]))), None).
Proof. exact ex43_map. Qed.
(* A nil map. *)
Theorem C43_refuted : exists E s t e v, wf_types E /\ embeds_structs E /\ target E t e /\ typed E e v /\ begins s (JObj [(str "a", JNum (str "1"))]) /\ ~ mismatch E decodeOptions e (JObj [(str "a", JNum (str "1"))]) /\
  Unmarshal E 0 s t (VPtr (Some v)) = Panic.
Proof. exact C43_refuted_lem. Qed.
Print Assumptions C43_refuted.
(* struct{*T; B bool} with a nil *T: a member for a field of T is lost. *)
Theorem C43_lost_refuted : exists E s t e v cs c, wf_types E /\ embeds_structs E /\ typed E e v /\ kindOf E t = Some (KPtr e) /\ structFields E decodeOptions e = Ok cs /\ field_for cs (str "A") c /\
  begins s (JObj [(str "A", JNum (str "1"))]) /\ Unmarshal E 0 s t (VPtr (Some v)) = Ok (VPtr (Some v), None).
Proof. exact C43_lost_refuted_lem. Qed.
Print Assumptions C43_lost_refuted.
(* type S string; a map[S]int8 that is not nil.  type I interface{}. *)
Theorem C43_named_refuted : exists E t e v t' e' v', wf_types E /\ embeds_structs E /\ target E t e /\ target E t' e' /\ typed E e (VMap (Some v)) /\ typed E e' v' /\
  Unmarshal E 0 (str "{""a"":1}") t (VPtr (Some (VMap (Some v)))) = Panic /\ Unmarshal E 0 (str "1") t' (VPtr (Some v')) = Panic.
Proof. exact C43_named_refuted_lem. Qed.
Print Assumptions C43_named_refuted.
(* A nil *int8 as the target. *)
Theorem C43_nil_refuted : exists E t e, wf_types E /\ embeds_structs E /\ target E t e /\ ~ hazard E decodeOptions e /\ typed E t (VPtr None) /\ Unmarshal E 0 (str "1") t (VPtr None) = Panic.
Proof. exact C43_nil_refuted_lem. Qed.
Print Assumptions C43_nil_refuted.
(* type P *P: no number of steps is enough. *)
Theorem C43_loop_refuted : exists E t, wf_types E /\ kindOf E t = Some (KPtr t) /\ typed E t (VPtr None) /\ exists o G, newCodec E decodeOptions (IDec t) = Ok (Some (o, G)) /\
  forall fuel w n, decode fuel E G w o (VPtr None) n = Diverge \/ Node_Type w n = TypeNull.
Proof. exact C43_loop_refuted_lem. Qed.
Print Assumptions C43_loop_refuted.
