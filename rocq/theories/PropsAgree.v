(* Property C72: the generated AppendJSON and Marshal.  Only statements, each closed by [exact]. *)
From Coq Require Import Permutation.
From Verif Require Import FloatSpec NumSpec FmtSpec Bytes Types JsonSpec Parser Doc DocSpec Strjson Float Num Iface IfaceSpec Options Codec CodecSpec DecodeSpec RoundSpec TreeSpec Gen GenSpec GenExamples AgreeSpec AgreeThms AgreeExamples.
Local Open Scope nat_scope.

(* What a generated method writes (C61) and what Marshal writes (C69) is the same, up to the order of members.  Missing:
   types with methods, fields with the hints html or 8bit, omitempty on structs, maps, and the values that the refuted
   statements below are about. *)
Theorem C72_trees_partial : forall E G M t v j j', paths_ok E M -> no_methods E G M t -> same_fields E G M t -> typed E t v -> agreeable E G M v -> shown E G M t v j -> top_tree E t v j' -> same j j'.
Proof. exact C72_lem. Qed.
Print Assumptions C72_trees_partial.
(* Both find the same fields in a struct that embeds none. *)
Theorem C72_fields_partial : forall E G M u fs cs gs, kindOf E u = Some (KStruct fs) -> lists 0 fs (fieldsOf M u) -> Forall (tidy E) fs -> usual G fs -> distinct G (fieldsOf M u) ->
  struct_fields E defaultOptions u cs -> in_order G (fieldsOf M u) gs -> alike_all E cs gs.
Proof. exact C72_fields_lem. Qed.
Print Assumptions C72_fields_partial.
(* The texts. *)
Theorem C72_partial : forall E G M t c v out out' res, wf_types E -> paths_ok E M -> ftoa_spec (ftoa E) -> walks_maps E -> methods_return E -> methods_write_json E -> embeds_structs E -> tags_json E defaultOptions ->
  names_json E G M t -> plain_keys E G M t -> no_methods E G M t -> same_fields E G M t -> typed E t v -> finite_floats v -> floats_json v -> top_ok E t v -> tops_ok E v -> agreeable E G M v ->
  Appender E G M t = Ok (Some c) -> compilesAppender M t c = true -> AppendJSON E out' (Some (t, v)) = Ok (res, None) ->
  exists w w' j j', runAppender E c out (Some v) = Ok (out ++ w, None) /\ res = out' ++ w' /\ rfc_value j w /\ rfc_value j' w' /\ same j j'.
Proof. exact C72_out_lem. Qed.
Print Assumptions C72_partial.
(* struct{ID int64; Name string "omitempty"; Tags []string; P, Q *struct{X int64; B bool}, Q with omitempty; secret int64} *)
Example C72_example : (wf_types agE /\ paths_ok agE agM /\ ftoa_spec (ftoa agE) /\ walks_maps agE /\ methods_return agE /\ methods_write_json agE /\ embeds_structs agE /\ tags_json agE defaultOptions) /\
  names_json agE genG agM 10 /\ plain_keys agE genG agM 10 /\ no_methods agE genG agM 10 /\ same_fields agE genG agM 10 /\ typed agE 10 v72 /\ (finite_floats v72 /\ floats_json v72 /\ tops_ok agE v72) /\ top_ok agE 10 v72 /\ agreeable agE genG agM v72 /\
  AppendJSON agE [] (Some (10, v72)) = Ok (str "{""id"":-3,""tags"":[""a\""b""],""p"":{""x"":1,""b"":true}}", None) /\
  exists c, Appender agE genG agM 10 = Ok (Some c) /\ compilesAppender agM 10 c = true /\ runAppender agE c [] (Some v72) = Ok (str "{""id"":-3,""p"":{""b"":true,""x"":1},""tags"":[""a\""b""]}", None).
Proof. exact ex72_lem. Qed.
Example C72_fields_example : kindOf agE 10 = Some (KStruct fs10) /\ lists 0 fs10 (fieldsOf agM 10) /\ Forall (tidy agE) fs10 /\ usual genG fs10 /\ distinct genG (fieldsOf agM 10).
Proof. exact ex72_fields. Qed.
(* refuted: the same without [agreeable].  A nil pointer is left out by one and null for the other. *)
Theorem C72_nil_refuted : exists E G M t v w w' c, (wf_types E /\ paths_ok E M /\ ftoa_spec (ftoa E) /\ walks_maps E /\ methods_return E /\ methods_write_json E /\ embeds_structs E /\ tags_json E defaultOptions) /\
  names_json E G M t /\ plain_keys E G M t /\ no_methods E G M t /\ same_fields E G M t /\ typed E t v /\ (finite_floats v /\ floats_json v /\ tops_ok E v) /\ top_ok E t v /\ v = VStruct [VPtr None] /\
  Appender E G M t = Ok (Some c) /\ compilesAppender M t c = true /\ runAppender E c [] (Some v) = Ok (w, None) /\ AppendJSON E [] (Some (t, v)) = Ok (w', None) /\
  forall j j', rfc_value j w -> rfc_value j' w' -> ~ same j j'.
Proof. exact C72_nil_lem. Qed.
Print Assumptions C72_nil_refuted.
(* Marshal rounds a float64 to a float32. *)
Theorem C72_float_refuted : exists E G M t v w w' c, (wf_types E /\ paths_ok E M /\ ftoa_spec (ftoa E) /\ walks_maps E /\ methods_return E /\ methods_write_json E /\ embeds_structs E /\ tags_json E defaultOptions) /\
  names_json E G M t /\ plain_keys E G M t /\ no_methods E G M t /\ same_fields E G M t /\ typed E t v /\ (finite_floats v /\ floats_json v /\ tops_ok E v) /\ top_ok E t v /\ (exists f, v = VStruct [VFloat f]) /\
  Appender E G M t = Ok (Some c) /\ compilesAppender M t c = true /\ runAppender E c [] (Some v) = Ok (w, None) /\ AppendJSON E [] (Some (t, v)) = Ok (w', None) /\
  forall j j', rfc_value j w -> rfc_value j' w' -> ~ same j j'.
Proof. exact C72_float_lem. Qed.
Print Assumptions C72_float_refuted.
(* Marshal returns an error for a map with integer keys, which the generated code writes. *)
Example C72_map_example : AppendJSON agE [] (Some (13, VStruct [VMap (Some [(VInt 1, VBool true)])])) = Ok ([], Some UInvalidType) /\
  exists c, Appender agE genG agM 13 = Ok (Some c) /\ compilesAppender agM 13 c = true /\ runAppender agE c [] (Some (VStruct [VMap (Some [(VInt 1, VBool true)])])) = Ok (str "{""m"":{""1"":true}}", None).
Proof. exact ex72_map. Qed.
