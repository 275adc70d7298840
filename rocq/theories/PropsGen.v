(* C60 to C63: theorems and examples. *)
From Coq Require Import Permutation.
From Verif Require Import FmtSpec Bytes Types JsonSpec Parser Doc DocSpec Num Iface IfaceSpec Options Codec CodecSpec CodecExamples DecodeSpec DecodeExamples Gen GenSpec GenMake GenMakeU GenApp GenDec GenOrder GenExamples GenRound GenRoundEx GenFields.
Local Open Scope nat_scope.

(* ---- C60: the generator makes code, and code that compiles, for exactly these types ---- *)
(* What counts as code that compiles is said in Gen.v at compilesA and compilesU, and for names in GoLit.v.  It leaves out
   names with a carriage return, which Go drops from a raw string: the code for them compiles, and never reads the field. *)

(* The fields that take part are those that the options and the tags say, for all options; the order of tags is that of
   their bytes. *)
Theorem C60_fields : forall G f name params, parseVar G f = Some (name, params) <-> field_part G f name params.
Proof. exact C60_fields_lem. Qed.
Print Assumptions C60_fields.
Theorem C60_order : forall a b, less a b = true <-> before a b.
Proof. exact C60_order_lem. Qed.
Print Assumptions C60_order.
Theorem C60_words : omitEmpty = str "omitempty" /\ rawParam = str "raw" /\ forall p ps, Gen.has p ps = true <-> In p ps.
Proof. exact C60_words_lem. Qed.
Print Assumptions C60_words.
Example C60_fields_example :
  let G tagged force := mkG (str "json") [] true tagged force (fun _ => true) (fun n => n) in
  let f exported tag := mkMF (str "Name") exported [0%Z] 0 [] (fun k => if bseqb k (str "json") then tag else None) in
  parseVar (G false true) (f true (Some (str ",raw"))) = Some (str "Name", [str "raw"; str "omitempty"]) /\ parseVar (G true false) (f true (Some (str "n,raw"))) = Some (str "n", [str "raw"]) /\
  parseVar (G true false) (f true None) = None /\ parseVar (G false false) (f false (Some (str "n"))) = None /\ parseVar (G false false) (f true (Some (str "-,x"))) = None /\
  less (str "a,") (str "ab") = true /\ less (str "a") (str "a") = false.
Proof. repeat split; vm_compute; reflexivity. Qed.

(* It never returns for a type that is made of itself, as the recursion has no end; for any other it returns, with an
   error exactly if the type is made of one that cannot be written. *)
Theorem C60_append : forall E G M, wf_types E -> paths_ok E M -> forall t, t < length (types E) ->
  (loops (needs_t E G M) t -> forall fuel raw, typeAppender fuel E G M t raw = Diverge) /\
  (~ loops (needs_t E G M) t -> exists r, Appender E G M t = Ok r /\ (r = None <-> exists p, star (needs E G M) (t, false) p /\ codeless E G M p)).
Proof. exact C60_lem. Qed.
Print Assumptions C60_append.
Example C60_append_example : wf_types genE /\ paths_ok genE genM /\ loops (needs_t genE genG genM) 17 /\ Appender genE genG genM 17 = Diverge /\
  ~ loops (needs_t genE genG genM) 10 /\ (exists c, Appender genE genG genM 10 = Ok (Some c) /\ compilesAppender genM 10 c = true) /\
  ~ loops (needs_t genE genG genM) 16 /\ Appender genE genG genM 16 = Ok None /\ Appender genE genG genM 40 = Ok None.
Proof. exact ex60_lem. Qed.
(* The method compiles exactly if each of the types it is made of is written by code that Go accepts. *)
Theorem C60_append_compiles : forall E G M, wf_types E -> paths_ok E M -> forall t c, t < length (types E) -> Appender E G M t = Ok (Some c) ->
  (compilesAppender M t c = true <->
   hasAppend M t = false /\
   (forall T, typeOf E t = Some T -> no_marshaler (tmeth T) -> exists fs, tkind T = KStruct fs) /\
   (forall p, star (needs E G M) (t, false) p -> correct_go E G M p)).
Proof. exact C60_compiles_lem. Qed.
Print Assumptions C60_append_compiles.
(* A struct with a field of a string type other than string: the generator reports no error, and the code is wrong. *)
Theorem C60_append_refuted : exists E G M t c, wf_types E /\ paths_ok E M /\ (exists fs, kindOf E t = Some (KStruct fs)) /\ Appender E G M t = Ok (Some c) /\ compilesAppender M t c = false.
Proof. exact C60_refuted_lem. Qed.
Print Assumptions C60_append_refuted.
(* Fields of a string type, a pointer to an int, struct{}, interface{}; types that are not structs. *)
Example C60_append_refuted_example : Forall (fun t => exists c, Appender genE genG genM t = Ok (Some c) /\ compilesAppender genM t c = false) [20; 22; 24; 27; 6; 7].
Proof. exact ex60_wrong. Qed.

(* The same for the methods that read; here the generator may return an error for a type that is made of itself. *)
Theorem C60_unmarshal : forall E G M, wf_types E -> paths_ok E M -> no_point_loop E -> forall t, t < length (types E) ->
  (loops (needs_u E G M) t -> forall fuel c, typeUnmarshaler fuel E G M t <> Ok (Some c)) /\
  (~ loops (needs_u E G M) t -> exists r, Unmarshaler E G M t = Ok r /\ (r = None <-> exists u, star (needs_u E G M) t u /\ codeless_u E M u)).
Proof. exact C60_unmarshal_lem. Qed.
Print Assumptions C60_unmarshal.
Example C60_unmarshal_example : wf_types genE /\ paths_ok genE genM /\ no_point_loop genE /\ loops (needs_u genE genG genM) 17 /\ Unmarshaler genE genG genM 17 = Diverge /\
  ~ loops (needs_u genE genG genM) 38 /\ (exists c, Unmarshaler genE genG genM 38 = Ok (Some c) /\ compilesUnmarshaler genM 38 c = true) /\ Unmarshaler genE genG genM 15 = Ok None.
Proof. exact ex60_u_lem. Qed.
Theorem C60_unmarshal_compiles : forall E G M, wf_types E -> paths_ok E M -> no_point_loop E -> forall t c, t < length (types E) -> Unmarshaler E G M t = Ok (Some c) ->
  (compilesUnmarshaler M t c = true <->
   hasUnmarshal M t = false /\
   ~ idle E G M t /\
   (forall T e, typeOf E t = Some T -> by_kind_u M t T -> tkind T <> KPtr e) /\
   (forall u, star (needs_u E G M) t u -> correct_go_u E G M u)).
Proof. exact C60_compiles_u_lem. Qed.
Print Assumptions C60_unmarshal_compiles.
(* A struct with a field that has a method UnmarshalNodeJSON, such as another struct with generated methods. *)
Theorem C60_unmarshal_refuted : exists E G M t c, wf_types E /\ paths_ok E M /\ no_point_loop E /\ (exists fs, kindOf E t = Some (KStruct fs)) /\ Unmarshaler E G M t = Ok (Some c) /\ compilesUnmarshaler M t c = false.
Proof. exact C60_refuted_u_lem. Qed.
Print Assumptions C60_unmarshal_refuted.
(* Also fields of types interface{}, time.Duration, map[int64]bool; structs with no field that is read; a pointer. *)
Example C60_unmarshal_refuted_example : Forall (fun t => exists c, Unmarshaler genE genG genM t = Ok (Some c) /\ compilesUnmarshaler genM t c = false) [26; 27; 29; 12; 16; 23; 21].
Proof. exact ex60_wrong_u. Qed.

(* The generator walks the fields of a struct in the order of a Go map, which varies from run to run.  If no two fields
   of a struct have the same tag, the code that writes is the same in each run. *)
Theorem C60_stable : forall E G M M' t, (forall u, Permutation (fieldsOf M u) (fieldsOf M' u)) -> (forall u raw, star (needs E G M) (t, false) (u, raw) -> NoDup (map mtag (fieldsOf M u))) ->
  Appender E G M t = Appender E G M' t.
Proof. exact C60_stable_lem. Qed.
Print Assumptions C60_stable.
Example C60_stable_example : (forall u, Permutation (fieldsOf genM u) (fieldsOf genM' u)) /\ (forall u raw, star (needs genE genG genM) (10, false) (u, raw) -> NoDup (map mtag (fieldsOf genM u))) /\
  fieldsOf genM 10 <> fieldsOf genM' 10 /\ exists c, Appender genE genG genM 10 = Ok (Some c) /\ Appender genE genG genM' 10 = Ok (Some c).
Proof. exact ex60_stable_lem. Qed.
(* Fields with no tag, or the same: another run writes the members in another order, or reads a member into another field. *)
Theorem C60_stable_refuted : exists E G M M' t c c', (forall u, Permutation (fieldsOf M u) (fieldsOf M' u)) /\ Appender E G M t = Ok (Some c) /\ Appender E G M' t = Ok (Some c') /\
  compilesAppender M t c = true /\ compilesAppender M' t c' = true /\ exists v, typed E t v /\ runAppender E c [] (Some v) <> runAppender E c' [] (Some v).
Proof. exact C60_stable_refuted_lem. Qed.
Print Assumptions C60_stable_refuted.
Theorem C60_reads_refuted : exists E G M M' t c c', (forall u, Permutation (fieldsOf M u) (fieldsOf M' u)) /\ Unmarshaler E G M t = Ok (Some c) /\ Unmarshaler E G M' t = Ok (Some c') /\
  compilesUnmarshaler M t c = true /\ compilesUnmarshaler M' t c' = true /\ exists s v, typed E t v /\ runUnmarshaler E M (worldOf s) c v (nodeOf s) <> runUnmarshaler E M' (worldOf s) c' v (nodeOf s).
Proof. exact C60_reads_refuted_lem. Qed.
Print Assumptions C60_reads_refuted.

(* ---- C61: a generated AppendJSON appends one JSON text of the value, or returns the error of a method ---- *)

(* Missing from the full statement: fields tagged raw, names that need escapes or have a backslash, maps with keys that are
   not integers or booleans, floats that are not finite, types that have a method AppendJSON before. *)
Theorem C61_partial : forall E G M t c v out, wf_types E -> paths_ok E M -> ftoa_spec (ftoa E) -> walks_maps E -> methods_return E -> methods_write_json E ->
  names_json E G M t -> plain_keys E G M t -> typed E t v -> finite_floats v -> Appender E G M t = Ok (Some c) -> compilesAppender M t c = true ->
  (forall T, typeOf E t = Some T -> isAppender (tmeth T) = false) ->
  (exists out' e, runAppender E c out (Some v) = Ok (out', Some e) /\ method_error E G M t v e) \/
  exists w j, runAppender E c out (Some v) = Ok (out ++ w, None) /\ rfc_value j w /\ shown E G M t v j.
Proof. exact C61_lem. Qed.
Print Assumptions C61_partial.
Example C61_example : wf_types genE /\ paths_ok genE genM /\ ftoa_spec (ftoa genE) /\ walks_maps genE /\ methods_return genE /\ methods_write_json genE /\
  (names_json genE genG genM 10 /\ plain_keys genE genG genM 10 /\ typed genE 10 v61 /\ finite_floats v61 /\
    exists c, Appender genE genG genM 10 = Ok (Some c) /\ compilesAppender genM 10 c = true /\ runAppender genE c (str "x=") (Some v61) = Ok (str "x=" ++ out61, None)) /\
  (names_json genE genG genM 12 /\ plain_keys genE genG genM 12 /\ typed genE 12 v12 /\ finite_floats v12 /\
    exists c, Appender genE genG genM 12 = Ok (Some c) /\ compilesAppender genM 12 c = true /\ runAppender genE c [] (Some v12) = Ok (str "{""m"":{""-1"":true,""2"":false}}", None)).
Proof. exact ex61_lem. Qed.
(* A map with keys of type string: the keys are quoted twice. *)
Theorem C61_keys_refuted : exists E G M t c v out, wf_types E /\ paths_ok E M /\ ftoa_spec (ftoa E) /\ walks_maps E /\ methods_return E /\ methods_write_json E /\ names_json E G M t /\ typed E t v /\ finite_floats v /\
  Appender E G M t = Ok (Some c) /\ compilesAppender M t c = true /\ runAppender E c [] (Some v) = Ok (out, None) /\ forall j, ~ rfc_value j out.
Proof. exact C61_keys_refuted_lem. Qed.
Print Assumptions C61_keys_refuted.
Theorem C61_floats_refuted : exists E G M t c v out, wf_types E /\ paths_ok E M /\ ftoa_spec (ftoa E) /\ walks_maps E /\ methods_return E /\ methods_write_json E /\ names_json E G M t /\ plain_keys E G M t /\ typed E t v /\
  Appender E G M t = Ok (Some c) /\ compilesAppender M t c = true /\ runAppender E c [] (Some v) = Ok (out, None) /\ forall j, ~ rfc_value j out.
Proof. exact C61_floats_refuted_lem. Qed.
Print Assumptions C61_floats_refuted.
(* A tag with the name a\tb: the code has it between quotes, and writes a tab. *)
Theorem C61_names_refuted : exists E G M t c v out, wf_types E /\ paths_ok E M /\ ftoa_spec (ftoa E) /\ walks_maps E /\ methods_return E /\ methods_write_json E /\ plain_keys E G M t /\ typed E t v /\ finite_floats v /\
  (forall u raw fs name params f, star (needs E G M) (t, false) (u, raw) -> raw = false /\ (kindOf E u = Some (KStruct fs) -> leads G (fieldsOf M u) name params f -> rfc_chars name)) /\
  Appender E G M t = Ok (Some c) /\ compilesAppender M t c = true /\ runAppender E c [] (Some v) = Ok (out, None) /\ forall j, ~ rfc_value j out.
Proof. exact C61_names_refuted_lem. Qed.
Print Assumptions C61_names_refuted.
(* A struct that embeds a type with a method AppendJSON: the generated method takes its place, calls v.AppendJSON, and so
   itself, without end. *)
Theorem C61_self_refuted : exists E G M t c v, wf_types E /\ paths_ok E M /\ ftoa_spec (ftoa E) /\ walks_maps E /\ methods_return E /\ methods_write_json E /\ names_json E G M t /\ plain_keys E G M t /\ typed E t v /\ finite_floats v /\
  Appender E G M t = Ok (Some c) /\ compilesAppender M t c = true /\ forall out, runAppender E c out (Some v) = Diverge.
Proof. exact C61_self_refuted_lem. Qed.
Print Assumptions C61_self_refuted.
(* A pointer to a pointer to struct{}: the only code for pointers to pointers that compiles. *)
Example C61_hollow_example : exists c, Appender genE genG genM 43 = Ok (Some c) /\ compilesAppender genM 43 c = true /\ runAppender genE c [] (Some (VStruct [VPtr (Some (VPtr (Some (VStruct []))))])) = Ok (str "{""p"":{}}", None).
Proof. exact ex61_hollow. Qed.
(* A nil receiver writes null. *)
Theorem C61_nil : forall E c out, runAppender E c out None = Ok (out ++ str "null", None).
Proof. exact C61_nil_lem. Qed.
Print Assumptions C61_nil.

(* ---- C62: a generated UnmarshalNodeJSON stores the tree of the node, or returns an error that some part of it causes ---- *)

Theorem C62_reads : forall E G M w t c v n j, wf_types E -> paths_ok E M -> no_point_loop E -> unmarshalers_return E M ->
  typed E t v -> tree_of w n j -> Unmarshaler E G M t = Ok (Some c) -> compilesUnmarshaler M t c = true ->
  exists v' err, runUnmarshaler E M w c v n = Ok (v', err) /\ typed E t v' /\
    match j with
    | JNull => v' = v /\ err = None
    | _ => match err with None => filled E G M t v j v' | Some e => refused E G M t j e end
    end.
Proof. exact C62_lem. Qed.
Print Assumptions C62_reads.
(* If the types are read by their kinds, it returns no error exactly if no part of the tree is refused. *)
Theorem C62_exact : forall E G M w t c v n j, wf_types E -> paths_ok E M -> no_point_loop E -> unmarshalers_return E M -> read_by_kind E G M t ->
  typed E t v -> tree_of w n j -> j <> JNull -> Unmarshaler E G M t = Ok (Some c) -> compilesUnmarshaler M t c = true ->
  exists v' err, runUnmarshaler E M w c v n = Ok (v', err) /\ (err = None <-> filled E G M t v j v') /\ (err = None <-> forall e, ~ refused E G M t j e).
Proof. exact C62_sharp_lem. Qed.
Print Assumptions C62_exact.
Example C62_example : wf_types genE /\ paths_ok genE genM /\ no_point_loop genE /\ unmarshalers_return genE genM /\
  (read_by_kind genE genG genM 38 /\ typed genE 38 v38 /\ tree_of (worldOf doc38) (nodeOf doc38) tree38 /\ exists c, Unmarshaler genE genG genM 38 = Ok (Some c) /\ compilesUnmarshaler genM 38 c = true /\
    runUnmarshaler genE genM (worldOf doc38) c v38 (nodeOf doc38) = Ok (w38, None)) /\
  (typed genE 30 (VStruct [VPtr None; VInt 0]) /\ tree_of (worldOf doc30) (nodeOf doc30) tree30 /\ exists c, Unmarshaler genE genG genM 30 = Ok (Some c) /\ compilesUnmarshaler genM 30 c = true /\
    runUnmarshaler genE genM (worldOf doc30) c (VStruct [VPtr None; VInt 0]) (nodeOf doc30) = Ok (VStruct [VPtr (Some (VStruct [VInt 4; VFloat zeroF])); VInt (-1)], None)) /\
  (typed genE 35 (VStruct [VStruct [VInt 0]; VInt 0]) /\ tree_of (worldOf doc35) (nodeOf doc35) tree35 /\ exists c, Unmarshaler genE genG genM 35 = Ok (Some c) /\ compilesUnmarshaler genM 35 c = true /\
    runUnmarshaler genE genM (worldOf doc35) c (VStruct [VStruct [VInt 0]; VInt 0]) (nodeOf doc35) = Ok (VStruct [VStruct [VInt 1]; VInt 7], None)).
Proof. exact ex62_lem. Qed.
Example C62_keys_example : exists c, Unmarshaler genE genG genM 45 = Ok (Some c) /\ compilesUnmarshaler genM 45 c = true /\
  typed genE 45 (VStruct [VMap (Some [(VIface (Some (6, VInt 1)), VInt 2); (VIface (Some (tString, VString (str "a"))), VInt 3)])]) /\
  let doc := str "{""m"":{""a"":4,""b"":5}}" in
  runUnmarshaler genE genM (worldOf doc) c (VStruct [VMap (Some [(VIface (Some (6, VInt 1)), VInt 2); (VIface (Some (tString, VString (str "a"))), VInt 3)])]) (nodeOf doc) =
    Ok (VStruct [VMap (Some [(VIface (Some (6, VInt 1)), VInt 2); (VIface (Some (tString, VString (str "a"))), VInt 4); (VIface (Some (tString, VString (str "b"))), VInt 5)])], None).
Proof. exact ex62_keys. Qed.
(* A node that is not valid any more. *)
Theorem C62_dead : forall E M w c v n, Node_get w n = None -> runUnmarshaler E M w c v n = Ok (v, Some (UType (TypeErr TypeInvalid TypeAnyValue))).
Proof. exact C62_dead_lem. Qed.
Print Assumptions C62_dead.
Example C62_dead_example : Node_get (worldOf doc38) (mkN 0 99 (Some 0)) = None.
Proof. reflexivity. Qed.
(* A slice that has to grow gets more elements than the array. *)
Theorem C62_length_refuted : exists E G M w t c v n js l s, wf_types E /\ paths_ok E M /\ no_point_loop E /\ unmarshalers_return E M /\ read_by_kind E G M t /\ typed E t v /\ tree_of w n (JArr js) /\
  Unmarshaler E G M t = Ok (Some c) /\ compilesUnmarshaler M t c = true /\ runUnmarshaler E M w c v n = Ok (VSlice (Some (l, s)), None) /\ length l <> length js.
Proof. exact C62_length_refuted_lem. Qed.
Print Assumptions C62_length_refuted.
(* An object in place of a string stores the empty string. *)
Theorem C62_string_refuted : exists E G M w t c n ms, wf_types E /\ paths_ok E M /\ no_point_loop E /\ unmarshalers_return E M /\ read_by_kind E G M t /\ kindOf E t = Some KString /\ tree_of w n (JObj ms) /\
  Unmarshaler E G M t = Ok (Some c) /\ compilesUnmarshaler M t c = true /\ forall s, runUnmarshaler E M w c (VString s) n = Ok (VString [], None).
Proof. exact C62_string_refuted_lem. Qed.
Print Assumptions C62_string_refuted.
(* null is nothing at the top, but an error as the member of a struct that is a struct. *)
Theorem C62_null_refuted : exists E G M w t c v n name, wf_types E /\ paths_ok E M /\ no_point_loop E /\ unmarshalers_return E M /\ read_by_kind E G M t /\ typed E t v /\ tree_of w n (JObj [(name, JNull)]) /\
  Unmarshaler E G M t = Ok (Some c) /\ compilesUnmarshaler M t c = true /\ exists e, runUnmarshaler E M w c v n = Ok (v, Some e).
Proof. exact C62_null_refuted_lem. Qed.
Print Assumptions C62_null_refuted.

(* ---- C63: the generated methods undo each other ---- *)

(* What the method AppendJSON made for a struct writes for a value is one document for the parser, with nothing after it;
   and the method UnmarshalNodeJSON made for the same struct reads it into a blank value without an error, and gives a
   value that agrees with the first.  The two methods may be made in different runs of the generator. *)
Theorem C63_partial : forall E G M M' t fs ca cu v z out, wf_types E -> paths_ok E M -> paths_ok E M' -> no_point_loop E -> ftoa_spec (ftoa E) -> walks_maps E -> methods_return E -> unmarshalers_return E M' ->
  names_json E G M t -> paired E G M M' t -> written_kind E t (KStruct fs) -> typed E t v -> gsurvives E G M M' t v -> blank E t z ->
  Appender E G M t = Ok (Some ca) -> compilesAppender M t ca = true -> Unmarshaler E G M' t = Ok (Some cu) -> compilesUnmarshaler M' t cu = true ->
  exists w, runAppender E ca out (Some v) = Ok (out ++ w, None) /\ forall W0 r, r < length W0 ->
    exists W' n v', Document_Parse W0 r w = Ok (W', (n, [], None)) /\ runUnmarshaler E M' W' cu z n = Ok (v', None) /\ gagree E G M t v v'.
Proof. exact C63_lem. Qed.
Print Assumptions C63_partial.
Example C63_example : wf_types rtE /\ paths_ok rtE rtM /\ paths_ok rtE rtM' /\ no_point_loop rtE /\ ftoa_spec (ftoa rtE) /\ walks_maps rtE /\ methods_return rtE /\ unmarshalers_return rtE rtM' /\
  names_json rtE genG rtM 13 /\ paired rtE genG rtM rtM' 13 /\ (exists fs, written_kind rtE 13 (KStruct fs)) /\ typed rtE 13 v13 /\ gsurvives rtE genG rtM rtM' 13 v13 /\ blank rtE 13 z13 /\
  exists ca cu, Appender rtE genG rtM 13 = Ok (Some ca) /\ compilesAppender rtM 13 ca = true /\ Unmarshaler rtE genG rtM' 13 = Ok (Some cu) /\ compilesUnmarshaler rtM' 13 cu = true /\
    runAppender rtE ca [] (Some v13) = Ok (out13, None) /\
    exists v', runUnmarshaler rtE rtM' (worldOf out13) cu z13 (nodeOf out13) = Ok (v', None) /\ v' = VStruct [VPtr (Some (VStruct [VInt 5; VFloat two])); VInt 7; v10; VSlice (Some ([VPtr None; VPtr (Some (VStruct [VInt 6; VFloat two]))], []))].
Proof. exact ex63_lem. Qed.
(* An int64 that is no float64 value comes back as another. *)
Theorem C63_values_refuted : exists E G M M' t fs ca cu v z w, wf_types E /\ paths_ok E M /\ paths_ok E M' /\ no_point_loop E /\ ftoa_spec (ftoa E) /\ walks_maps E /\ methods_return E /\ unmarshalers_return E M' /\
  names_json E G M t /\ paired E G M M' t /\ written_kind E t (KStruct fs) /\ typed E t v /\ blank E t z /\
  Appender E G M t = Ok (Some ca) /\ compilesAppender M t ca = true /\ Unmarshaler E G M' t = Ok (Some cu) /\ compilesUnmarshaler M' t cu = true /\ runAppender E ca [] (Some v) = Ok (w, None) /\
  exists W n v', Document_Parse [mkDoc [] 0%N] 0 w = Ok (W, (n, [], None)) /\ runUnmarshaler E M' W cu z n = Ok (v', None) /\ ~ gagree E G M t v v'.
Proof. exact C63_values_refuted_lem. Qed.
Print Assumptions C63_values_refuted.
(* A field that is a pointer to an empty struct is written and not read. *)
Theorem C63_paired_refuted : exists E G M M' t fs ca cu v z w, wf_types E /\ paths_ok E M /\ paths_ok E M' /\ no_point_loop E /\ ftoa_spec (ftoa E) /\ walks_maps E /\ methods_return E /\ unmarshalers_return E M' /\
  names_json E G M t /\ written_kind E t (KStruct fs) /\ typed E t v /\ gsurvives E G M M' t v /\ blank E t z /\
  Appender E G M t = Ok (Some ca) /\ compilesAppender M t ca = true /\ Unmarshaler E G M' t = Ok (Some cu) /\ compilesUnmarshaler M' t cu = true /\ runAppender E ca [] (Some v) = Ok (w, None) /\
  exists W n v', Document_Parse [mkDoc [] 0%N] 0 w = Ok (W, (n, [], None)) /\ runUnmarshaler E M' W cu z n = Ok (v', None) /\ ~ gagree E G M t v v'.
Proof. exact C63_paired_refuted_lem. Qed.
Print Assumptions C63_paired_refuted.
(* Of two fields of one name the one that is written is not the one that is read. *)
Theorem C63_names_refuted : exists E G M t fs ca cu v z w, wf_types E /\ paths_ok E M /\ no_point_loop E /\ ftoa_spec (ftoa E) /\ walks_maps E /\ methods_return E /\ unmarshalers_return E M /\
  names_json E G M t /\ written_kind E t (KStruct fs) /\ typed E t v /\ gsurvives E G M M t v /\ blank E t z /\
  Appender E G M t = Ok (Some ca) /\ compilesAppender M t ca = true /\ Unmarshaler E G M t = Ok (Some cu) /\ compilesUnmarshaler M t cu = true /\ runAppender E ca [] (Some v) = Ok (w, None) /\
  exists W n v', Document_Parse [mkDoc [] 0%N] 0 w = Ok (W, (n, [], None)) /\ runUnmarshaler E M W cu z n = Ok (v', None) /\ ~ gagree E G M t v v'.
Proof. exact C63_names_refuted_lem. Qed.
Print Assumptions C63_names_refuted.
