(* Property C69, and C46 and C56 for the trees that are written.  Only statements, each closed by [exact]. *)
From Verif Require Import FloatSpec FmtSpec Bytes Types JsonSpec Parser Doc DocSpec Iface IfaceSpec Options Codec CodecSpec CodecExamples DecodeSpec RoundSpec Coder CoderSpec CoderExamples TreeSpec TreeThms TreeDet TreeCoder TreeExamples.
Local Open Scope nat_scope.

(* ---- C46: the fields of the codec of a struct, for all keys ---- *)

(* A field is in the codec exactly if none with its key was offered before it, or if its path is shorter than that of the
   first of them. *)
Theorem C46_exact : forall E O t cs, structFields E O t = Ok cs -> exists l, offers E O t [] l /\ kept [] l cs.
Proof. exact C46_exact_lem. Qed.
Print Assumptions C46_exact.
(* Offers and choice leave no freedom. *)
Theorem C46_unique : forall E O t cs cs', struct_fields E O t cs -> struct_fields E O t cs' -> cs = cs'.
Proof. exact struct_fields_det. Qed.
Print Assumptions C46_unique.
Example C46_exact_example : structFields exE defaultOptions 8 = Ok [cA1; cA2] /\ structFields exE defaultOptions 17 = Ok [mkC (str "A") [0]%Z tString 0] /\
  kept [] [cA1; cA2] [cA1; cA2] /\ kept [] [mkC (str "A") [0]%Z tString 0; mkC (str "A") [1; 0]%Z 6 0] [mkC (str "A") [0]%Z tString 0].
Proof. exact ex46_exact. Qed.

(* ---- C69: the tree that Marshal writes ---- *)

(* What AppendJSON appends is a text of the tree of the value.  Missing for the full property: what C41_partial leaves
   out. *)
Theorem C69_partial : forall E out t v res, wf_types E -> embeds_structs E -> walks_maps E -> ftoa_spec (ftoa E) -> tags_json E defaultOptions -> methods_write_json E ->
  typed E t v -> top_ok E t v -> tops_ok E v -> floats_json v -> AppendJSON E out (Some (t, v)) = Ok (res, None) -> exists j w, res = out ++ w /\ rfc_value j w /\ top_tree E t v j.
Proof. exact C69_lem. Qed.
Print Assumptions C69_partial.
(* There is only one, if types have no methods and the order of map entries does not matter. *)
Theorem C69_unique : forall E t v j j', no_marshalers E -> small_maps v -> top_tree E t v j -> top_tree E t v j' -> j = j'.
Proof. exact C69_unique_lem. Qed.
Print Assumptions C69_unique.
(* ex41 meets the hypotheses of C69_partial (C41_example); this is its tree, and there a nil slice is an empty array, a
   nil map is null and the field behind a nil embedded pointer is missing. *)
Example C69_example : no_marshalers exE /\ small_maps ex41 /\ top_tree exE 12 ex41 ex69.
Proof. exact ex69_lem. Qed.

(* ---- C56: the same with an encoder object and any options ---- *)

Theorem C56_tree_partial : forall E t O O' m out s v res, go_env E -> completed O O' -> tags_json E O' -> methods_write_json E -> oNaN O = false -> oInf O = false ->
  NewTypeEncoder E (Some t) O = Ok (Some m) -> own_methods E t -> accepts E t s -> typed E s v -> v <> VPtr None -> tops_ok E v -> floats_json v ->
  Encode E m out (Some (s, v)) = Ok (res, None) -> exists j w, res = out ++ w /\ rfc_value j w /\ top_tree_with E O' s v j.
Proof. exact C56_tree_lem. Qed.
Print Assumptions C56_tree_partial.
(* C56_example (PropsCoder.v) meets these hypotheses. *)
Example C56_tree_example : go_env codE /\ completed yamlO yamlF /\ tags_json codE yamlF /\ methods_write_json codE /\ oNaN yamlO = false /\ oInf yamlO = false /\
  NewTypeEncoder codE (Some 8) yamlO = Ok (Some enc8) /\ own_methods codE 8 /\ accepts codE 8 7 /\ typed codE 7 v56 /\ v56 <> VPtr None /\ tops_ok codE v56 /\ floats_json v56 /\
  Encode codE enc8 (str "x=") (Some (7, v56)) = Ok (str "x={""alpha"":5,""next"":{""b"":""x""}}", None).
Proof. exact ex56_tree. Qed.
