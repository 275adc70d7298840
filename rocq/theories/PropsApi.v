(* Properties C10 and C39: documents built through the API, types.  Only statements, each closed by [exact]. *)
From Coq Require Import Sorted.
From Verif Require Import Bytes Types JsonSpec Parser Doc DocSpec Api HistSpec Strjson DocStr ApiSpec OkThms TypeThms.

(* ---- C10 ---- *)

(* Full statement: as C10_partial for all strings given to Text and all keys.  It is false for a string
   ending in a backslash (and without quotes) ... *)
Theorem C10_refuted : exists s w n out,
  Document_Text [mkDoc [] 0] 0 s = Ok (w, n) /\ Node_AppendJSON w n [] = Ok (out, None) /\
  forall W r, r < length W -> exists e W' n' tail, Document_Parse W r out = Ok (W', (n', tail, Some e)).
Proof. exact C10_refuted_lem. Qed.
Print Assumptions C10_refuted.
(* ... and for keys, which Set does not escape. *)
Theorem C10_key_refuted : exists cs w n t out, run [] cs = Ok w /\ tree_of w n t /\ Node_AppendJSON w n [] = Ok (out, None) /\
  (forall r k v, In (CSet r k v) cs -> k = [x22]) /\
  forall W r, r < length W -> exists e W' n' tail, Document_Parse W r out = Ok (W', (n', tail, Some e)).
Proof. exact C10_key_refuted_lem. Qed.
Print Assumptions C10_key_refuted.
(* Missing from the full statement: text without quotes that ends in a backslash, and keys that are not
   escaped string contents.  Histories may contain any other call, parses included. *)
Theorem C10_partial : forall w n t W r, history (fun _ c => built c) w -> tree_of w n t -> r < length W ->
  exists out W' n', Node_AppendJSON w n [] = Ok (out, None) /\ Document_Parse W r out = Ok (W', (n', [], None)) /\ tree_of W' n' t.
Proof. exact C10_lem. Qed.
Print Assumptions C10_partial.
(* For all strings the output is a JSON text, when keys, numbers and parsed texts are. *)
Theorem C10_rfc : forall w n t dst, history (fun _ c => built_rfc c) w -> tree_of w n t ->
  exists out, Node_AppendJSON w n dst = Ok (dst ++ out, None) /\ rfc_value t out.
Proof. exact C10_rfc_lem. Qed.
Print Assumptions C10_rfc.
(* An object with a text with a newline and a quote and an array with a number. *)
Example C10_example : history (fun _ c => built c) (ran hist_ex) /\ history (fun _ c => built_rfc c) (ran hist_ex) /\
  tree_of (ran hist_ex) (mkN 0 0 (Some 0)) ex_tree.
Proof. exact ex_history. Qed.
Example C10_example_text : Escaped ex_text false false = Ok ex_esc.
Proof. exact ex_text_esc. Qed.

(* ---- C39 ---- *)

Theorem C39_types : forall t, (t < 256)%N ->
  StronglySorted N.lt (Type_Types t) /\ Forall single (Type_Types t) /\ fold_right N.lor 0%N (Type_Types t) = t.
Proof. exact Types_lem. Qed.
Print Assumptions C39_types.
Theorem C39_types_in : forall t u, (t < 256)%N -> single u -> (In u (Type_Types t) <-> N.land t u <> 0%N).
Proof. exact Types_in_lem. Qed.
Print Assumptions C39_types_in.
Theorem C39_type_flag : forall i, info_Type (N.lor i infRoot) = info_Type i /\ info_Type (N.ldiff i infRoot) = info_Type i.
Proof. exact flags_lem. Qed.
Print Assumptions C39_type_flag.
Theorem C39_root_flag : forall i, info_IsRoot (N.lor i infRoot) = true /\ info_IsRoot (N.ldiff i infRoot) = false.
Proof. exact flag_set_lem. Qed.
Print Assumptions C39_root_flag.
Theorem C39_split : forall i, (i < 65536)%N -> N.lor (info_Type i) (info_Flags i) = i /\ N.land (info_Type i) (info_Flags i) = 0%N.
Proof. exact split_lem. Qed.
Print Assumptions C39_split.
(* What the scalar setters store: a new type with the flags kept. *)
Theorem C39_retype : forall t i, (t < 256)%N -> (i < 65536)%N ->
  info_Type (N.lor t (info_Flags i)) = t /\ info_Flags (N.lor t (info_Flags i)) = info_Flags i /\
  info_IsRoot (N.lor t (info_Flags i)) = info_IsRoot i.
Proof. exact retype_lem. Qed.
Print Assumptions C39_retype.
(* The type of a value is one of six, whatever the flags; IsValue tells whether one of them is in a set of types. *)
Theorem C39_is : forall t f, In t [TypeObject; TypeArray; TypeString; TypeNumber; TypeBoolean; TypeNull] -> let i := N.lor t (info_Flags f) in
  (info_IsNull i = true <-> t = TypeNull) /\ (info_IsBoolean i = true <-> t = TypeBoolean) /\ (info_IsNumber i = true <-> t = TypeNumber) /\
  (info_IsString i = true <-> t = TypeString) /\ (info_IsArray i = true <-> t = TypeArray) /\ (info_IsObject i = true <-> t = TypeObject).
Proof. exact is_lem. Qed.
Print Assumptions C39_is.
Theorem C39_is_value : forall t, (Type_IsValue t = true <-> exists u, In u [TypeObject; TypeArray; TypeString; TypeNumber; TypeBoolean; TypeNull] /\ N.land t u <> 0%N) /\
  info_IsValue t = Type_IsValue (info_Type t).
Proof. exact is_value_lem. Qed.
Print Assumptions C39_is_value.
Example C39_example : Type_Types (N.lor TypeNumber (N.lor TypeNull TypeString)) = [TypeString; TypeNumber; TypeNull] /\
  info_IsRoot (N.lor vArray infRoot) = true.
Proof. split; reflexivity. Qed.
