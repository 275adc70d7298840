(* Properties C51 and C53: callbacks given a node's text.  Only statements, each closed by [exact]. *)
From Verif Require Import Bytes Types JsonSpec Parser Doc DocSpec DocExamples StrSpec Wrap WrapThms.

(* ---- C51 ---- *)

(* The full statement is false: the text unmarshaler is given the escapes, not what they stand for. *)
Theorem C51_refuted : exists w n s o data, tree_of w n (JStr s) /\ meaning s o /\ Node_WrapUnmarshalText w n = Called data /\ data <> o.
Proof. exact C51_refuted_lem. Qed.
Print Assumptions C51_refuted.
Theorem C51_json : forall w n t, tree_of w n t -> Node_WrapUnmarshalJSON w n = Ok (Called (print t)).
Proof. exact wrap_json. Qed.
Print Assumptions C51_json.
(* Missing: strings with escapes. *)
Theorem C51_text_partial : forall w n s, tree_of w n (JStr s) -> Forall (fun c => c <> x5c) s ->
  exists data, Node_WrapUnmarshalText w n = Called data /\ meaning s data.
Proof. exact wrap_text_plain. Qed.
Print Assumptions C51_text_partial.
Theorem C51_text_raw : forall w n s, tree_of w n (JStr s) -> Node_WrapUnmarshalText w n = Called s.
Proof. exact wrap_text. Qed.
Print Assumptions C51_text_raw.
Theorem C51_text_other : forall w n t, tree_of w n t -> (forall s, t <> JStr s) ->
  exists ty, Node_WrapUnmarshalText w n = Rejected (TypeErr ty TypeString) /\ ty = Node_Type w n /\ ty <> TypeString.
Proof. exact wrap_text_other. Qed.
Print Assumptions C51_text_other.
Theorem C51_dead : forall w n, Node_get w n = None ->
  Node_WrapUnmarshalJSON w n = Ok (Rejected (TypeErr TypeInvalid TypeAnyValue)) /\ Node_WrapUnmarshalText w n = Rejected (TypeErr TypeInvalid TypeString) /\
  Node_PrintJSON w n = Ok (Rejected (TypeErr TypeInvalid TypeAnyValue)).
Proof. exact wrap_dead. Qed.
Print Assumptions C51_dead.
Example C51_example : tree_of w0 (nd 0 0) t0 /\ (exists data, Node_WrapUnmarshalJSON w0 (nd 0 0) = Ok (Called data) /\ 20 < length data) /\
  tree_of w0 (nd 0 6) (JStr (str "hi")) /\ Node_WrapUnmarshalText w0 (nd 0 6) = Called (str "hi").
Proof. split; [exact w0_t0|]. split; [eexists; split; [vm_compute; reflexivity|vm_compute; repeat constructor]|]. split; [exact w0_hi|reflexivity]. Qed.

(* ---- C53 ---- *)

Theorem C53_print : forall w n t, tree_of w n t -> Node_PrintJSON w n = Ok (Called (print t)).
Proof. exact print_json. Qed.
Print Assumptions C53_print.
(* Whatever the node, what is written is what AppendJSON gives, and nothing is written when it fails. *)
Theorem C53_append : forall w n out e, Node_AppendJSON w n [] = Ok (out, e) ->
  Node_PrintJSON w n = Ok (match e with None => Called out | Some e => Rejected e end).
Proof. exact print_append. Qed.
Print Assumptions C53_append.
Example C53_example : exists out, Node_AppendJSON w0 (nd 0 0) [] = Ok (out, None) /\ 20 < length out.
Proof. eexists. split; [vm_compute; reflexivity|vm_compute; repeat constructor]. Qed.
