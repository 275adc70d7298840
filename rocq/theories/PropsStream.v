(* Property C49: streams of lines.  Only statements, each closed by [exact]. *)
From Verif Require Import Bytes Types JsonSpec Parser Doc DocSpec StreamSpec Stream StreamThms.

(* The full statement is false: a JSON text may hold a newline between two of its tokens, as the text of a
   json.Marshaler does, and the decoder then cannot return the value, whatever the buffer. *)
Theorem C49_refuted : exists v t, rfc_value v t /\ forall B early w r, 2 <= B -> r < length w ->
  ~ exists w' n, decodes B early r w (LineEncoder_Encode (Some t)) w' [n] /\ tree_of w' n v.
Proof. exact ml_refuted. Qed.
Print Assumptions C49_refuted.
(* Missing: texts that contain a newline. *)
Theorem C49_partial : forall B early r w ts vs, 2 <= B -> r < length w -> Forall2 lenient_value vs ts -> Forall no_newline ts ->
  exists w' ns, decodes B early r w (concat (map (fun t => LineEncoder_Encode (Some t)) ts)) w' ns /\ Forall2 (tree_of w') ns vs.
Proof. exact round_trip. Qed.
Print Assumptions C49_partial.
(* Any stream of complete lines, with or without carriage returns and with whitespace around the values. *)
Theorem C49_lines : forall B early r w ls ts vs, 2 <= B -> r < length w -> Forall no_newline ls -> Forall2 line_text ls ts -> Forall2 line_value vs ts ->
  exists w' ns, decodes B early r w (stream ls) w' ns /\ Forall2 (tree_of w') ns vs.
Proof. exact decodes_lines. Qed.
Print Assumptions C49_lines.
(* One call: a node is returned exactly for lines that hold one value. *)
Theorem C49_decode_iff : forall B early w r line t rest v, 2 <= B -> r < length w -> no_newline line -> line_text line t ->
  (exists w' n, LineDecoder_Decode B early w r (line ++ x0a :: rest) = Ok (w', rest, LNode n) /\ tree_of w' n v) <-> line_value v t.
Proof. exact Decode_iff. Qed.
Print Assumptions C49_decode_iff.
Theorem C49_unique : forall B early r w s w1 ns1 w2 ns2, decodes B early r w s w1 ns1 -> decodes B early r w s w2 ns2 -> w1 = w2 /\ ns1 = ns2.
Proof. exact decodes_unique. Qed.
Print Assumptions C49_unique.
(* Lines and the buffer size: the call never loops, and one call takes exactly one line. *)
Theorem C49_takes_line : forall B early w r line rest, 2 <= B -> r < length w -> no_newline line ->
  exists w' o, LineDecoder_Decode B early w r (line ++ x0a :: rest) = Ok (w', rest, o) /\ o <> LEOF /\ length w' = length w.
Proof. exact takes_line. Qed.
Print Assumptions C49_takes_line.
(* A last line without newline is read if it is shorter than the buffer, and lost if it fills the buffer. *)
Theorem C49_last : forall B early w r s v, r < length w -> s <> [] -> no_newline s -> length s < B ->
  (exists w' n, LineDecoder_Decode B early w r s = Ok (w', [], LNode n) /\ tree_of w' n v) <-> line_value v s.
Proof. exact last_iff. Qed.
Print Assumptions C49_last.
Theorem C49_lost_refuted : forall B w r s, 0 < B -> no_newline s -> ~ ends_cr s -> length s = B -> LineDecoder_Decode B false w r s = Ok (w, [], LEOF).
Proof. exact Decode_lost. Qed.
Print Assumptions C49_lost_refuted.
Example C49_example : Forall2 lenient_value [JArr [JTrue; JNull]; JNum (str "-12"); JStr (str "a longer string")]
    [str "[true, null ]"; str "-12"; x22 :: str "a longer string" ++ [x22]] /\
  (exists w' n, LineDecoder_Decode 16 false [mkDoc [] 0] 0 (x22 :: str "a longer string" ++ [x22; x0d; x0a]) = Ok (w', [], LNode n)) /\
  LineDecoder_Decode 16 false [mkDoc [] 0] 0 (str "[1,2,3,4,5,6,78]") = Ok ([mkDoc [] 0], [], LEOF).
Proof. exact C49_example_lem. Qed.
