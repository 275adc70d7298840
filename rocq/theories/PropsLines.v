(* C59: theorems and examples. *)
From Verif Require Import Bytes Types JsonSpec Parser Doc DocSpec Options StreamSpec Stream Codec CodecSpec DecodeSpec DecodeExamples RoundSpec Coder CoderSpec CoderExamples Lines LinesSpec LinesThms LinesExamples.
Local Open Scope nat_scope.

(* ---- C59: the values written by a LineEncoder are those read by a LineDecoder ---- *)

(* One line per value, in order, and the end of the stream after them; for any size of the reader's buffer.  The types
   and values for which it is missing are those of C40_partial. *)
Theorem C59_partial : forall E O O' m d t pt vs, go_env E -> (forall u, ~ cyclic E defaultOptions u) -> completed O O' -> tags_json E O' -> both_ways E O' pt t -> ~ hazard E O' t -> encoder_for E t O m -> decoder_for E pt (oTag O) d ->
  Forall (fun v => typed E t v /\ survives E O' t v /\ v <> VPtr None) vs ->
  exists s, encodeLines E m (map (fun v => Some (t, v)) vs) = Ok (s, map (fun _ => None) vs) /\
    forall pi B early W r zs, 2 <= B -> r < length W -> Forall (fun z => typed E t z /\ blank E t z) zs -> length zs = length vs ->
      exists W' vs', decodeLines E pi B early W r d pt (map (fun z => VPtr (Some z)) zs) s = Ok (W', [], map (fun v => (VPtr (Some v), None)) vs') /\ Forall2 (agree E O' t) vs vs' /\
        forall x, LineDecoder_DecodeValue E pi B early W' r d pt x [] = Ok (W', [], x, Some ErrEOF).
Proof. exact C59_top. Qed.
Print Assumptions C59_partial.
(* The value between the two is of the wrong type; it writes nothing. *)
Example C59_example : go_env codE /\ (forall u, ~ cyclic codE defaultOptions u) /\ completed yamlO yamlF /\ tags_json codE yamlF /\ both_ways codE yamlF 8 7 /\ ~ hazard codE yamlF 7 /\
  encoder_for codE 7 yamlO (Some enc8) /\ decoder_for codE 8 (oTag yamlO) (Some dec8) /\ Forall (fun v => typed codE 7 v /\ survives codE yamlF 7 v /\ v <> VPtr None) [v56; z58] /\
  encodeLines codE (Some enc8) [Some (7, v56); Some (6, VInt 1); Some (7, z58)] = Ok (stream59, [None; Some UInvalidValue; None]) /\
  exists w, decodeLines codE 14 16 false [mkDoc [] 0] 0 (Some dec8) 8 [VPtr (Some z58); VPtr (Some z58); VPtr (Some z58)] stream59 = Ok (w, [], [(VPtr (Some v56), None); (VPtr (Some z58), None); (VPtr (Some z58), Some ErrEOF)]).
Proof. exact ex59_lem. Qed.
(* Methods that write JSON with a newline break the stream. *)
Theorem C59_refuted : exists E t pi v s j, typed E t v /\ methods_write_json E /\ kindOf E pi = Some (KPtr tIface) /\ encodeLines E None [Some (t, v)] = Ok (s ++ nl, [None]) /\ rfc_value j s /\
  exists w w' e x, decodeLines E pi 16 false w 0 None pi [VPtr (Some (VIface None)); VPtr (Some (VIface None))] (s ++ nl) = Ok (w', [], [(x, Some (ErrParse e)); (x, Some ErrLine)]).
Proof. exact C59_refuted_lem. Qed.
Print Assumptions C59_refuted.
(* A call takes exactly one line, whatever becomes of it. *)
Theorem C59_resumes : forall E pi B early W r d t x line rest W' s' x' err, 2 <= B -> r < length W -> no_newline line ->
  LineDecoder_DecodeValue E pi B early W r d t x (line ++ x0a :: rest) = Ok (W', s', x', err) -> s' = rest /\ length W' = length W /\ err <> Some ErrEOF.
Proof. exact C59_resumes_lem. Qed.
Print Assumptions C59_resumes.
(* A line that holds a value is given to the decoder of values, whose result and error are returned; any other line is an
   error and changes nothing. *)
Theorem C59_line : forall E pi B early W r d t x line rest t0 W' s' x' err, 2 <= B -> r < length W -> no_newline line -> line_text line t0 ->
  LineDecoder_DecodeValue E pi B early W r d t x (line ++ x0a :: rest) = Ok (W', s', x', err) ->
  (forall j, line_value j t0 -> exists n e, tree_of W' n j /\ err = option_map ErrValue e /\
     match d with None => UnmarshalFromNode E W' n t x = Ok (x', e) | Some d => exists o, Decode E pi W' d (Some (t, x)) n = Ok (o, e) /\ x' = match o with Some (_, y) => y | None => x end end) /\
  ((forall j, ~ line_value j t0) -> x' = x /\ (err = Some ErrLine \/ exists e, err = Some (ErrParse e))).
Proof. exact C59_line_lem. Qed.
Print Assumptions C59_line.
Example C59_resumes_example : exists w e1 e2, decodeLines codE 14 16 false [mkDoc [] 0] 0 (Some dec8) 8 [VPtr (Some z58); VPtr (Some z58); VPtr (Some z58); VPtr (Some z58)] broken59 =
  Ok (w, [], [(VPtr (Some z58), Some (ErrValue e1)); (VPtr (Some z58), Some (ErrParse e2)); (VPtr (Some z58), Some ErrLine); (VPtr (Some (VStruct [VInt 3; VString []; VPtr None])), None)]).
Proof. exact ex59_resumes_lem. Qed.
(* A value that fails to encode writes nothing; every other writes its text and a newline. *)
Theorem C59_failed : forall E m xs s es, encodeLines E m xs = Ok (s, es) ->
  exists ts, s = concat ts /\ Forall2 (fun x o => exists b, match m with None => AppendJSON E [] x | Some m => Encode E m [] x end = Ok (b, fst o) /\ snd o = match fst o with Some _ => [] | None => b ++ [x0a] end) xs (combine es ts) /\ length ts = length es.
Proof. exact C59_failed_lem. Qed.
Print Assumptions C59_failed.
