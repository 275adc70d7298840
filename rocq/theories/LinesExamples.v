(* Concrete streams for C59. *)
From Verif Require Import FloatSpec NumSpec FmtSpec StrSpec Bytes Types JsonSpec Parser Doc DocSpec DocProofs DocDec DocExamples Strjson Float Num NumInt FmtThms Iface IfaceSpec Options Codec CodecSpec CodecMerge CodecBase CodecBuild CodecEnc CodecJson CodecExamples ParserThms
  DecodeSpec DecodeTree DecodeThms DecodeExamples RoundSpec RoundThms RoundExamples MethodSpec MethodThms MethodExamples Coder CoderSpec CoderThms CoderExamples Stream Lines LinesSpec LinesThms.
Local Open Scope nat_scope.

Definition nl : bytes := [x0a].
Definition stream59 : bytes := str "{""alpha"":5,""next"":{""b"":""x""}}" ++ nl ++ str "{}" ++ nl.
Lemma z58_survives : survives codE yamlF 7 z58.
Proof.
  eapply sv_struct; [reflexivity|vm_compute; reflexivity|]. intros c x I R. cbn [In] in I.
  destruct I as [<-|[<-|[<-|[]]]]; cbn [cindex ctype] in *; (eapply reaches_same in R; [|unfold z58; reach]); subst x; [eapply sv_int; [reflexivity|apply rep53; vm_compute; discriminate]|apply sv_string; [reflexivity|asciistr|plainstr]|eapply sv_ptr_nil; reflexivity].
Qed.
Lemma z58_typed : typed codE 7 z58. Proof. unfold z58. ty. Qed.
Lemma ex59_lem : go_env codE /\ (forall u, ~ cyclic codE defaultOptions u) /\ completed yamlO yamlF /\ tags_json codE yamlF /\ both_ways codE yamlF 8 7 /\ ~ hazard codE yamlF 7 /\
  encoder_for codE 7 yamlO (Some enc8) /\ decoder_for codE 8 (oTag yamlO) (Some dec8) /\ Forall (fun v => typed codE 7 v /\ survives codE yamlF 7 v /\ v <> VPtr None) [v56; z58] /\
  encodeLines codE (Some enc8) [Some (7, v56); Some (6, VInt 1); Some (7, z58)] = Ok (stream59, [None; Some UInvalidValue; None]) /\
  exists w, decodeLines codE 14 16 false [mkDoc [] 0] 0 (Some dec8) 8 [VPtr (Some z58); VPtr (Some z58); VPtr (Some z58)] stream59 = Ok (w, [], [(VPtr (Some v56), None); (VPtr (Some z58), None); (VPtr (Some z58), Some ErrEOF)]).
Proof.
  split; [exact cod_env|]. split; [exact cod_acyclic|]. split; [exact yaml_completed|]. split; [exact yaml_tags|]. split; [exact both87|]. split; [apply h7y; auto|].
  split; [exists enc8; split; [vm_compute; reflexivity|auto]|]. split; [exists dec8; split; [vm_compute; reflexivity|auto]|].
  split; [repeat (apply Forall_cons; [split; [first [exact v56_typed|exact z58_typed]|split; [first [exact v56_survives|exact z58_survives]|discriminate]]|]); apply Forall_nil|].
  split; [vm_compute; reflexivity|]. eexists. found.
Qed.
(* a value that does not fit, and text that is not JSON, between two values *)
Definition broken59 : bytes := str "{""alpha"":""x""}" ++ nl ++ str "{""alpha""" ++ nl ++ str "1 2" ++ nl ++ str "{""alpha"":3}" ++ nl.
Lemma ex59_resumes_lem : exists w e1 e2, decodeLines codE 14 16 false [mkDoc [] 0] 0 (Some dec8) 8 [VPtr (Some z58); VPtr (Some z58); VPtr (Some z58); VPtr (Some z58)] broken59 =
  Ok (w, [], [(VPtr (Some z58), Some (ErrValue e1)); (VPtr (Some z58), Some (ErrParse e2)); (VPtr (Some z58), Some ErrLine); (VPtr (Some (VStruct [VInt 3; VString []; VPtr None])), None)]).
Proof. do 3 eexists. found. Qed.
(* MarshalJSON that returns a JSON text with a newline *)
Definition nlE : env :=
  mkEnv [mkT (KStruct []) jsonM jsonM; plainT (KPtr tIface)] (callAppend codE) (fun _ _ => Ok (Some (str "[true," ++ nl ++ str "true]"), None)) (callText codE) (callOmit codE) (callOmitPtr codE) (callNodeU codE) (callJSONU codE) (callTextU codE) (scParseFloat codE) (ftoa codE) (mapOrder codE).
Lemma C59_refuted_lem : exists E t pi v s j, typed E t v /\ methods_write_json E /\ kindOf E pi = Some (KPtr tIface) /\ encodeLines E None [Some (t, v)] = Ok (s ++ nl, [None]) /\ rfc_value j s /\
  exists w w' e x, decodeLines E pi 16 false w 0 None pi [VPtr (Some (VIface None)); VPtr (Some (VIface None))] (s ++ nl) = Ok (w', [], [(x, Some (ErrParse e)); (x, Some ErrLine)]).
Proof.
  assert (J : rfc_value (JArr [JTrue; JTrue]) (str "[true," ++ nl ++ str "true]")).
  { apply (v_arr ws rfc_chars rfc_chars rfc_number [JTrue; JTrue] (str "true," ++ nl ++ str "true")).
    apply (el_cons ws rfc_chars rfc_chars rfc_number [] JTrue (str "true") [] [JTrue] (nl ++ str "true")); [constructor|constructor|constructor|].
    apply (el_one ws rfc_chars rfc_chars rfc_number nl JTrue (str "true") []); [repeat constructor; unfold ws_byte; cbn; tauto|constructor|constructor]. }
  exists nlE, 6, 7, (VStruct []), (str "[true," ++ nl ++ str "true]"), (JArr [JTrue; JTrue]). split; [ty|]. split.
  - split; [|split]; [discriminate| |].
    + intros t v r H. injection H as <-. do 2 eexists. split; [reflexivity|exact J].
    + exact (proj2 (proj2 cod_write)).
  - split; [reflexivity|]. split; [vm_compute; reflexivity|]. split; [exact J|]. exists [mkDoc [] 0]. do 3 eexists. found.
Qed.
