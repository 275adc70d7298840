(* Properties C01-C09: Document.Parse and AppendJSON.  Only statements, each closed by [exact]. *)
From Verif Require Import Bytes Types JsonSpec Parser Doc DocSpec ParserThms RfcOne.

(* C01, full statement: for every RFC 8259 text w of a tree v, whitespace s and tail (not extending
   a number), in every document,
     exists W' n, Document_Parse W r (s ++ w ++ tail) = Ok (W', (n, tail, None)) /\ tree_of W' n v
   This is false: the end of a string value whose content ends in an escaped backslash is missed
   (parser.go:141-147).  Such texts are rejected, or read as another tree. *)
Theorem C01_refuted :
  exists v w, rfc_value v w /\
    forall W r, r < length W ->
      exists W', Document_Parse W r w = Ok (W', (mkN 0 0 None, w, Some (UnexpectedEOF TypeString))).
Proof. exact C01_reject_lemma. Qed.
Print Assumptions C01_refuted.

Theorem C01_wrong_tree_refuted :
  exists v v' w, rfc_value v w /\ v <> v' /\
    forall W r, r < length W ->
      exists W' n, Document_Parse W r w = Ok (W', (n, [], None)) /\ tree_of W' n v'.
Proof. exact C01_wrong_lemma. Qed.
Print Assumptions C01_wrong_tree_refuted.

(* What holds: every RFC 8259 text in which each string value contains a quote or does not end in a
   backslash (keys are unrestricted).  Missing from the full statement: the other string values. *)
Theorem C01_partial : forall W r v s w tail,
  r < length W -> rfc_value_plain v w -> ws s -> (is_num v = true -> num_stop tail) ->
  exists W' n, Document_Parse W r (s ++ w ++ tail) = Ok (W', (n, tail, None)) /\ tree_of W' n v.
Proof. exact C01_ok. Qed.
Print Assumptions C01_partial.
Example C01_example : rfc_value_plain
  (JObj [(str "a", JArr [JNum (str "-1.5e3"); JStr [x5c; x22]; JNull]); ([x5c; x5c], JTrue)])
  (str "{" ++ [x22] ++ str "a" ++ [x22] ++ str ": [-1.5e3," ++ [x22; x5c; x22; x22] ++ str ", null] ,"
   ++ [x22; x5c; x5c; x22] ++ str ":true}").
Proof. exact C01_example_lemma. Qed.

(* C02: success with a tree and a tail is exactly a split of the input into whitespace, a lenient
   value text of the tree, and the tail; the split is unique. *)
Theorem C02_parse_iff : forall W r s v tail,
  (exists W' n, Document_Parse W r s = Ok (W', (n, tail, None)) /\ tree_of W' n v) <->
  r < length W /\
  exists s1 w, s = s1 ++ w ++ tail /\ ws s1 /\ lenient_value v w /\ (is_num v = true -> num_stop tail).
Proof. exact Parse_tree_iff. Qed.
Print Assumptions C02_parse_iff.
Theorem C02_unique : forall W r s W1 n1 t1 v1 W2 n2 t2 v2,
  Document_Parse W r s = Ok (W1, (n1, t1, None)) -> tree_of W1 n1 v1 ->
  Document_Parse W r s = Ok (W2, (n2, t2, None)) -> tree_of W2 n2 v2 ->
  v1 = v2 /\ t1 = t2.
Proof. exact Parse_tree_unique. Qed.
Print Assumptions C02_unique.
Theorem C02_grammar_unambiguous : forall s1 w tail v s1' w' tail' v',
  s1 ++ w ++ tail = s1' ++ w' ++ tail' -> ws s1 -> ws s1' ->
  lenient_value v w -> lenient_value v' w' ->
  (is_num v = true -> num_stop tail) -> (is_num v' = true -> num_stop tail') ->
  v = v' /\ w = w' /\ tail = tail' /\ s1 = s1'.
Proof. exact Parse_split_unique. Qed.
Print Assumptions C02_grammar_unambiguous.
(* So is RFC 8259's: a text denotes one tree (the other properties speak of texts by the tree they denote). *)
Theorem C02_rfc_unambiguous : forall v v' w, rfc_value v w -> rfc_value v' w -> v = v'.
Proof. exact rfc_unique. Qed.
Print Assumptions C02_rfc_unambiguous.
Example C02_example : exists W n,
  Document_Parse [mkDoc [] 0] 0 (str " [1 ,-x]!") = Ok (W, (n, str "!", None)) /\
  tree_of W n (JArr [JNum (str "1"); JNum (str "-x")]).
Proof. exact C02_example_lemma. Qed.

(* C03: Parse returns (with one of the results of its type) on every input; the nesting of its
   calls and loop steps never exceeds 3 * len + 1. *)
Theorem C03_terminates : forall W r s, r < length W ->
  exists W' n tail e, Document_Parse W r s = Ok (W', (n, tail, e)).
Proof. exact Parse_total. Qed.
Print Assumptions C03_terminates.
Theorem C03_depth : forall ns s pos f, 3 * length s + 1 <= f ->
  parseValue f ns s pos <> PFuel /\ parseValue f ns s pos = parseValue (3 * length s + 1) ns s pos.
Proof. exact parse_fuel_indep. Qed.
Print Assumptions C03_depth.
Example C03_example : exists W' tail,
  Document_Parse [mkDoc [] 7] 0 (str "[[[{") = Ok (W', (mkN 0 0 None, tail, Some (UnexpectedEOF TypeObject))).
Proof. exact C03_example_lemma. Qed.

(* C04: returned strings and error positions. *)
Theorem C04_results_point_into_input : forall W r s W' n tail e,
  Document_Parse W r s = Ok (W', (n, tail, e)) ->
  match e with
  | None => exists consumed, s = consumed ++ tail
  | Some (UnexpectedEOF _) => tail = s /\ n = mkN 0 0 None
  | Some (ParseError pos _ got _) =>
      tail = [] /\ n = mkN 0 0 None /\
      exists before after, s = before ++ after /\ pos = lenN before /\ (pos < lenN s)%N /\
      match got with
      | GotByte c => exists r, after = c :: r
      | GotStr w => w <> [] /\ exists r, after = w ++ r
      end
  end.
Proof. exact C04_ok. Qed.
Print Assumptions C04_results_point_into_input.
Example C04_example : Document_Parse [mkDoc [] 0] 0 (str "[1, nulx]") =
  Ok ([mkDoc [] 0], (mkN 0 0 None, [], Some (ParseError 4 TypeNull (GotStr (str "nulx")) (WantStr (str "null"))))).
Proof. exact C04_example_lemma. Qed.

(* C05: errors and complete values do not depend on later input. *)
Theorem C05_error_stable : forall W r s W' n tail p ty g w t,
  Document_Parse W r s = Ok (W', (n, tail, Some (ParseError p ty g w))) ->
  Document_Parse W r (s ++ t) = Ok (W', (n, tail, Some (ParseError p ty g w))).
Proof. exact C05_err. Qed.
Print Assumptions C05_error_stable.
Theorem C05_success_stable : forall W r s W' n rest v t,
  Document_Parse W r s = Ok (W', (n, rest, None)) -> tree_of W' n v ->
  (is_num v = true -> rest <> []) ->
  Document_Parse W r (s ++ t) = Ok (W', (n, rest ++ t, None)).
Proof. exact C05_ok. Qed.
Print Assumptions C05_success_stable.
Example C05_example : exists W' n v,
  Document_Parse [mkDoc [] 0] 0 (str "[1]") = Ok (W', (n, [], None)) /\ tree_of W' n v /\ is_num v = false.
Proof. exact C05_example_lemma. Qed.

(* C06, full statement: UnexpectedEOF implies that some continuation makes Parse succeed, and every
   proper prefix of an accepted non-number text gives UnexpectedEOF.  The first half is false: a
   broken literal at the end of the input is reported as UnexpectedEOF (parser.go:172-201). *)
Theorem C06_refuted :
  exists s, forall W r, r < length W ->
    (exists ty, Document_Parse W r s = Ok (W, (mkN 0 0 None, s, Some (UnexpectedEOF ty)))) /\
    forall t W' n tail, Document_Parse W r (s ++ t) <> Ok (W', (n, tail, None)).
Proof. exact C06_refuted_lemma. Qed.
Print Assumptions C06_refuted.
(* What holds of the first half: everything but broken literals. *)
Theorem C06_completable_partial : forall W r s W' n tail ty,
  Document_Parse W r s = Ok (W', (n, tail, Some (UnexpectedEOF ty))) ->
  ((ty = TypeBoolean \/ ty = TypeNull) -> ~ broken_literal s) ->
  exists t W2 n2, Document_Parse W r (s ++ t) = Ok (W2, (n2, [], None)).
Proof. exact C06_complete. Qed.
Print Assumptions C06_completable_partial.
(* The second half, in full. *)
Theorem C06_prefixes : forall W r s0 w v p q,
  r < length W -> ws s0 -> lenient_value v w -> is_num v = false -> s0 ++ w = p ++ q -> q <> [] ->
  exists ty, Document_Parse W r p = Ok (W, (mkN 0 0 None, p, Some (UnexpectedEOF ty))).
Proof. exact C06_prefix. Qed.
Print Assumptions C06_prefixes.
Example C06_example : exists W' tail,
  Document_Parse [mkDoc [] 0] 0 (str "[1, tr") = Ok (W', (mkN 0 0 None, tail, Some (UnexpectedEOF TypeBoolean)))
  /\ ~ broken_literal (str "[1, tr").
Proof. exact C06_example_lemma. Qed.

(* C07: a failed parse changes nothing; a successful one only adds nodes at the end of its own
   document, and the new tree does not reach any older node. *)
Theorem C07_failed_parse : forall W r s W' n tail e,
  Document_Parse W r s = Ok (W', (n, tail, Some e)) -> W' = W.
Proof. exact C07_fail. Qed.
Print Assumptions C07_failed_parse.
Theorem C07_successful_parse : forall W r s W' n tail,
  Document_Parse W r s = Ok (W', (n, tail, None)) ->
  exists d new, nth_error W r = Some d /\
    W' = putDoc W r (mkDoc (dnodes d ++ new) (drev d)) /\
    n = mkN (lenN (dnodes d)) (drev d) (Some r) /\ new <> [] /\
    forall x, reach (dnodes d ++ new) (nid n) x -> (lenN (dnodes d) <= x)%N.
Proof. exact C07_ok. Qed.
Print Assumptions C07_successful_parse.
(* Seen through the API: every node that denoted a tree still denotes it. *)
Theorem C07_trees_kept : forall W r s W' n tail e m v,
  Document_Parse W r s = Ok (W', (n, tail, e)) -> tree_of W m v -> tree_of W' m v.
Proof. exact C07_trees. Qed.
Print Assumptions C07_trees_kept.
Example C07_example : exists W1 n1 W2 n2,
  Document_Parse [mkDoc [] 0] 0 (str "[1]") = Ok (W1, (n1, [], None)) /\
  tree_of W1 n1 (JArr [JNum (str "1")]) /\
  Document_Parse W1 0 (str "{} ") = Ok (W2, (n2, str " ", None)) /\
  tree_of W2 n1 (JArr [JNum (str "1")]).
Proof. exact C07_example_lemma. Qed.

(* C08: AppendJSON after Parse appends the consumed text without the whitespace between tokens:
   [out] is [w] with whitespace bytes deleted, and a text of the same tree in the grammar without
   whitespace. *)
Theorem C08_minified : forall W r s W' n tail dst,
  Document_Parse W r s = Ok (W', (n, tail, None)) ->
  exists s1 w v out, s = s1 ++ w ++ tail /\ ws s1 /\ lenient_value v w /\
    Node_AppendJSON W' n dst = Ok (dst ++ out, None) /\
    drop_ws w out /\ value (fun s => s = []) lenient_string esc_content lenient_number v out.
Proof. exact C08_ok. Qed.
Print Assumptions C08_minified.
Example C08_example : exists W' n,
  Document_Parse [mkDoc [] 0] 0 (str " [1 , {}, [ ] ] ") = Ok (W', (n, str " ", None)) /\
  Node_AppendJSON W' n (str "x") = Ok (str "x[1,{},[]]", None).
Proof. exact C08_example_lemma. Qed.

(* C09: round-trip through any other (or the same) document. *)
Theorem C09_roundtrip : forall W r s W1 n1 tail W2 r2,
  Document_Parse W r s = Ok (W1, (n1, tail, None)) -> r2 < length W2 ->
  exists v out W3 n3,
    tree_of W1 n1 v /\ Node_AppendJSON W1 n1 [] = Ok (out, None) /\
    Document_Parse W2 r2 out = Ok (W3, (n3, [], None)) /\ tree_of W3 n3 v /\
    Node_AppendJSON W3 n3 [] = Ok (out, None).
Proof. exact C09_ok. Qed.
Print Assumptions C09_roundtrip.
Example C09_example : exists W' n tail,
  Document_Parse [mkDoc [] 0] 0 (str "[{},[2 ]] ") = Ok (W', (n, tail, None)).
Proof. exact C09_example_lemma. Qed.
