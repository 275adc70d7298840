(* Proofs for streams of values (C59). *)
From Coq Require Import Permutation.
From Verif Require Import FloatSpec FmtSpec NumSpec StrSpec Bytes Types JsonSpec Parser ParserThms Doc DocSpec DocProofs Float Num Iface IfaceSpec Options StreamSpec Stream StreamThms
  Codec CodecSpec CodecMerge CodecBase DecodeSpec RoundSpec RoundThms Coder CoderSpec CoderThms Lines LinesSpec.
Local Open Scope nat_scope.

Lemma chars_no_newline w : rfc_chars w -> no_newline w.
Proof.
  unfold no_newline. induction 1 as [|c w L _ _ H IH|c w I H IH|a b c d w Ha Hb Hc Hd H IH]; cbn [In]; [tauto| | |].
  - intros [->|J]; [vm_compute in L; congruence|auto].
  - intros [E|[->|J]]; [discriminate| |auto]. cbn in I. intuition discriminate.
  - assert (N : forall c, hexdigit c -> c <> x0a) by (intros x Hx ->; unfold hexdigit in Hx; vm_compute in Hx; intuition congruence).
    intros [E|[E|[E|[E|[E|[E|J]]]]]]; try discriminate; auto; eapply N; try exact E; assumption.
Qed.
Lemma digits_no_newline l : Forall digit l -> no_newline l.
Proof. intros F I. rewrite Forall_forall in F. apply F in I. unfold digit in I. vm_compute in I. intuition congruence. Qed.
Lemma no_newline_app u v : no_newline u -> no_newline v -> no_newline (u ++ v).
Proof. unfold no_newline. intros A B I. apply in_app_or in I as [I|I]; auto. Qed.
Lemma no_newline_cons c v : c <> x0a -> no_newline v -> no_newline (c :: v).
Proof. unfold no_newline. intros A B [I|I]; auto. Qed.
Lemma number_no_newline w : rfc_number w -> no_newline w.
Proof.
  intros [m i f e Hm Hi Hf He]. repeat apply no_newline_app.
  - destruct Hm as [->| ->]; intro H; cbn in H; intuition discriminate.
  - destruct Hi as [|d ds D F]; [intro H; cbn in H; intuition discriminate|]. apply no_newline_cons; [intros ->; unfold digit19 in D; vm_compute in D; intuition congruence|apply digits_no_newline; exact F].
  - destruct Hf as [|d ds F]; [intros []|]. apply no_newline_cons; [discriminate|apply digits_no_newline; exact F].
  - destruct He as [|e d ds Ee F|e sg d ds Ee Es F]; [intros []| |]; (apply no_newline_cons; [destruct Ee; subst; discriminate|]); [apply digits_no_newline; exact F|].
    apply no_newline_cons; [destruct Es; subst; discriminate|apply digits_no_newline; exact F].
Qed.
Ltac nl := repeat (first [apply no_newline_app|apply no_newline_cons; [discriminate|]|exact (fun f => f)|apply chars_no_newline; assumption|apply number_no_newline; assumption|assumption]).
Lemma plain_no_newline : forall j w, plain j w -> no_newline w.
Proof.
  enough (H : (forall j w, plain j w -> no_newline w) /\ (forall js w, elements no_ws (fun w => rfc_chars w /\ plain_end w) rfc_chars rfc_number js w -> no_newline w) /\
    (forall ms w, members no_ws (fun w => rfc_chars w /\ plain_end w) rfc_chars rfc_number ms w -> no_newline w)) by apply H.
  unfold no_ws. apply grammar_mind; intros; subst; try (match goal with A : _ /\ _ |- _ => destruct A end); cbn [str app]; nl.
Qed.

Lemma one_line B early W r j w rest : 2 <= B -> r < length W -> plain j w ->
  exists W' n, LineDecoder_Decode B early W r (w ++ x0a :: rest) = Ok (W', rest, LNode n) /\ tree_of W' n j /\ length W' = length W.
Proof.
  intros HB R J. pose proof (rfc_plain_lenient _ _ (tight_plain _ _ J)) as L. pose proof (plain_no_newline _ _ J) as N.
  destruct (proj2 (Decode_iff B early W r w w rest j HB R N ltac:(right; split; [reflexivity|exact (lenient_no_cr _ _ L)]))) as (W' & n & D & Tr).
  { exists [], w, []. rewrite app_nil_r. split; [reflexivity|]. split; [constructor|]. split; [exact L|]. split; [intros _; exact I|]. exists []. split; [constructor|reflexivity]. }
  exists W', n. split; [exact D|]. split; [exact Tr|]. destruct (takes_line B early W r w rest HB R N) as (W2 & o & D2 & _ & Le). rewrite D in D2. injection D2 as <- _. exact Le.
Qed.
(* The value of one line: what both forms of the decoder do. *)
Lemma decodeValue_node E pi B early W r d d' pt tag x s W' rest n v' : decoder_for E pt tag d -> NewTypeDecoder E (Some pt) tag = Ok (Some d') -> (exists e, kindOf E pt = Some (KPtr e)) ->
  LineDecoder_Decode B early W r s = Ok (W', rest, LNode n) -> Decode E pi W' d' (Some (pt, x)) n = Ok (Some (pt, v'), None) ->
  LineDecoder_DecodeValue E pi B early W r d pt x s = Ok (W', rest, v', None).
Proof.
  intros (d2 & Nd & Hd) Nd' (e & K) Ld De. assert (d2 = d') by congruence. subst d2. unfold LineDecoder_DecodeValue. rewrite Ld. cbn [bind]. destruct Hd as [->|[-> ->]].
  - rewrite De. reflexivity.
  - rewrite (C57_default_lem E pi) by (intros m H; congruence). rewrite Nd'. cbn [bind]. rewrite De. reflexivity.
Qed.
Lemma C59_lem E O O' m d t pt vs : go_env E -> (forall u, ~ cyclic E defaultOptions u) -> completed O O' -> tags_json E O' -> both_ways E O' pt t -> ~ hazard E O' t -> encoder_for E t O m -> decoder_for E pt (oTag O) d ->
  Forall (fun v => typed E t v /\ survives E O' t v /\ v <> VPtr None) vs ->
  exists s, encodeLines E m (map (fun v => Some (t, v)) vs) = Ok (s, map (fun _ => None) vs) /\
    forall pi B early W r zs, 2 <= B -> r < length W -> Forall (fun z => typed E t z /\ blank E t z) zs -> length zs = length vs ->
      exists W' vs', decodeLines E pi B early W r d pt (map (fun z => VPtr (Some z)) zs) s = Ok (W', [], map (fun v => (VPtr (Some v), None)) vs') /\ Forall2 (agree E O' t) vs vs' /\
        forall x, LineDecoder_DecodeValue E pi B early W' r d pt x [] = Ok (W', [], x, Some ErrEOF).
Proof.
  intros (Wf & ES & FS & WM & TJ) NC C Tj (P & Dc & Nl & Ba & Np) Hz Hm Hd F. pose proof Hm as (m' & Ne & Em). pose proof Hd as (d' & Nd & _).
  assert (Kp : exists e, kindOf E pt = Some (KPtr e)). { destruct P as (X & Tp & Kp & _). exists t. rewrite (typeOf_kindOf _ _ _ Tp), Kp. reflexivity. }
  induction F as [|v vs (T & Sv & Nv) F (s & En & IH)].
  - exists []. split; [reflexivity|]. intros pi B early W r zs HB R Fz Ez. destruct zs; [|discriminate]. exists W, []. split; [reflexivity|]. split; [constructor|]. intro x. destruct B as [|B]; [lia|].
    assert (Rl : ReadLine (S B) early [] = None) by reflexivity. unfold LineDecoder_DecodeValue, LineDecoder_Decode. cbn [length readLines]. rewrite Rl. reflexivity.
  - destruct (C58_write E O O' m' t v [] Wf ES NC FS WM C Tj Dc Hz Ba Np Ne T Sv Nv) as (w & j & Ew & Jp & Bk). cbn [app] in Ew. exists ((w ++ [x0a]) ++ s). split.
    + cbn [map encodeLines]. assert (Ev : LineEncoder_EncodeValue E m (Some (t, v)) = Ok (w ++ [x0a], None)).
      { unfold LineEncoder_EncodeValue. destruct Em as [->|[-> ->]]; [rewrite Ew; reflexivity|]. rewrite default_lem, Ne. cbn [bind]. rewrite Ew. reflexivity. }
      rewrite Ev. cbn [bind]. rewrite En. reflexivity.
    + intros pi B early W r zs HB R Fz Ez. destruct zs as [|z zs]; [discriminate|]. inversion Fz as [|? ? (Tz & Bz) Fz']; subst. injection Ez as Ez. rewrite <- app_assoc. cbn [app map decodeLines].
      destruct (one_line B early W r j w s HB R Jp) as (W1 & n & Ld & Tr & Le). destruct (C58_read E O O' pi W1 n d' t pt v z j Wf ES C P Dc Nl Hz Nd Tz Bz Tr Bk) as (v' & De & Ag).
      rewrite (decodeValue_node E pi B early W r d d' pt (oTag O) (VPtr (Some z)) _ W1 s n _ Hd Nd Kp Ld De). cbn [bind].
      destruct (IH pi B early W1 r zs HB ltac:(lia) Fz' Ez) as (W' & vs' & Dl & Ags & Eof). rewrite Dl. cbn [bind]. exists W', (v' :: vs'). split; [reflexivity|]. split; [constructor; assumption|exact Eof].
Qed.
(* One call takes one line, whatever is in it, so the next call is not affected by an error. *)
Lemma C59_resumes_lem E pi B early W r d t x line rest W' s' x' err : 2 <= B -> r < length W -> no_newline line ->
  LineDecoder_DecodeValue E pi B early W r d t x (line ++ x0a :: rest) = Ok (W', s', x', err) -> s' = rest /\ length W' = length W /\ err <> Some ErrEOF.
Proof.
  intros HB R N H. destruct (takes_line B early W r line rest HB R N) as (W2 & o & D & No & Le). unfold LineDecoder_DecodeValue in H. rewrite D in H. cbn [bind] in H.
  destruct o as [n| |e|]; [|congruence|injection H as <- <- _ <-; repeat split; auto; discriminate|injection H as <- <- _ <-; repeat split; auto; discriminate].
  destruct (match d with None => _ | Some _ => _ end) as [[y e]| |]; try discriminate. cbn [bind fst snd] in H. injection H as <- <- _ <-. repeat split; auto. destruct e; discriminate.
Qed.
(* What fails to encode writes nothing. *)
Lemma C59_failed_lem E m xs s es : encodeLines E m xs = Ok (s, es) ->
  exists ts, s = concat ts /\ Forall2 (fun x o => exists b, match m with None => AppendJSON E [] x | Some m => Encode E m [] x end = Ok (b, fst o) /\ snd o = match fst o with Some _ => [] | None => b ++ [x0a] end) xs (combine es ts) /\ length ts = length es.
Proof.
  revert s es. induction xs as [|x xs IH]; intros s es H; cbn [encodeLines] in H; [injection H as <- <-; exists []; repeat split; constructor|].
  unfold LineEncoder_EncodeValue in H. destruct (match m with None => _ | Some _ => _ end) as [[b e]| |] eqn:Eb; try discriminate. cbn [bind fst snd] in H.
  destruct (encodeLines E m xs) as [[s2 es2]| |]; [|destruct e; discriminate|destruct e; discriminate]. destruct (IH _ _ eq_refl) as (ts & -> & F & L).
  exists (match e with Some _ => [] | None => b ++ [x0a] end :: ts). destruct e as [e|]; cbn [bind fst snd] in H; injection H as <- <-;
    (split; [reflexivity|]; split; [|cbn; congruence]; cbn [combine]; constructor; [exists b; split; [exact Eb|reflexivity]|exact F]).
Qed.
Lemma C59_top : forall E O O' m d t pt vs, go_env E -> (forall u, ~ cyclic E defaultOptions u) -> completed O O' -> tags_json E O' -> both_ways E O' pt t -> ~ hazard E O' t -> encoder_for E t O m -> decoder_for E pt (oTag O) d ->
  Forall (fun v => typed E t v /\ survives E O' t v /\ v <> VPtr None) vs ->
  exists s, encodeLines E m (map (fun v => Some (t, v)) vs) = Ok (s, map (fun _ => None) vs) /\
    forall pi B early W r zs, 2 <= B -> r < length W -> Forall (fun z => typed E t z /\ blank E t z) zs -> length zs = length vs ->
      exists W' vs', decodeLines E pi B early W r d pt (map (fun z => VPtr (Some z)) zs) s = Ok (W', [], map (fun v => (VPtr (Some v), None)) vs') /\ Forall2 (agree E O' t) vs vs' /\
        forall x, LineDecoder_DecodeValue E pi B early W' r d pt x [] = Ok (W', [], x, Some ErrEOF).
Proof. intros. eapply C59_lem; eassumption. Qed.
(* One line, one value: what the decoder of values makes of its tree, or an error and the value as it was. *)
Lemma Decode_node_tree B early W r s W' s' n : LineDecoder_Decode B early W r s = Ok (W', s', LNode n) -> exists j, tree_of W' n j.
Proof.
  unfold LineDecoder_Decode. destruct (readLines _ _ _ _ _) as [[[l s1]|]|]; try discriminate. destruct (Document_Parse W r l) as [[w [[n' tail] [e|]]]| |] eqn:P; cbn [bind]; try discriminate. intro H.
  destruct (onlySpace _ _); [|discriminate]. injection H as <- <- <-. apply Parse_ok_iff in P as (d & s2 & w2 & j & E0 & E1 & E2 & E3 & E4 & -> & ->). exists j. eapply parsed_tree. exact E0.
Qed.
Lemma C59_line_lem E pi B early W r d t x line rest t0 W' s' x' err : 2 <= B -> r < length W -> no_newline line -> line_text line t0 ->
  LineDecoder_DecodeValue E pi B early W r d t x (line ++ x0a :: rest) = Ok (W', s', x', err) ->
  (forall j, line_value j t0 -> exists n e, tree_of W' n j /\ err = option_map ErrValue e /\
     match d with None => UnmarshalFromNode E W' n t x = Ok (x', e) | Some d => exists o, Decode E pi W' d (Some (t, x)) n = Ok (o, e) /\ x' = match o with Some (_, y) => y | None => x end end) /\
  ((forall j, ~ line_value j t0) -> x' = x /\ (err = Some ErrLine \/ exists e, err = Some (ErrParse e))).
Proof.
  intros HB R N Lt H. destruct (takes_line B early W r line rest HB R N) as (W2 & o & D & No & Le). unfold LineDecoder_DecodeValue in H. rewrite D in H. cbn [bind] in H. split.
  - intros j Lv. destruct (proj2 (Decode_iff B early W r line t0 rest j HB R N Lt) Lv) as (W3 & n & D3 & T3). rewrite D in D3. injection D3 as <- ->.
    destruct d as [d|].
    + destruct (Decode E pi W2 d (Some (t, x)) n) as [[o e]| |] eqn:De; try discriminate. cbn [bind fst snd] in H. injection H as <- <- <- <-. exists n, e. split; [exact T3|]. split; [reflexivity|]. exists o. split; [exact De|reflexivity].
    + destruct (UnmarshalFromNode E W2 n t x) as [[y e]| |] eqn:De; try discriminate. cbn [bind fst snd] in H. injection H as <- <- <- <-. exists n, e. split; [exact T3|]. split; [reflexivity|exact De].
  - intro Nv. destruct o as [n| |e|]; [|congruence|injection H as <- <- <- <-; split; eauto|injection H as <- <- <- <-; split; eauto].
    destruct (Decode_node_tree _ _ _ _ _ _ _ _ D) as (j & T). destruct (Nv j). apply (proj1 (Decode_iff B early W r line t0 rest j HB R N Lt)). eauto.
Qed.
