(* Top-level facts about Document.Parse, in the form used by PropsParser.v. *)
From Verif Require Import Bytes Tables Types JsonSpec Parser LexProofs ParserProofs ParserErr Doc DocSpec DocProofs.

(* ---- worlds ---- *)

Lemma replaceNth_self {A} (l : list A) i x : nth_error l i = Some x -> replaceNth l i x = l.
Proof. revert i; induction l; intros [|i]; simpl; intro H; try congruence. f_equal; auto. Qed.

Lemma nth_error_lt {A} (l : list A) i x : nth_error l i = Some x -> i < length l.
Proof. intro H. apply nth_error_Some. congruence. Qed.

Lemma putDoc_same w r d x : nth_error w r = Some d -> nth_error (putDoc w r x) r = Some x.
Proof. intro H. apply nth_error_replaceNth_same. eapply nth_error_lt; eauto. Qed.
Lemma putDoc_other w r r' x : r <> r' -> nth_error (putDoc w r x) r' = nth_error w r'.
Proof. apply nth_error_replaceNth_other. Qed.

(* ---- orInfo on the root ---- *)

Lemma orInfo_app a n b f :
  orInfo (a ++ n :: b) (length a) f = a ++ mkNode (N.lor (ninfo n) f) (nraw n) (nvalues n) :: b.
Proof. induction a; simpl; auto. f_equal; auto. Qed.

Lemma layout_cons b v : exists n r, layout b v = n :: r /\ (ninfo n < 256)%N.
Proof.
  destruct v; try (simpl; eexists _, _; split; [reflexivity|reflexivity]).
Qed.

Definition rootflag (l : list node) : list node := orInfo l 0 infRoot.

Lemma orInfo_layout ns v :
  orInfo (ns ++ layout (lenN ns) v) (length ns) infRoot = ns ++ rootflag (layout (lenN ns) v).
Proof.
  destruct (layout_cons (lenN ns) v) as (n & r & E & _). rewrite E. apply orInfo_app.
Qed.

Lemma info_Type_root i : info_Type (N.lor i infRoot) = info_Type i.
Proof.
  unfold info_Type, infRoot. change 256%N with (2 ^ 8)%N. rewrite <- !N.land_ones.
  rewrite N.land_lor_distr_l. change (N.land 512 (N.ones 8)) with 0%N. apply N.lor_0_r.
Qed.

Lemma unflag_rootflag l : map unflag (rootflag l) = map unflag l.
Proof.
  destruct l as [|n l]; auto. unfold rootflag. cbn [orInfo map]. f_equal. unfold unflag. cbn.
  rewrite info_Type_root. reflexivity.
Qed.

Lemma rootflag_denotes ns v : denotes (ns ++ rootflag (layout (lenN ns) v)) (lenN ns) v.
Proof.
  apply denotes_unflag. rewrite map_app, unflag_rootflag, <- map_app. apply denotes_unflag.
  apply layout_denotes.
Qed.

(* ---- parseNodes ---- *)

Lemma parseNodes_ok_iff ns s ns' id tail :
  parseNodes ns s = (ns', ParseOk id tail) <->
  exists s1 w v, s = s1 ++ w ++ tail /\ ws s1 /\ lenient_value v w /\ (is_num v = true -> num_stop tail) /\
                 ns' = ns ++ rootflag (layout (lenN ns) v) /\ id = lenN ns.
Proof.
  unfold parseNodes. split.
  - destruct (parseValue _ _ _ _) as [ns1 pos rest|[|]|] eqn:E; try discriminate.
    injection 1 as <- <- <-. apply parse_sound in E as (s1 & w & v & -> & H1 & H2 & H3 & -> & _).
    exists s1, w, v. rewrite orInfo_layout. auto 10.
  - intros (s1 & w & v & -> & H1 & H2 & H3 & -> & ->).
    rewrite (proj1 parse_complete v w H2); auto.
    + rewrite orInfo_layout. reflexivity.
    + unfold parseFuel. rewrite !app_length. lia.
Qed.

Lemma parseNodes_total ns s : snd (parseNodes ns s) <> ParseDiverges.
Proof.
  unfold parseNodes. destruct (parseValue _ _ _ _) as [| [|] |] eqn:E; simpl; try discriminate.
  exfalso. revert E. apply parse_terminates. unfold parseFuel. lia.
Qed.

Lemma parseNodes_fail ns s ns' tail e : parseNodes ns s = (ns', ParseFail tail e) ->
  ns' = ns /\ (forall ty, e = UnexpectedEOF ty -> tail = s) /\
  (forall p ty g w, e = ParseError p ty g w -> tail = []) /\
  parseValue (parseFuel s) ns s 0 = PErr e.
Proof.
  unfold parseNodes. destruct (parseValue _ _ _ _) as [| [|] |] eqn:E; try discriminate;
    injection 1 as <- <- <-; repeat split; intros; congruence.
Qed.

Lemma lenient_value_det v w tail v' w' tail' s1 s1' :
  s1 ++ w ++ tail = s1' ++ w' ++ tail' -> ws s1 -> ws s1' ->
  lenient_value v w -> lenient_value v' w' ->
  (is_num v = true -> num_stop tail) -> (is_num v' = true -> num_stop tail') ->
  v = v' /\ w = w' /\ tail = tail' /\ s1 = s1'.
Proof.
  intros E H1 H1' H2 H2' H3 H3'.
  assert (P : parseNodes [] (s1 ++ w ++ tail) = (rootflag (layout 0 v), ParseOk 0 tail)).
  { apply (parseNodes_ok_iff []). exists s1, w, v. auto 10. }
  assert (P' : parseNodes [] (s1 ++ w ++ tail) = (rootflag (layout 0 v'), ParseOk 0 tail')).
  { rewrite E. apply (parseNodes_ok_iff []). exists s1', w', v'. auto 10. }
  rewrite P' in P. injection P; intros Et El; subst tail'.
  assert (v = v').
  { pose proof (rootflag_denotes [] v) as D. pose proof (rootflag_denotes [] v') as D'.
    change (lenN (@nil node)) with 0%N in *. cbn [app] in *. rewrite El in D'. eapply denotes_det; eauto. }
  subst v'.
  rewrite !app_assoc in E. apply app_inv_tail in E.
  assert (s1 = s1').
  { apply lenient_value_start in H2 as (c & r & -> & Hc). apply lenient_value_start in H2' as (c' & r' & -> & Hc').
    apply start_not_ws in Hc, Hc'.
    destruct (split_ws s1 s1' c' r' (c :: r) H1 Hc' (eq_sym E)) as (s2 & -> & E2).
    destruct s2 as [|x s2]; [rewrite app_nil_r; auto|]. exfalso. simpl in E2. injection E2; intros; subst.
    apply Forall_app in H1' as [_ H1']. inversion H1'; subst. contradiction. }
  subst s1'. apply app_inv_head in E. auto.
Qed.

(* ---- Document_Parse ---- *)

(* Parse on document r succeeds with node n and tail. *)
Lemma Parse_ok_iff W r s W' n tail :
  Document_Parse W r s = Ok (W', (n, tail, None)) <->
  exists d s1 w v, nth_error W r = Some d /\ s = s1 ++ w ++ tail /\ ws s1 /\ lenient_value v w /\
    (is_num v = true -> num_stop tail) /\
    W' = putDoc W r (mkDoc (dnodes d ++ rootflag (layout (lenN (dnodes d)) v)) (drev d)) /\
    n = mkN (lenN (dnodes d)) (drev d) (Some r).
Proof.
  unfold Document_Parse. split.
  - destruct (nth_error W r) as [d|]; [|discriminate].
    destruct (parseNodes (dnodes d) s) as [ns pr] eqn:E. destruct pr as [id t|t e|]; try discriminate.
    apply parseNodes_ok_iff in E as (s1 & w & v & E1 & E2 & E3 & E4 & -> & ->).
    injection 1 as <- <- <-. exists d, s1, w, v. auto 10.
  - intros (d & s1 & w & v & -> & E1 & E2 & E3 & E4 & -> & ->).
    destruct (parseNodes (dnodes d) s) as [ns pr] eqn:E.
    assert (parseNodes (dnodes d) s = (dnodes d ++ rootflag (layout (lenN (dnodes d)) v), ParseOk (lenN (dnodes d)) tail)) as P.
    { apply parseNodes_ok_iff. exists s1, w, v. auto 10. }
    rewrite P in E. injection E as <- <-. reflexivity.
Qed.

Lemma parsed_tree W r d v : nth_error W r = Some d ->
  tree_of (putDoc W r (mkDoc (dnodes d ++ rootflag (layout (lenN (dnodes d)) v)) (drev d)))
          (mkN (lenN (dnodes d)) (drev d) (Some r)) v.
Proof.
  intro H. exists r, (mkDoc (dnodes d ++ rootflag (layout (lenN (dnodes d)) v)) (drev d)).
  split; [reflexivity|]. split; [eapply putDoc_same; eauto|]. split; [reflexivity|].
  apply rootflag_denotes.
Qed.

Lemma tree_of_det W n v v' : tree_of W n v -> tree_of W n v' -> v = v'.
Proof.
  intros (r & d & E1 & E2 & E3 & E4) (r' & d' & F1 & F2 & F3 & F4).
  rewrite E1 in F1; injection F1 as <-. rewrite E2 in F2; injection F2 as <-.
  eapply denotes_det; eauto.
Qed.

Lemma Parse_tree_iff W r s v tail :
  (exists W' n, Document_Parse W r s = Ok (W', (n, tail, None)) /\ tree_of W' n v) <->
  r < length W /\
  exists s1 w, s = s1 ++ w ++ tail /\ ws s1 /\ lenient_value v w /\ (is_num v = true -> num_stop tail).
Proof.
  split.
  - intros (W' & n & H & T). apply Parse_ok_iff in H as (d & s1 & w & v' & E0 & E1 & E2 & E3 & E4 & -> & ->).
    split; [eapply nth_error_lt; eauto|]. exists s1, w.
    rewrite (tree_of_det _ _ _ _ T (parsed_tree _ _ _ v' E0)) in *. auto.
  - intros (Hr & s1 & w & E1 & E2 & E3 & E4).
    destruct (nth_error W r) as [d|] eqn:Ed; [|apply nth_error_None in Ed; lia].
    eexists _, _. split; [|apply parsed_tree; eauto].
    apply Parse_ok_iff. exists d, s1, w, v. auto 10.
Qed.

Lemma Parse_tree_unique W r s W1 n1 t1 v1 W2 n2 t2 v2 :
  Document_Parse W r s = Ok (W1, (n1, t1, None)) -> tree_of W1 n1 v1 ->
  Document_Parse W r s = Ok (W2, (n2, t2, None)) -> tree_of W2 n2 v2 ->
  v1 = v2 /\ t1 = t2.
Proof.
  intros H1 T1 H2 T2. rewrite H1 in H2. injection H2 as <- <- <-. split; auto. eapply tree_of_det; eauto.
Qed.

(* The decomposition of the input does not depend on a document. *)
Lemma Parse_split_unique s1 w tail v s1' w' tail' v' :
  s1 ++ w ++ tail = s1' ++ w' ++ tail' -> ws s1 -> ws s1' ->
  lenient_value v w -> lenient_value v' w' ->
  (is_num v = true -> num_stop tail) -> (is_num v' = true -> num_stop tail') ->
  v = v' /\ w = w' /\ tail = tail' /\ s1 = s1'.
Proof. apply lenient_value_det. Qed.

(* ---- RFC texts are lenient texts, except strings ending in an escaped backslash ---- *)

Lemma rfc_esc w : rfc_chars w -> esc_content w.
Proof.
  induction 1 as [|c w Hc Hq Hb Hw IH|c w Hc Hw IH|a b c d w Ha Hb Hc Hd Hw IH].
  - constructor.
  - apply esc_plain; auto.
  - apply esc_pair; auto.
  - apply esc_pair.
    assert (N : forall x, hexdigit x -> x <> x22 /\ x <> x5c).
    { intros x Hx. unfold hexdigit in Hx. split; intros ->; vm_compute in Hx;
        destruct Hx as [[A B]|[[A B]|[A B]]]; congruence. }
    repeat (apply esc_plain; [apply N; auto|apply N; auto|]). exact IH.
Qed.

Lemma esc_first_quote w : esc_content w -> In x22 w ->
  exists a b, w = a ++ x5c :: x22 :: b /\ ~ In x22 a /\ esc_content b.
Proof.
  induction 1 as [|c w Hq Hb Hw IH|c w Hw IH]; intro Hin.
  - destruct Hin.
  - destruct Hin as [->|Hin]; [congruence|]. destruct (IH Hin) as (a & b & -> & Ha & Hb').
    exists (c :: a), b. split; auto. split; auto. intros [->|?]; auto.
  - destruct Hin as [E|Hin]; [discriminate|].
    destruct (beqb_spec c x22) as [->|Hc].
    + exists [], w. auto.
    + destruct Hin as [->|Hin]; [congruence|]. destruct (IH Hin) as (a & b & -> & Ha & Hb').
      exists (x5c :: c :: a), b. split; auto. split; auto.
      intros [?|[?|?]]; auto; try discriminate.
Qed.

Lemma in_quote_dec (w : bytes) : In x22 w \/ ~ In x22 w.
Proof.
  induction w as [|c w [H|H]]; [right; intros []|left; right; auto|].
  destruct (beqb_spec c x22) as [->|Hc]; [left; left; auto|right; intros [?|?]; auto].
Qed.

Lemma esc_lenient w : esc_content w -> plain_end w -> lenient_string w.
Proof.
  intros H Hp. destruct (in_quote_dec w) as [Hin|Hn].
  - destruct (esc_first_quote w H Hin) as (a & b & -> & Ha & Hb). apply ls_esc; auto.
  - destruct Hp as [Hp|Hp]; [contradiction|]. apply ls_plain; auto.
Qed.

Lemma digit_not_end c : digit c -> ~ num_end c.
Proof.
  intros H E. unfold digit in H. destruct E as [[->|[->|[->| ->]]]|[->|[->| ->]]]; vm_compute in H; destruct H; congruence.
Qed.

Lemma rfc_lenient_number w : rfc_number w -> lenient_number w.
Proof.
  assert (D : forall ds, Forall digit ds -> Forall (fun b => ~ num_end b) ds).
  { intros ds Hd. eapply Forall_impl; [|exact Hd]. apply digit_not_end. }
  assert (X : forall c, c = x2e \/ c = x65 \/ c = x45 \/ c = x2d \/ c = x2b -> ~ num_end c).
  { intros c Hc E. destruct E as [[->|[->|[->| ->]]]|[->|[->| ->]]];
      decompose [or] Hc; discriminate. }
  intro H. destruct H as [m i f e Hm Hi Hf He].
  assert (Ff : Forall (fun b => ~ num_end b) f).
  { destruct Hf as [|d ds Hd]; [constructor|]. constructor; [apply X; auto|auto]. }
  assert (Fe : Forall (fun b => ~ num_end b) e).
  { destruct He as [|x d ds Hx Hd|x sg d ds Hx Hs Hd]; [constructor| |].
    - constructor; [apply X; tauto|auto].
    - constructor; [apply X; tauto|]. constructor; [apply X; tauto|auto]. }
  assert (Fi : exists c i', i = c :: i' /\ digit c /\ Forall (fun b => ~ num_end b) i').
  { destruct Hi as [|d ds Hd Hds].
    - exists x30, []. repeat split; try constructor; vm_compute; congruence.
    - exists d, ds. split; auto. split; auto. unfold digit19, digit in *. lia. }
  destruct Fi as (c & i' & -> & Hc & Fi).
  destruct Hm as [->| ->].
  - exists c, (i' ++ f ++ e). split; auto. split; auto. repeat (apply Forall_app; split); auto.
  - exists x2d, ((c :: i') ++ f ++ e). split; auto. split; auto.
    repeat (apply Forall_app; split); auto. constructor; auto. apply digit_not_end; auto.
Qed.

Section Mono.
  Variables (wsA wsB strA strB keyA keyB numA numB : bytes -> Prop).
  Hypothesis Hw : forall w, wsA w -> wsB w.
  Hypothesis Hs : forall w, strA w -> strB w.
  Hypothesis Hk : forall w, keyA w -> keyB w.
  Hypothesis Hn : forall w, numA w -> numB w.
  Lemma grammar_mono :
    (forall v w, value wsA strA keyA numA v w -> value wsB strB keyB numB v w) /\
    (forall v w, elements wsA strA keyA numA v w -> elements wsB strB keyB numB v w) /\
    (forall v w, members wsA strA keyA numA v w -> members wsB strB keyB numB v w).
  Proof.
    apply grammar_mind; intros.
    - apply v_str; auto.
    - apply v_num; auto.
    - apply v_true.
    - apply v_false.
    - apply v_null.
    - apply v_arr0; auto.
    - apply v_arr; auto.
    - apply v_obj0; auto.
    - apply v_obj; auto.
    - apply el_one; auto.
    - apply el_cons; auto.
    - apply mem_one; auto.
    - apply mem_cons; auto.
  Qed.
End Mono.

Lemma value_mono (wsA wsB strA strB keyA keyB numA numB : bytes -> Prop) :
  (forall w, wsA w -> wsB w) -> (forall w, strA w -> strB w) -> (forall w, keyA w -> keyB w) ->
  (forall w, numA w -> numB w) ->
  forall v w, value wsA strA keyA numA v w -> value wsB strB keyB numB v w.
Proof. intros A B C D. exact (proj1 (grammar_mono _ _ _ _ _ _ _ _ A B C D)). Qed.

Lemma rfc_plain_lenient v w : rfc_value_plain v w -> lenient_value v w.
Proof.
  apply value_mono; auto using rfc_esc, rfc_lenient_number.
  intros u [H1 H2]. apply esc_lenient; auto. apply rfc_esc; auto.
Qed.

Lemma C01_ok W r v s w tail :
  r < length W -> rfc_value_plain v w -> ws s -> (is_num v = true -> num_stop tail) ->
  exists W' n, Document_Parse W r (s ++ w ++ tail) = Ok (W', (n, tail, None)) /\ tree_of W' n v.
Proof.
  intros Hr Hv Hs Ht. apply Parse_tree_iff. split; auto. exists s, w. auto using rfc_plain_lenient.
Qed.

(* Witnesses: a valid text that is rejected, and one that is accepted with another tree. *)
Lemma rfc_backslash : rfc_value (JStr [x5c; x5c]) [x22; x5c; x5c; x22].
Proof. apply (v_str _ _ _ _ [x5c; x5c]). apply chars_esc; simpl; auto. constructor. Qed.

Definition wrong_text : bytes := [x5b; x22; x5c; x5c; x22; x2c; x22; x2c; x30; x22; x5d].
Lemma rfc_wrong : rfc_value (JArr [JStr [x5c; x5c]; JStr [x2c; x30]]) wrong_text.
Proof.
  apply (v_arr _ _ _ _ _ ([] ++ [x22; x5c; x5c; x22] ++ [] ++ x2c :: [x22; x2c; x30; x22])).
  apply el_cons.
  - constructor.
  - apply rfc_backslash.
  - constructor.
  - apply (el_one _ _ _ _ [] _ [x22; x2c; x30; x22] []).
    + constructor.
    + apply (v_str _ _ _ _ [x2c; x30]). repeat (apply chars_plain; [vm_compute; congruence|congruence|congruence|]). constructor.
    + constructor.
Qed.

(* ---- errors ---- *)

Lemma Parse_total W r s : r < length W ->
  exists W' n tail e, Document_Parse W r s = Ok (W', (n, tail, e)).
Proof.
  intro Hr. unfold Document_Parse.
  destruct (nth_error W r) as [d|] eqn:Ed; [|apply nth_error_None in Ed; lia].
  pose proof (parseNodes_total (dnodes d) s). destruct (parseNodes (dnodes d) s) as [ns [id t|t e|]]; simpl in *; eauto 8.
  congruence.
Qed.

Lemma parse_fuel_indep ns s pos f : 3 * length s + 1 <= f ->
  parseValue f ns s pos <> PFuel /\ parseValue f ns s pos = parseValue (3 * length s + 1) ns s pos.
Proof.
  intro H. split; [apply parse_terminates; auto|]. apply parseValue_mono; auto.
  apply parse_terminates; lia.
Qed.

Lemma Parse_fail_inv W r s W' n tail e :
  Document_Parse W r s = Ok (W', (n, tail, Some e)) ->
  exists d, nth_error W r = Some d /\ W' = W /\ n = mkN 0 0 None /\
    (forall ty, e = UnexpectedEOF ty -> tail = s) /\
    (forall p ty g w, e = ParseError p ty g w -> tail = []) /\
    parseValue (parseFuel s) (dnodes d) s 0 = PErr e.
Proof.
  unfold Document_Parse. destruct (nth_error W r) as [d|] eqn:Ed; [|discriminate].
  destruct (parseNodes (dnodes d) s) as [ns [id t|t e0|]] eqn:E; try discriminate.
  injection 1 as <- <- <- <-. apply parseNodes_fail in E as (-> & H1 & H2 & H3).
  exists d. repeat split; auto. unfold putDoc. apply replaceNth_self. destruct d; auto.
Qed.

Lemma Parse_fail_intro W r d s e :
  nth_error W r = Some d -> parseValue (parseFuel s) (dnodes d) s 0 = PErr e ->
  Document_Parse W r s =
    Ok (W, (mkN 0 0 None, match e with UnexpectedEOF _ => s | _ => [] end, Some e)).
Proof.
  intros Ed E. unfold Document_Parse, parseNodes. rewrite Ed, E.
  assert (putDoc W r (mkDoc (dnodes d) (drev d)) = W).
  { unfold putDoc. apply replaceNth_self. destruct d; auto. }
  destruct e; cbv beta iota; rewrite H; reflexivity.
Qed.

Lemma C04_ok W r s W' n tail e :
  Document_Parse W r s = Ok (W', (n, tail, e)) ->
  match e with
  | None => exists consumed, s = consumed ++ tail
  | Some (UnexpectedEOF _) => tail = s /\ n = mkN 0 0 None
  | Some (ParseError pos _ got _) =>
      tail = [] /\ n = mkN 0 0 None /\
      exists before after, s = before ++ after /\ pos = lenN before /\ (pos < lenN s)%N /\
      match got with
      | GotByte c => exists r, after = c :: r
      | GotStr w => w <> [] /\ exists r, after = w ++ r
      end
  end.
Proof.
  destruct e as [e|]; intro H.
  - apply Parse_fail_inv in H as (d & Ed & -> & -> & H1 & H2 & H3). destruct e as [ty|p ty g w].
    + split; eauto.
    + split; eauto. split; auto. apply (proj1 (parse_errs _)) in H3 as (u & v & -> & -> & Ht).
      exists u, v. split; auto. split; [lia|]. split; [|exact Ht].
      rewrite lenN_app. destruct g; simpl in Ht.
      * destruct Ht as (r' & ->). len.
      * destruct Ht as (Hn & r' & ->). destruct s; [congruence|]. len.
  - apply Parse_ok_iff in H as (d & s1 & w & v & _ & -> & _). exists (s1 ++ w). rewrite app_assoc. auto.
Qed.

Lemma C05_err W r s W' n tail p ty g w t :
  Document_Parse W r s = Ok (W', (n, tail, Some (ParseError p ty g w))) ->
  Document_Parse W r (s ++ t) = Ok (W', (n, tail, Some (ParseError p ty g w))).
Proof.
  intro H. apply Parse_fail_inv in H as (d & Ed & -> & -> & _ & H2 & H3). rewrite (H2 _ _ _ _ eq_refl).
  rewrite (Parse_fail_intro W r d (s ++ t) (ParseError p ty g w) Ed); [reflexivity|].
  assert (L : parseFuel s <= parseFuel (s ++ t)) by (unfold parseFuel; rewrite app_length; lia).
  pose proof (proj1 (parse_stable t (parseFuel s)) (dnodes d) s 0%N) as S. rewrite H3 in S. simpl in S.
  rewrite <- S. apply parseValue_mono; auto. rewrite S. discriminate.
Qed.

Lemma C05_ok W r s W' n rest v t :
  Document_Parse W r s = Ok (W', (n, rest, None)) -> tree_of W' n v ->
  (is_num v = true -> rest <> []) ->
  Document_Parse W r (s ++ t) = Ok (W', (n, rest ++ t, None)).
Proof.
  intros H T Hnum. apply Parse_ok_iff in H as (d & s1 & w & v' & Ed & -> & H1 & H2 & H3 & -> & ->).
  rewrite (tree_of_det _ _ _ _ T (parsed_tree _ _ _ v' Ed)) in *.
  apply Parse_ok_iff. exists d, s1, w, v'. rewrite <- !app_assoc. repeat split; auto.
  intro Hn. specialize (H3 Hn). specialize (Hnum Hn). destruct rest; [congruence|]. exact H3.
Qed.

Lemma lenient_number_start v w : lenient_value v w -> forall c r, w = c :: r ->
  is_num v = true <-> (c = x2d \/ digit c).
Proof.
  intros H c r E. split.
  - intro Hn. destruct H; try discriminate Hn. destruct H as (c' & w' & -> & Hc & _).
    injection E as -> ->. auto.
  - intro Hc. destruct v; auto; exfalso; inversion H; subst;
      try (match goal with H : str _ = _ |- _ => vm_compute in H end);
      match goal with H : _ :: _ = _ :: _ |- _ => injection H; intros; subst end;
      destruct Hc as [Hc|Hc]; try discriminate Hc; vm_compute in Hc; destruct Hc; congruence.
Qed.

(* Every proper prefix of an accepted text that is not a number is reported as UnexpectedEOF. *)
Lemma C06_prefix W r s0 w v p q :
  r < length W -> ws s0 -> lenient_value v w -> is_num v = false -> s0 ++ w = p ++ q -> q <> [] ->
  exists ty, Document_Parse W r p = Ok (W, (mkN 0 0 None, p, Some (UnexpectedEOF ty))).
Proof.
  intros Hr Hs Hv Hn E Hq.
  assert (F : forall W' n tail, Document_Parse W r (p ++ q) = Ok (W', (n, tail, None)) -> tail = []).
  { intros W' n tail H.
    assert (exists W' n, Document_Parse W r (p ++ q) = Ok (W', (n, [], None)) /\ tree_of W' n v) as (W2 & n2 & H2 & _).
    { apply Parse_tree_iff. split; auto. exists s0, w. rewrite app_nil_r, E. split; auto. split; auto. split; auto. congruence. }
    congruence. }
  destruct (Parse_total W r p Hr) as (W1 & n1 & t1 & e1 & H1).
  destruct e1 as [[ty|pp ty g ww]|].
  - exists ty. pose proof H1 as H1'. apply Parse_fail_inv in H1' as (d & Ed & -> & -> & K1 & _).
    rewrite (K1 _ eq_refl) in H1. exact H1.
  - exfalso. apply C05_err with (t := q) in H1.
    assert (exists W' n, Document_Parse W r (p ++ q) = Ok (W', (n, [], None)) /\ tree_of W' n v) as (W2 & n2 & H2 & _).
    { apply Parse_tree_iff. split; auto. exists s0, w. rewrite app_nil_r, E. split; auto. split; auto. split; auto. congruence. }
    congruence.
  - exfalso. pose proof H1 as H1'.
    apply Parse_ok_iff in H1' as (d & s1 & w1 & v1 & Ed & Ep & K1 & K2 & K3 & -> & ->).
    assert (C : is_num v1 = true /\ t1 = [] -> False).
    { intros [Hn1 ->]. subst p. rewrite app_nil_r in E.
      pose proof (lenient_value_start _ _ K2) as (c & rr & -> & Hc).
      pose proof (lenient_value_start _ _ Hv) as (c' & rr' & -> & Hc').
      pose proof (proj1 (lenient_number_start _ _ K2 _ _ eq_refl) Hn1) as Hc1.
      apply start_not_ws in Hc, Hc'.
      rewrite <- app_assoc in E. simpl in E.
      destruct (split_ws s1 s0 c' rr' (c :: rr ++ q) K1 Hc' E) as (s2 & -> & E2).
      destruct s2 as [|x s2].
      - simpl in E2. injection E2; intros; subst.
        apply (lenient_number_start _ _ Hv _ _ eq_refl) in Hc1. congruence.
      - simpl in E2. injection E2; intros; subst. apply Forall_app in Hs as [_ Hs].
        inversion Hs; subst. contradiction. }
    assert (G : is_num v1 = true -> t1 <> []).
    { intros Hn1 Ht. auto. }
    pose proof (C05_ok _ _ _ _ _ _ _ q H1 (parsed_tree _ _ _ v1 Ed) G) as H2.
    apply F in H2. destruct t1; [simpl in H2|discriminate]. congruence.
Qed.

Lemma prefix_dec (w l : bytes) : (exists x, l = w ++ x) \/ (forall x, l <> w ++ x).
Proof.
  revert l. induction w as [|c w IH]; intros l; [left; exists l; auto|].
  destruct l as [|d l]; [right; discriminate|].
  destruct (beqb_spec c d) as [->|Hne].
  - destruct (IH l) as [(x & ->)|H]; [left; exists x; auto|right; intros x E; injection E; apply H].
  - right. intros x E. injection E. congruence.
Qed.

Lemma C06_complete W r s W' n tail ty :
  Document_Parse W r s = Ok (W', (n, tail, Some (UnexpectedEOF ty))) ->
  ((ty = TypeBoolean \/ ty = TypeNull) -> ~ broken_literal s) ->
  exists t W2 n2, Document_Parse W r (s ++ t) = Ok (W2, (n2, [], None)).
Proof.
  intros H Hb. apply Parse_fail_inv in H as (d & Ed & -> & -> & _ & _ & H3).
  apply (proj1 (parse_eof _)) in H3.
  - destruct H3 as (t & s1 & w & v & E & K1 & K2 & K3). exists t.
    assert (exists W' n, Document_Parse W r (s ++ t) = Ok (W', (n, [], None)) /\ tree_of W' n v) as (W2 & n2 & H2 & _).
    { apply Parse_tree_iff. split; [eapply nth_error_lt; eauto|]. exists s1, w. rewrite app_nil_r, E.
      split; auto. split; auto. split; auto. congruence. }
    eauto.
  - intros Hlit u w lit Hin Es Hlen Hh. destruct (prefix_dec w lit) as [P|P]; auto.
    exfalso. apply Hb.
    + unfold eof_lit in Hlit. apply orb_true_iff in Hlit as [Hl|Hl]; apply N.eqb_eq in Hl; auto.
    + exists u, w, lit. auto.
Qed.

(* ---- nodes ---- *)

Lemma C07_fail W r s W' n tail e :
  Document_Parse W r s = Ok (W', (n, tail, Some e)) -> W' = W.
Proof. intro H. apply Parse_fail_inv in H as (d & _ & -> & _). reflexivity. Qed.

Lemma rootflag_length l : length (rootflag l) = length l.
Proof. destruct l; reflexivity. Qed.

(* refs of a layout stay inside it *)
Lemma arrVs_range v vs : forall b, In v (arrVs b vs) ->
  (b <= vid v < b + N.of_nat (list_sum (map jsize vs)))%N.
Proof.
  induction vs as [|x vs IH]; intros b; simpl; [tauto|].
  assert (Hx : 0 < jsize x) by (destruct x; simpl; lia).
  intros [<-|H]; simpl; [lia|]. apply IH in H. lia.
Qed.
Lemma objVs_range v ms : forall b, In v (objVs b ms) ->
  (b <= vid v < b + N.of_nat (list_sum (map (fun m => jsize (snd m)) ms)))%N.
Proof.
  induction ms as [|[k x] vs IH]; intros b; simpl; [tauto|].
  assert (Hx : 0 < jsize x) by (destruct x; simpl; lia).
  intros [<-|H]; simpl; [lia|]. apply IH in H. lia.
Qed.

Lemma layouts_refs_aux n v vs :
  Forall (fun t => forall b, In n (layout b t) -> (b < vid v < b + N.of_nat (jsize t))%N) vs ->
  forall b, In n (layouts b vs) -> (b < vid v < b + N.of_nat (list_sum (map jsize vs)))%N.
Proof.
  induction 1 as [|x vs Hx Hvs IH]; simpl; intros b Hin; [destruct Hin|].
  apply in_app_or in Hin as [Hin|Hin].
  - apply Hx in Hin. lia.
  - apply IH in Hin. lia.
Qed.
Lemma layoutm_refs_aux n v ms :
  Forall (fun m => forall b, In n (layout b (snd m)) -> (b < vid v < b + N.of_nat (jsize (snd m)))%N) ms ->
  forall b, In n (layoutm b ms) -> (b < vid v < b + N.of_nat (list_sum (map (fun m => jsize (snd m)) ms)))%N.
Proof.
  induction 1 as [|x vs Hx Hvs IH]; simpl; intros b Hin; [destruct Hin|].
  apply in_app_or in Hin as [Hin|Hin].
  - apply Hx in Hin. lia.
  - apply IH in Hin. lia.
Qed.

Lemma layout_refs n v t : In v (nvalues n) ->
  forall b, In n (layout b t) -> (b < vid v < b + N.of_nat (jsize t))%N.
Proof.
  intro Hv. induction t using jval_ind'; intros b Hn; try (simpl in Hn; destruct Hn as [<-|[]]; destruct Hv).
  - rewrite layout_arr in Hn. cbn [jsize]. destruct Hn as [<-|Hn].
    + apply arrVs_range in Hv. lia.
    + apply (layouts_refs_aux n v) in Hn; auto. lia.
  - rewrite layout_obj in Hn. cbn [jsize]. destruct Hn as [<-|Hn].
    + apply objVs_range in Hv. lia.
    + apply (layoutm_refs_aux n v) in Hn; auto. lia.
Qed.

Lemma rootflag_values l n v : In n (rootflag l) -> In v (nvalues n) ->
  exists n', In n' l /\ In v (nvalues n').
Proof.
  destruct l as [|x l]; [intros []|]. intros [<-|Hn] Hv.
  - exists x. split; [left; auto|exact Hv].
  - exists n. split; [right; auto|auto].
Qed.

Lemma getNode_in ns id n : getNode ns id = Some n -> In n ns.
Proof.
  intro H. pose proof (getNode_lt _ _ _ H). rewrite getNode_nth in H by auto. eapply nth_error_In; eauto.
Qed.

Lemma getNode_app2 ns x id : (lenN ns <= id)%N -> getNode (ns ++ x) id = getNode x (id - lenN ns).
Proof.
  intro H. unfold getNode. rewrite lenN_app.
  destruct (N.ltb_spec id (lenN ns + lenN x)), (N.ltb_spec (id - lenN ns) (lenN x)); try lia; auto.
  rewrite nth_error_app2 by (unfold lenN in *; lia). f_equal. unfold lenN. lia.
Qed.

Lemma layout_reach ns t x y :
  reach (ns ++ rootflag (layout (lenN ns) t)) x y -> (lenN ns <= x)%N -> (lenN ns <= y)%N.
Proof.
  induction 1 as [|a n v b E Hv R IH]; auto. intro Ha. apply IH.
  rewrite getNode_app2 in E by auto. apply getNode_in in E.
  destruct (rootflag_values _ _ _ E Hv) as (n' & Hn' & Hv').
  pose proof (layout_refs _ _ _ Hv' _ Hn'). lia.
Qed.

Lemma C07_ok W r s W' n tail :
  Document_Parse W r s = Ok (W', (n, tail, None)) ->
  exists d new, nth_error W r = Some d /\
    W' = putDoc W r (mkDoc (dnodes d ++ new) (drev d)) /\
    n = mkN (lenN (dnodes d)) (drev d) (Some r) /\ new <> [] /\
    forall x, reach (dnodes d ++ new) (nid n) x -> (lenN (dnodes d) <= x)%N.
Proof.
  intro H. apply Parse_ok_iff in H as (d & s1 & w & v & Ed & _ & _ & _ & _ & -> & ->).
  exists d, (rootflag (layout (lenN (dnodes d)) v)). repeat split; auto.
  - destruct v; discriminate.
  - intros x R. eapply layout_reach; eauto. simpl; lia.
Qed.

(* ---- serialising what was parsed ---- *)

Lemma drop_ws_refl w : drop_ws w w.
Proof. induction w; constructor; auto. Qed.
Lemma drop_ws_ws s : ws s -> drop_ws s [].
Proof. induction 1; [constructor|apply dw_drop; auto]. Qed.
Lemma drop_ws_app a a' b b' : drop_ws a a' -> drop_ws b b' -> drop_ws (a ++ b) (a' ++ b').
Proof. intro H. revert b b'. induction H; simpl; intros; auto; constructor; auto. Qed.
Lemma drop_ws_skip s w w' : ws s -> drop_ws w w' -> drop_ws (s ++ w) w'.
Proof. intros H. apply (drop_ws_app s []). apply drop_ws_ws; auto. Qed.
Lemma drop_ws_skipr s w w' : ws s -> drop_ws w w' -> drop_ws (w ++ s) w'.
Proof. intros H Hw. rewrite <- (app_nil_r w'). apply drop_ws_app; auto. apply drop_ws_ws; auto. Qed.

Definition no_ws (s : bytes) : Prop := s = [].
Definition pmember (m : bytes * jval) : bytes := x22 :: fst m ++ x22 :: x3a :: print (snd m).

Lemma print_drop strOK keyOK numOK :
  (forall v w, value ws strOK keyOK numOK v w -> drop_ws w (print v)) /\
  (forall vs w, elements ws strOK keyOK numOK vs w -> drop_ws w (join x2c (map print vs))) /\
  (forall ms w, members ws strOK keyOK numOK ms w -> drop_ws w (join x2c (map pmember ms))).
Proof.
  apply grammar_mind; intros; try apply drop_ws_refl.
  - simpl. apply dw_keep. apply drop_ws_skip; auto. apply drop_ws_refl.
  - simpl. apply dw_keep. apply drop_ws_app; auto. apply drop_ws_refl.
  - simpl. apply dw_keep. apply drop_ws_skip; auto. apply drop_ws_refl.
  - simpl. apply dw_keep. apply drop_ws_app; auto. apply drop_ws_refl.
  - apply drop_ws_skip; auto. apply drop_ws_skipr; auto.
  - simpl. destruct vs as [|v' vs]; [inversion e|]. cbn [map].
    change (join x2c (print v :: print v' :: map print vs)) with
      (print v ++ x2c :: join x2c (map print (v' :: vs))).
    apply drop_ws_skip; auto. apply drop_ws_app; auto. apply drop_ws_skip; auto. apply dw_keep. auto.
  - cbn. apply drop_ws_skip; auto. apply dw_keep. apply drop_ws_app; [apply drop_ws_refl|].
    apply dw_keep. apply drop_ws_skip; auto. apply dw_keep. apply drop_ws_skip; auto. apply drop_ws_skipr; auto.
  - destruct ms as [|v' ms]; [inversion m|]. cbn [map].
    change (join x2c (pmember (k, v) :: pmember v' :: map pmember ms)) with
      (pmember (k, v) ++ x2c :: join x2c (map pmember (v' :: ms))).
    apply drop_ws_skip; auto. unfold pmember at 1; cbn [fst snd].
    rewrite <- app_comm_cons, <- app_assoc, <- !app_comm_cons.
    apply dw_keep. apply drop_ws_app; [apply drop_ws_refl|].
    apply dw_keep. apply drop_ws_skip; auto. apply dw_keep. apply drop_ws_skip; auto.
    apply drop_ws_app; auto. apply drop_ws_skip; auto. apply dw_keep. auto.
Qed.

Lemma print_value strOK keyOK numOK :
  (forall v w, value ws strOK keyOK numOK v w -> value no_ws strOK keyOK numOK v (print v)) /\
  (forall vs w, elements ws strOK keyOK numOK vs w -> elements no_ws strOK keyOK numOK vs (join x2c (map print vs))) /\
  (forall ms w, members ws strOK keyOK numOK ms w -> members no_ws strOK keyOK numOK ms (join x2c (map pmember ms))).
Proof.
  apply grammar_mind; intros; try (constructor; assumption).
  - apply (v_arr0 _ _ _ _ []). reflexivity.
  - apply (v_obj0 _ _ _ _ []). reflexivity.
  - simpl. pose proof (el_one no_ws strOK keyOK numOK [] v (print v) [] eq_refl H eq_refl) as K.
    rewrite app_nil_r in K. exact K.
  - destruct vs as [|v' vs]; [inversion e|].
    exact (el_cons no_ws strOK keyOK numOK [] v (print v) [] _ _ eq_refl H eq_refl H0).
  - pose proof (mem_one no_ws strOK keyOK numOK [] k [] [] v (print v) [] eq_refl k0 eq_refl eq_refl H eq_refl) as K.
    cbn in K. rewrite app_nil_r in K. exact K.
  - destruct ms as [|v' ms]; [inversion m|].
    pose proof (mem_cons no_ws strOK keyOK numOK [] k [] [] v (print v) [] _ _ eq_refl k0 eq_refl eq_refl H eq_refl H0) as K.
    cbn [map]. change (join x2c (pmember (k, v) :: pmember v' :: map pmember ms)) with
      (pmember (k, v) ++ x2c :: join x2c (map pmember (v' :: ms))).
    unfold pmember at 1. cbn [fst snd app] in *.
    rewrite <- app_assoc. exact K.
Qed.

Lemma no_ws_ws s : no_ws s -> ws s.
Proof. intros ->. constructor. Qed.

Lemma lenient_print v w : lenient_value v w -> lenient_value v (print v).
Proof.
  intro H. eapply (value_mono no_ws); [| | | |eapply print_value; eauto]; auto using no_ws_ws.
Qed.

Lemma tree_AppendJSON W n v dst : tree_of W n v -> Node_AppendJSON W n dst = Ok (dst ++ print v, None).
Proof.
  intros (r & d & E1 & E2 & E3 & E4). unfold Node_AppendJSON, Node_get, Node_nodes, getDoc.
  rewrite E1, E2, <- E3, N.eqb_refl. pose proof (appendJSON_top _ _ _ dst E4) as A.
  destruct (getNode (dnodes d) (nid n)) as [x|] eqn:Ex.
  - rewrite A. reflexivity.
  - pose proof (denotes_lt _ _ _ E4) as L. apply getNode_some in L as (y & Ey). congruence.
Qed.

Lemma C08_ok W r s W' n tail dst :
  Document_Parse W r s = Ok (W', (n, tail, None)) ->
  exists s1 w v out, s = s1 ++ w ++ tail /\ ws s1 /\ lenient_value v w /\
    Node_AppendJSON W' n dst = Ok (dst ++ out, None) /\
    drop_ws w out /\ value (fun s => s = []) lenient_string esc_content lenient_number v out.
Proof.
  intro H. apply Parse_ok_iff in H as (d & s1 & w & v & Ed & -> & K1 & K2 & K3 & -> & ->).
  exists s1, w, v, (print v). repeat split; auto.
  - apply tree_AppendJSON. apply parsed_tree; auto.
  - eapply print_drop; eauto.
  - eapply print_value; eauto.
Qed.

Lemma print_num_stop v : is_num v = true -> num_stop []. Proof. exact (fun _ => I). Qed.

Lemma C09_ok W r s W1 n1 tail W2 r2 :
  Document_Parse W r s = Ok (W1, (n1, tail, None)) -> r2 < length W2 ->
  exists v out W3 n3,
    tree_of W1 n1 v /\ Node_AppendJSON W1 n1 [] = Ok (out, None) /\
    Document_Parse W2 r2 out = Ok (W3, (n3, [], None)) /\ tree_of W3 n3 v /\
    Node_AppendJSON W3 n3 [] = Ok (out, None).
Proof.
  intros H Hr. apply Parse_ok_iff in H as (d & s1 & w & v & Ed & -> & K1 & K2 & K3 & -> & ->).
  exists v, (print v).
  assert (exists W' n, Document_Parse W2 r2 (print v) = Ok (W', (n, [], None)) /\ tree_of W' n v) as (W3 & n3 & H3 & T3).
  { apply Parse_tree_iff. split; auto. exists [], (print v). simpl. rewrite app_nil_r.
    repeat split; auto. constructor. eapply lenient_print; eauto. }
  exists W3, n3. split; [apply parsed_tree; auto|].
  split; [exact (tree_AppendJSON _ _ _ [] (parsed_tree _ _ _ v Ed))|].
  split; auto. split; auto. exact (tree_AppendJSON _ _ _ [] T3).
Qed.

(* ---- witnesses and examples ---- *)

Lemma C01_reject_lemma :
  exists v w, rfc_value v w /\
    forall W r, r < length W ->
      exists W', Document_Parse W r w = Ok (W', (mkN 0 0 None, w, Some (UnexpectedEOF TypeString))).
Proof.
  exists (JStr [x5c; x5c]), [x22; x5c; x5c; x22]. split; [apply rfc_backslash|].
  intros W r Hr. destruct (nth_error W r) as [d|] eqn:Ed; [|apply nth_error_None in Ed; lia].
  exists W. apply (Parse_fail_intro W r d _ (UnexpectedEOF TypeString) Ed). reflexivity.
Qed.

(* A parse into an empty document, found by computation, is a parse into any document. *)
Lemma parse_compute s v tail :
  parseNodes [] s = (rootflag (layout 0 v), ParseOk 0 tail) ->
  forall W r, r < length W ->
  exists W' n, Document_Parse W r s = Ok (W', (n, tail, None)) /\ tree_of W' n v.
Proof.
  intros H W r Hr. apply parseNodes_ok_iff in H as (s1 & w & v' & E1 & E2 & E3 & E4 & E5 & _).
  assert (v = v') as <-.
  { pose proof (rootflag_denotes [] v) as D. pose proof (rootflag_denotes [] v') as D'.
    change (lenN (@nil node)) with 0%N in *. cbn [app] in *. rewrite <- E5 in D'. eapply denotes_det; eauto. }
  apply Parse_tree_iff. split; auto. exists s1, w. auto.
Qed.

Lemma C01_wrong_lemma :
  exists v v' w, rfc_value v w /\ v <> v' /\
    forall W r, r < length W ->
      exists W' n, Document_Parse W r w = Ok (W', (n, [], None)) /\ tree_of W' n v'.
Proof.
  exists (JArr [JStr [x5c; x5c]; JStr [x2c; x30]]), (JArr [JStr [x5c; x5c; x22; x2c]; JNum [x30; x22]]), wrong_text.
  split; [apply rfc_wrong|]. split; [discriminate|].
  apply parse_compute. reflexivity.
Qed.

Lemma ws1 : ws [x20]. Proof. constructor; [left; auto|constructor]. Qed.
Lemma ws0 : ws []. Proof. constructor. Qed.

Lemma num_example : rfc_number (str "-1.5e3").
Proof.
  apply (rfc_num [x2d] [x31] [x2e; x35] [x65; x33]); auto.
  - apply int_nz; [vm_compute; split; congruence|constructor].
  - apply frac_some. repeat constructor; vm_compute; congruence.
  - apply exp_plain; auto. repeat constructor; vm_compute; congruence.
Qed.

Lemma C01_example_lemma : rfc_value_plain
  (JObj [(str "a", JArr [JNum (str "-1.5e3"); JStr [x5c; x22]; JNull]); ([x5c; x5c], JTrue)])
  (str "{" ++ [x22] ++ str "a" ++ [x22] ++ str ": [-1.5e3," ++ [x22; x5c; x22; x22] ++ str ", null] ,"
   ++ [x22; x5c; x5c; x22] ++ str ":true}").
Proof.
  pose proof ws0 as W0. pose proof ws1 as W1. pose proof num_example as Hnum.
  set (A := [x5b] ++ (str "-1.5e3" ++ x2c :: [x22; x5c; x22; x22] ++ x2c :: ([x20] ++ str "null" ++ [])) ++ [x5d]).
  assert (HA : rfc_value_plain (JArr [JNum (str "-1.5e3"); JStr [x5c; x22]; JNull]) A).
  { apply v_arr. apply (el_cons _ _ _ _ [] _ _ []); auto; [apply v_num; exact Hnum|].
    apply (el_cons _ _ _ _ [] _ [x22; x5c; x22; x22] []); auto.
    - apply (v_str _ _ _ _ [x5c; x22]). split; [|left; simpl; auto].
      apply chars_esc; [simpl; auto|constructor].
    - apply el_one; auto. constructor. }
  assert (HM : members ws (fun w => rfc_chars w /\ plain_end w) rfc_chars rfc_number
     [(str "a", JArr [JNum (str "-1.5e3"); JStr [x5c; x22]; JNull]); ([x5c; x5c], JTrue)]
     ([] ++ x22 :: str "a" ++ x22 :: [] ++ x3a :: [x20] ++ A ++ [x20] ++
       x2c :: ([] ++ x22 :: [x5c; x5c] ++ x22 :: [] ++ x3a :: [] ++ str "true" ++ []))).
  { apply mem_cons; auto.
    - apply chars_plain; [vm_compute; congruence|discriminate|discriminate|constructor].
    - apply mem_one; auto.
      + apply chars_esc; [simpl; auto|constructor].
      + constructor. }
  apply v_obj in HM. exact HM.
Qed.

Lemma C02_example_lemma : exists W n,
  Document_Parse [mkDoc [] 0] 0 (str " [1 ,-x]!") = Ok (W, (n, str "!", None)) /\
  tree_of W n (JArr [JNum (str "1"); JNum (str "-x")]).
Proof. apply parse_compute; [reflexivity|simpl; lia]. Qed.

Lemma C03_example_lemma : exists W' tail,
  Document_Parse [mkDoc [] 7] 0 (str "[[[{") = Ok (W', (mkN 0 0 None, tail, Some (UnexpectedEOF TypeObject))).
Proof. eexists _, _. vm_compute. reflexivity. Qed.

Lemma C04_example_lemma : Document_Parse [mkDoc [] 0] 0 (str "[1, nulx]") =
  Ok ([mkDoc [] 0], (mkN 0 0 None, [], Some (ParseError 4 TypeNull (GotStr (str "nulx")) (WantStr (str "null"))))).
Proof. reflexivity. Qed.

Lemma C05_example_lemma : exists W' n v,
  Document_Parse [mkDoc [] 0] 0 (str "[1]") = Ok (W', (n, [], None)) /\ tree_of W' n v /\ is_num v = false.
Proof.
  destruct (parse_compute (str "[1]") (JArr [JNum (str "1")]) [] eq_refl [mkDoc [] 0] 0) as (W' & n & H & T);
    [simpl; lia|]. eauto 8.
Qed.

Lemma C06_refuted_lemma :
  exists s, forall W r, r < length W ->
    (exists ty, Document_Parse W r s = Ok (W, (mkN 0 0 None, s, Some (UnexpectedEOF ty)))) /\
    forall t W' n tail, Document_Parse W r (s ++ t) <> Ok (W', (n, tail, None)).
Proof.
  exists (str "tr}"). intros W r Hr.
  destruct (nth_error W r) as [d|] eqn:Ed; [|apply nth_error_None in Ed; lia]. split.
  - exists TypeBoolean. apply (Parse_fail_intro W r d _ (UnexpectedEOF TypeBoolean) Ed). reflexivity.
  - intros t W' n tail H. apply Parse_ok_iff in H as (d' & s1 & w & v & _ & E & H1 & H2 & H3 & _).
    pose proof (lenient_value_start _ _ H2) as (c & r' & -> & Hc).
    destruct s1 as [|x s1].
    2:{ injection E; intros; subst. inversion H1; subst.
        match goal with H : ws_byte x74 |- _ => destruct H as [H|[H|[H|H]]]; discriminate end. }
    injection E; intros E' <-. inversion H2; subst.
    + match goal with H : lenient_number _ |- _ => destruct H as (c' & w' & Ew & Hc' & _) end.
      injection Ew; intros; subst. destruct Hc' as [Hc'|Hc']; [discriminate|]. vm_compute in Hc'. destruct Hc'; congruence.
    + discriminate.
Qed.

Lemma C06_example_lemma : exists W' tail,
  Document_Parse [mkDoc [] 0] 0 (str "[1, tr") = Ok (W', (mkN 0 0 None, tail, Some (UnexpectedEOF TypeBoolean)))
  /\ ~ broken_literal (str "[1, tr").
Proof.
  eexists _, _. split; [vm_compute; reflexivity|].
  intros (u & w & lit & Hin & E & Hlen & Hh & Hp).
  change (str "[1, tr") with [x5b; x31; x2c; x20; x74; x72] in E.
  do 6 (destruct u as [|? u]; [cbn [app] in E; subst w; simpl in Hin; destruct Hin as [Hin|[Hin|[Hin|Hin]]]; [subst lit|subst lit|subst lit|contradiction];
    simpl in Hh; try discriminate; try (simpl in Hlen; lia); eapply (Hp (str "ue")); reflexivity
    | cbn [app] in E; injection E as _ E]).
  destruct u; [|discriminate]. simpl in E. subst w. simpl in Hin. destruct Hin as [Hin|[Hin|[Hin|Hin]]]; [subst lit|subst lit|subst lit|contradiction]; discriminate.
Qed.

Lemma C07_trees W r s W' n tail e m v :
  Document_Parse W r s = Ok (W', (n, tail, e)) -> tree_of W m v -> tree_of W' m v.
Proof.
  destruct e as [e|]; intros H T.
  - apply C07_fail in H as ->. exact T.
  - apply Parse_ok_iff in H as (d & s1 & w & v' & Ed & _ & _ & _ & _ & -> & _).
    destruct T as (r' & d' & E1 & E2 & E3 & E4).
    destruct (Nat.eq_dec r r') as [<-|Hne].
    + rewrite Ed in E2. injection E2 as <-.
      exists r, (mkDoc (dnodes d ++ rootflag (layout (lenN (dnodes d)) v')) (drev d)).
      split; auto. split; [eapply putDoc_same; eauto|]. split; auto. apply denotes_app; auto.
    + exists r', d'. rewrite putDoc_other by auto. auto.
Qed.

Lemma C07_example_lemma : exists W1 n1 W2 n2,
  Document_Parse [mkDoc [] 0] 0 (str "[1]") = Ok (W1, (n1, [], None)) /\
  tree_of W1 n1 (JArr [JNum (str "1")]) /\
  Document_Parse W1 0 (str "{} ") = Ok (W2, (n2, str " ", None)) /\
  tree_of W2 n1 (JArr [JNum (str "1")]).
Proof.
  destruct (parse_compute (str "[1]") (JArr [JNum (str "1")]) [] eq_refl [mkDoc [] 0] 0) as (W1 & n1 & H1 & T1); [simpl; lia|].
  assert (L : 0 < length W1) by (vm_compute in H1; injection H1; intros; subst; simpl; lia).
  destruct (parse_compute (str "{} ") (JObj []) (str " ") eq_refl W1 0 L) as (W2 & n2 & H2 & T2).
  exists W1, n1, W2, n2. split; auto. split; auto. split; auto. eapply C07_trees; eauto.
Qed.

Lemma C08_example_lemma : exists W' n,
  Document_Parse [mkDoc [] 0] 0 (str " [1 , {}, [ ] ] ") = Ok (W', (n, str " ", None)) /\
  Node_AppendJSON W' n (str "x") = Ok (str "x[1,{},[]]", None).
Proof. eexists _, _. split; vm_compute; reflexivity. Qed.

Lemma C09_example_lemma : exists W' n tail,
  Document_Parse [mkDoc [] 0] 0 (str "[{},[2 ]] ") = Ok (W', (n, tail, None)).
Proof. eexists _, _, _. vm_compute. reflexivity. Qed.
