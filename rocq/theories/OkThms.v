(* Lemmas for C10. *)
From Verif Require Import Bytes Tables Types JsonSpec Parser LexProofs ParserProofs Doc DocSpec DocProofs ParserThms
  CopyProofs InvProofs Api OpProofs HistSpec HistProofs HistThms DocDec OkProofs Utf8 Strjson StrSpec Utf8Proofs StrProofs StrThms DocStr ApiSpec.

(* ---- Escaped keeps plain_end ---- *)

Lemma utf8_low_in r c : scalar r -> In c (utf8 r) -> (bN c < 128)%N -> r = bN c /\ utf8 r = [c].
Proof.
  intros S I L. destruct (N.lt_ge_cases r 128) as [Q|Q].
  - unfold utf8 in *. rewrite (proj2 (N.ltb_lt _ _)) in * by auto. destruct I as [<-|[]]. rewrite bNb by lia. auto.
  - pose proof (high_bytes r Q S) as F. rewrite Forall_forall in F. specialize (F _ I). cbn beta in F. lia.
Qed.
Lemma runes_quote s rs : runes s rs -> In x22 s -> In 34%N rs.
Proof.
  induction 1 as [|r s rs S R IH|c s rs N R IH]; intro I; [destruct I| |].
  - apply in_app_or in I as [I|I]; [|right; auto]. left. apply (utf8_low_in r x22); auto. reflexivity.
  - destruct I as [->|I]; [|right; auto]. exfalso. apply (N 34%N s); [left; reflexivity|reflexivity].
Qed.
Lemma runes_end s rs : runes s rs -> forall rs', rs = rs' ++ [92%N] -> exists s', s = s' ++ [x5c].
Proof.
  induction 1 as [|r s rs S R IH|c s rs N R IH]; intros rs' E.
  - destruct rs'; discriminate.
  - destruct rs' as [|r' rs'].
    + injection E as -> ->. inversion R; subst. exists []. reflexivity.
    + injection E as <- E. destruct (IH _ E) as (s' & ->). exists (utf8 r ++ s'). apply app_assoc.
  - destruct rs' as [|r' rs'].
    + discriminate E.
    + injection E as <- E. destruct (IH _ E) as (s' & ->). exists (c :: s'). reflexivity.
Qed.
Lemma escape_end h r u : scalar r -> escape_of h r = u ++ [x5c] -> r = 92%N.
Proof.
  intros S E. destruct (N.lt_ge_cases r 128) as [L|L].
  - assert (Er : r = bN (Nb r)) by (rewrite bNb; lia). rewrite Er in *.
    assert (X : forallb (fun c => implb (bN c <? 128)%N (implb (beqb (last (escape_of h (bN c)) x00) x5c) (bN c =? 92)%N)) all_bytes = true) by (destruct h; vm_compute; reflexivity).
    pose proof (forall_bytes _ X (Nb r)) as H. cbn beta in H. rewrite (proj2 (N.ltb_lt _ _)) in H by auto. rewrite E, last_last in H. apply N.eqb_eq. exact H.
  - exfalso. rewrite escape_high in E by auto. destruct (_ || _) eqn:Q.
    + rewrite !orb_true_iff, !N.eqb_eq in Q. assert (EL : last (u_escape r) x00 = x5c) by (rewrite E; apply last_last).
      destruct Q as [[->| ->]| ->]; discriminate EL.
    + pose proof (high_bytes r L S) as F. rewrite E in F. apply Forall_app in F as [_ F]. inversion F as [|? ? K]. vm_compute in K. apply K. reflexivity.
Qed.
Lemma utf8_ne r : utf8 r <> [].
Proof. unfold utf8. destruct (r <? 128)%N; [|destruct (r <? 2048)%N; [|destruct (r <? 65536)%N]]; discriminate. Qed.
Lemma escape_ne h r : escape_of h r <> [].
Proof.
  unfold escape_of, u_escape. repeat match goal with |- context [if ?b then _ else _] => destruct b; [discriminate|] end. apply utf8_ne.
Qed.
Lemma escapes_end h rs u : Forall scalar rs -> escapes h rs = u ++ [x5c] -> exists rs', rs = rs' ++ [92%N].
Proof.
  intros F E. destruct (list_eq_dec N.eq_dec rs []) as [->|N]; [destruct u; discriminate|].
  destruct (exists_last N) as (rs' & r & ->). exists rs'. f_equal. f_equal.
  apply Forall_app in F as [_ F]. inversion F as [|? ? S _]; subst.
  unfold escapes in E. rewrite map_app, concat_app in E. cbn [map concat] in E. rewrite app_nil_r in E.
  destruct (exists_last (escape_ne h r)) as (l & c & El). rewrite El, app_assoc in E. apply app_inj_tail in E as [_ ->]. eapply escape_end; eauto.
Qed.

Lemma escaped_plain_end s h e : Escaped s h false = Ok e -> plain_end s -> plain_end e.
Proof.
  destruct (runes_total s) as (rs & R). rewrite (Escaped_ok _ _ h false R). injection 1 as <-. pose proof (runes_scalar _ _ R) as S.
  intros [I|I].
  - left. apply (runes_quote _ _ R) in I. unfold escapes. apply in_concat. exists (escape_of h 34). split; [apply in_map; auto|right; left; reflexivity].
  - right. intros u E. apply escapes_end in E as (rs' & ->); auto. destruct (runes_end _ _ R _ eq_refl) as (s' & ->). apply (I s'). reflexivity.
Qed.
Lemma escaped_rfc s h e : Escaped s h false = Ok e -> rfc_chars e.
Proof. destruct (C27_lem s h) as (out & rs & E & _ & H & _). rewrite E. injection 1 as <-. auto. Qed.
Lemma escaped_lenient e : escaped_from plain_end e -> lenient_string e.
Proof.
  intros (s & h & E & P). apply esc_lenient; [apply rfc_esc; eapply escaped_rfc; eauto|eapply escaped_plain_end; eauto].
Qed.

(* ---- C10 ---- *)

Lemma history_mono (ok ok' : world -> call -> Prop) w : (forall w c, ok w c -> ok' w c) -> history ok w -> history ok' w.
Proof. intros H. induction 1; [constructor|econstructor; eauto]. Qed.

Lemma built_ok c : built c -> okcall lenient_string esc_content lenient_number c.
Proof.
  destruct c; cbn; auto.
  - apply escaped_lenient.
  - apply escaped_lenient.
Qed.
Lemma C10_lem w n t W r : history (fun _ c => built c) w -> tree_of w n t -> r < length W ->
  exists out W' n', Node_AppendJSON w n [] = Ok (out, None) /\ Document_Parse W r out = Ok (W', (n', [], None)) /\ tree_of W' n' t.
Proof.
  intros H T Hr. apply (history_mono _ _ _ (fun _ => built_ok)) in H. pose proof (history_value _ _ _ _ _ _ H T) as V.
  exists (print t).
  assert (exists W' n', Document_Parse W r (print t) = Ok (W', (n', [], None)) /\ tree_of W' n' t) as (W3 & n3 & H3 & T3).
  { apply Parse_tree_iff. split; auto. exists [], (print t). cbn [app]. rewrite app_nil_r.
    repeat split; auto; [constructor|]. eapply (value_mono no_ws); [| | | |exact V]; auto using no_ws_ws. }
  exists W3, n3. split; auto. exact (tree_AppendJSON _ _ _ [] T).
Qed.

Lemma built_rfc_ok c : built_rfc c -> okcall rfc_chars rfc_chars rfc_number c.
Proof.
  destruct c; cbn; auto.
  - intros (s1 & v & x & tail & -> & Hs & V & Hn) s1' v' x' tail' E Hs' V' Hn'.
    destruct (Parse_split_unique _ _ _ _ _ _ _ _ E Hs Hs' (rfc_plain_lenient _ _ V) V' Hn Hn') as (-> & -> & _).
    eapply (value_mono ws); [| | | |exact V]; auto. intros b (Hb & _). auto.
  - intros (s0 & h & E & _). eapply escaped_rfc; eauto.
  - intros (s0 & h & E & _). eapply escaped_rfc; eauto.
Qed.
Lemma C10_rfc_lem w n t dst : history (fun _ c => built_rfc c) w -> tree_of w n t ->
  exists out, Node_AppendJSON w n dst = Ok (dst ++ out, None) /\ rfc_value t out.
Proof.
  intros H T. apply (history_mono _ _ _ (fun _ => built_rfc_ok)) in H. pose proof (history_value _ _ _ _ _ _ H T) as V.
  exists (print t). split; [apply tree_AppendJSON; auto|]. eapply (value_mono no_ws); [| | | |exact V]; auto using no_ws_ws.
Qed.

(* ---- C10: refutations ---- *)

(* d.Text of a single backslash gives a string whose closing quote the parser takes for an escaped one. *)
Definition hist_text : list call := [CNewDoc; CTextRaw 0 [x5c; x5c]].
Definition hist_key : list call := [CNewDoc; CObject 0; CNull 0; CSet (mkN 0 0 (Some 0)) [x22] (mkN 1 0 (Some 0))].
Definition ran (cs : list call) : world := match run [] cs with Ok w => w | _ => [] end.
Lemma C10_refuted_lem : exists s w n out,
  Document_Text [mkDoc [] 0] 0 s = Ok (w, n) /\ Node_AppendJSON w n [] = Ok (out, None) /\
  forall W r, r < length W -> exists e W' n' tail, Document_Parse W r out = Ok (W', (n', tail, Some e)).
Proof.
  exists [x5c], (ran hist_text), (mkN 0 0 (Some 0)), [x22; x5c; x5c; x22].
  split; [vm_compute; reflexivity|]. split; [vm_compute; reflexivity|].
  intros W r Hr. destruct (nth_error W r) as [d|] eqn:Ed; [|apply nth_error_None in Ed; lia].
  do 4 eexists. apply (Parse_fail_intro W r d _ (UnexpectedEOF TypeString) Ed). reflexivity.
Qed.
(* Set does not escape its key. *)
Lemma C10_key_refuted_lem : exists cs w n t out, run [] cs = Ok w /\ tree_of w n t /\ Node_AppendJSON w n [] = Ok (out, None) /\
  (forall r k v, In (CSet r k v) cs -> k = [x22]) /\
  forall W r, r < length W -> exists e W' n' tail, Document_Parse W r out = Ok (W', (n', tail, Some e)).
Proof.
  exists hist_key, (ran hist_key), (mkN 0 0 (Some 0)), (JObj [([x22], JNull)]), (str "{" ++ [x22; x22; x22] ++ str ":null}").
  split; [vm_compute; reflexivity|]. split; [apply treeN_sound; vm_compute; reflexivity|]. split; [vm_compute; reflexivity|].
  split. { intros r k v I. repeat (destruct I as [I|I]; [try discriminate; injection I; auto|]). destruct I. }
  intros W r Hr. destruct (nth_error W r) as [d|] eqn:Ed; [|apply nth_error_None in Ed; lia].
  do 4 eexists. eapply (Parse_fail_intro W r d _ (ParseError _ _ _ _) Ed). cbv. reflexivity.
Qed.

(* ---- C10: an example history ---- *)

(* d.Object(); d.Text("a" LF quote "b"); o.Set("k", text); d.Array(); d.Number(1.5); a.Append(number); o.Set("l", a) *)
Definition ex_text : bytes := str "a" ++ [x0a; x22] ++ str "b".
Definition ex_esc : bytes := str "a\n\" ++ [x22] ++ str "b".
Definition hist_ex : list call :=
  [CNewDoc; CObject 0; CTextRaw 0 ex_esc; CSet (mkN 0 0 (Some 0)) (str "k") (mkN 1 0 (Some 0)); CArray 0; CNumberRaw 0 (str "1.5");
   CAppend (mkN 2 0 (Some 0)) [mkN 3 0 (Some 0)]; CSet (mkN 0 0 (Some 0)) (str "l") (mkN 2 0 (Some 0))].
Definition ex_tree : jval := JObj [(str "k", JStr ex_esc); (str "l", JArr [JNum (str "1.5")])].
Lemma ex_text_esc : Escaped ex_text false false = Ok ex_esc.
Proof. vm_compute. reflexivity. Qed.
Fixpoint history_of (cs : list call) (w : world) : option world :=
  match cs with
  | [] => Some w
  | c :: r => match step w c with Ok w' => if fitsb w' then history_of r w' else None | _ => None end
  end.
Lemma history_of_sound (P : call -> Prop) cs : forall w w', Forall P cs -> history_of cs w = Some w' ->
  history (fun _ c => P c) w -> history (fun _ c => P c) w'.
Proof.
  induction cs as [|c cs IH]; intros w w' F H0 H; cbn in H0.
  - injection H0 as <-. auto.
  - inversion F; subst. destruct (step w c) as [w1| |] eqn:E; try discriminate. destruct (fitsb w1) eqn:Fb; [|discriminate].
    eapply IH; eauto. econstructor; eauto. apply fitsb_sound; auto.
Qed.
Lemma ex_history : history (fun _ c => built c) (ran hist_ex) /\ history (fun _ c => built_rfc c) (ran hist_ex) /\
  tree_of (ran hist_ex) (mkN 0 0 (Some 0)) ex_tree.
Proof.
  split; [|split; [|apply treeN_sound; vm_compute; reflexivity]].
  - apply (history_of_sound built hist_ex []); [|vm_compute; reflexivity|constructor].
    repeat constructor; cbn [built].
    + exists ex_text, false. split; [exact ex_text_esc|]. left. right. right. left. reflexivity.
    + discriminate.
    + discriminate.
    + exists x31, (str ".5"). split; [reflexivity|]. split; [right; vm_compute; split; discriminate|].
      repeat constructor; intros [[H|[H|[H|H]]]|[H|[H|H]]]; discriminate.
    + discriminate.
    + discriminate.
  - apply (history_of_sound built_rfc hist_ex []); [|vm_compute; reflexivity|constructor].
    repeat constructor; cbn [built_rfc].
    + exists ex_text, false. split; [exact ex_text_esc|exact I].
    + discriminate.
    + discriminate.
    + discriminate.
    + apply (rfc_num [] (str "1") (str ".5") []); auto; try constructor; repeat constructor; discriminate.
    + discriminate.
    + discriminate.
    + discriminate.
Qed.
