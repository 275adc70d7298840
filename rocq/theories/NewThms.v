(* Lemmas for C70: the methods of a document that make nodes, its root, and AppendJSON of a document. *)
From Verif Require Import Bytes Types JsonSpec Parser ParserThms Doc DocSpec DocProofs DocDec InvProofs Strjson StrSpec StrThms DocStr Float FloatSpec Num NumSpec NumThms FmtSpec FmtThms NewSpec.

Lemma getNode_app_old ns x id y : getNode (ns ++ [x]) id = Some y -> getNode ns id = Some y \/ y = x.
Proof.
  intro H. apply getNode_app_cases in H as [(H & _)|(i & H & _)]; auto. right. destruct i as [|i]; [injection H as <-; auto|destruct i; discriminate].
Qed.
Lemma denotes_here ns id t : denotes ns id t -> exists x, getNode ns id = Some x.
Proof. destruct 1; eauto. Qed.

Lemma new_made w r d info raw t : nth_error w r = Some d -> info_IsRoot (N.lor info infRoot) = true ->
  (forall ns, getNode ns (lenN (dnodes d)) = Some (mkNode (N.lor info infRoot) raw []) -> denotes ns (lenN (dnodes d)) t) ->
  exists w' n, newNode w r info raw = Ok (w', n) /\ made w r w' n t /\ Node_get w' n = Some (mkNode (N.lor info infRoot) raw []).
Proof.
  intros Ed Ir D. unfold newNode. rewrite Ed. set (x := mkNode (N.lor info infRoot) raw []) in *.
  set (d' := mkDoc (dnodes d ++ [x]) (drev d)). assert (E' : nth_error (putDoc w r d') r = Some d') by (eapply putDoc_same; eauto).
  eexists. eexists. split; [reflexivity|].
  assert (G : Node_get (putDoc w r d') (mkN (lenN (dnodes d)) (drev d) (Some r)) = Some x).
  { unfold Node_get. cbn [ndoc getDoc nrev nid]. rewrite E'. cbn [drev d' dnodes]. rewrite N.eqb_refl. apply getNode_mid. }
  split; [|exact G]. split; [|split; [|split; [|split; [|split; [|split]]]]].
  - exists d, d'. split; auto. split; auto. split; auto. split; [cbn; rewrite app_length; cbn; lia|]. split; auto.
    split; [cbn; unfold lenN; apply Nnat.Nat2N.id|]. intro Z. unfold Document_Root, Document_Node. rewrite E'. cbn. rewrite Z. reflexivity.
  - exists r, d'. split; auto. split; auto. split; auto. apply D. apply getNode_mid.
  - intros u (r1 & d1 & E1 & E2 & _ & Dn). cbn [ndoc nid] in *. injection E1 as <-. rewrite Ed in E2. injection E2 as <-.
    apply denotes_here in Dn as (y & Gy). apply getNode_lt in Gy. lia.
  - intros m u (r1 & d1 & E1 & E2 & E3 & Dn). destruct (Nat.eq_dec r r1) as [<-|Ne].
    + rewrite Ed in E2. injection E2 as <-. exists r, d'. split; auto. split; auto. split; auto. apply denotes_app. auto.
    + exists r1, d1. rewrite putDoc_other by auto. auto.
  - intros q Nq. apply putDoc_other. auto.
  - intros m y v Gm I. unfold Node_get in *. destruct (ndoc m) as [r1|]; cbn [getDoc] in *; [|discriminate]. destruct (Nat.eq_dec r r1) as [<-|Ne].
    + rewrite E' in Gm. cbn [d' drev dnodes] in Gm. rewrite Ed. destruct (_ =? _)%N; [|discriminate]. apply getNode_app_old in Gm as [Gm| ->]; auto. destruct I.
    + rewrite putDoc_other in Gm by auto. auto.
  - intros to N0 Nt. split; auto. exists x. auto.
Qed.

Lemma C70_new_lem w r d : nth_error w r = Some d ->
  (exists w' n, Document_Null w r = Ok (w', n) /\ made w r w' n JNull) /\ (exists w' n, Document_False w r = Ok (w', n) /\ made w r w' n JFalse) /\
  (exists w' n, Document_True w r = Ok (w', n) /\ made w r w' n JTrue) /\ (exists w' n, Document_Object w r = Ok (w', n) /\ made w r w' n (JObj [])) /\
  (exists w' n, Document_Array w r = Ok (w', n) /\ made w r w' n (JArr [])) /\ (forall s, exists w' n, Document_TextRaw w r s = Ok (w', n) /\ made w r w' n (JStr s)) /\
  (forall s, exists w' n, Document_NumberRaw w r s = Ok (w', n) /\ made w r w' n (JNum s)).
Proof.
  intro Ed.
  assert (N : forall info raw t, info_IsRoot (N.lor info infRoot) = true ->
    (forall ns, getNode ns (lenN (dnodes d)) = Some (mkNode (N.lor info infRoot) raw []) -> denotes ns (lenN (dnodes d)) t) ->
    exists w' n, newNode w r info raw = Ok (w', n) /\ made w r w' n t).
  { intros info raw t Ir D. destruct (new_made w r d info raw t Ed Ir D) as (w' & n & E & M & _). eauto. }
  split; [|split; [|split; [|split; [|split; [|split]]]]]; try intro s; apply N; try reflexivity; intros ns G.
  - eapply d_null; [exact G|reflexivity..].
  - eapply d_false; [exact G|reflexivity..].
  - eapply d_true; [exact G|reflexivity..].
  - eapply d_obj; [exact G|reflexivity|reflexivity|constructor].
  - eapply d_arr; [exact G|reflexivity|reflexivity|constructor].
  - exact (d_str ns _ _ G eq_refl eq_refl).
  - exact (d_num ns _ _ G eq_refl eq_refl).
Qed.

Lemma text_made w r d e o : nth_error w r = Some d -> Unescaped e = Ok o ->
  exists w' n, Document_TextRaw w r e = Ok (w', n) /\ made w r w' n (JStr e) /\ Node_Unescaped w' n = Ok o.
Proof.
  intros Ed U. destruct (new_made w r d vString e (JStr e) Ed eq_refl (fun ns G => d_str ns _ _ G eq_refl eq_refl)) as (w' & n & E & M & G).
  exists w', n. split; auto. split; auto. unfold Node_Unescaped. rewrite G. exact U.
Qed.
Lemma C70_text_lem w r d s rs : nth_error w r = Some d -> runes s rs ->
  (exists w' n, Document_Text w r s = Ok (w', n) /\ made w r w' n (JStr (concat (map (escape_of false) rs))) /\ Node_Unescaped w' n = Ok (utf8s rs)) /\
  (exists w' n, Document_TextHTML w r s = Ok (w', n) /\ made w r w' n (JStr (concat (map (escape_of true) rs))) /\ Node_Unescaped w' n = Ok (utf8s rs)).
Proof.
  intros Ed R. unfold Document_Text, Document_TextHTML. rewrite (C27_exact_lem s rs false R), (C27_exact_lem s rs true R). cbn [bind].
  split; (eapply text_made; [exact Ed|]).
  - destruct (C26_lem s rs false R) as (e & E & U). rewrite (C27_exact_lem s rs false R) in E. injection E as ->. exact U.
  - destruct (C26_lem s rs true R) as (e & E & U). rewrite (C27_exact_lem s rs true R) in E. injection E as ->. exact U.
Qed.
Lemma C70_number_lem ftoa w r d f : ftoa_spec ftoa -> nth_error w r = Some d -> canonical b64 f -> finite f ->
  exists p w' n, Document_Number ftoa w r f = Ok (w', n) /\ made w r w' n (JNum (text p)) /\ rfc_number (text p) /\ rounded b64 (pneg p) (numval p) f.
Proof.
  intros H Ed C Ff. destruct (C38_lem ftoa [] f f 64 H C (or_introl (conj eq_refl eq_refl)) Ff) as (p & p' & _ & A & _ & R & _ & S & Rd).
  cbn [app] in A. unfold Document_Number, FormatFloat. rewrite A. cbn [bind].
  destruct (C70_new_lem w r d Ed) as (_ & _ & _ & _ & _ & _ & N). destruct (N (text p')) as (w' & n & E & M). exists p', w', n. auto.
Qed.
Lemma C70_number_other_lem ftoa w r d f : ftoa_special ftoa -> nth_error w r = Some d -> canonical b64 f -> ~ finite f ->
  exists s w' n, Document_Number ftoa w r f = Ok (w', n) /\ made w r w' n (JNum s) /\ ~ rfc_number s.
Proof.
  intros H Ed C Nf. unfold Document_Number. destruct (FormatFloat ftoa f 64) as [s| |] eqn:Es; [|unfold FormatFloat, AppendFloat in Es; cbn in Es; discriminate..]. cbn [bind].
  destruct (C70_new_lem w r d Ed) as (_ & _ & _ & _ & _ & _ & N). destruct (N s) as (w' & n & E & M). exists s, w', n. split; auto. split; auto.
  eapply (C38_refuted_lem ftoa f f 64); eauto. left. auto.
Qed.

Lemma C70_root_lem w r d dst : nth_error w r = Some d ->
  (dnodes d = [] -> Document_AppendJSON w r dst = Ok (dst, Some (TypeErr TypeInvalid TypeAnyValue))) /\
  (forall n, dnodes d <> [] -> Document_Root w r = Ok n -> Document_AppendJSON w r dst = Node_AppendJSON w n dst) /\
  (forall n t, Document_Root w r = Ok n -> tree_of w n t -> Document_AppendJSON w r dst = Ok (dst ++ print t, None)).
Proof.
  intro Ed.
  assert (A : forall n, dnodes d <> [] -> Document_Root w r = Ok n -> Document_AppendJSON w r dst = Node_AppendJSON w n dst).
  { intros n Nn. unfold Document_Root, Document_Node, Document_AppendJSON, Node_AppendJSON, Node_get, Node_nodes. rewrite Ed. injection 1 as <-. cbn [ndoc getDoc nrev nid].
    rewrite Ed, N.eqb_refl. destruct (dnodes d) as [|x l] eqn:El; [destruct (Nn eq_refl)|]. cbn [getNode N.to_nat nth_error]. reflexivity. }
  split; [|split].
  - intro Z. unfold Document_AppendJSON. rewrite Ed, Z. reflexivity.
  - exact A.
  - intros n t R T. rewrite (A n); auto.
    + apply tree_AppendJSON. exact T.
    + destruct T as (r1 & d1 & E1 & E2 & _ & Dn). unfold Document_Root, Document_Node in R. rewrite Ed in R. injection R as <-. cbn in E1. injection E1 as <-.
      rewrite Ed in E2. injection E2 as <-. intro Z. rewrite Z in Dn. apply denotes_here in Dn as (y & Gy). cbn in Gy. discriminate.
Qed.

Definition w70 : world := [mkDoc [] 0; mkDoc [mkNode (N.lor vNull infRoot) (str "null") []] 3].
(* an array, a text and a number in document 0, a text in document 1 *)
Definition run70 : res _ :=
  let! (w1, n1) := Document_Array w70 0%nat in let! (w2, n2) := Document_TextHTML w1 0%nat (str "<") in let! (w3, n3) := Document_Text w2 1%nat (str "<") in
  let! (w4, n4) := Document_Number exact_ftoa w3 0%nat (FFin false (2 ^ 52) (-50)) in
  let! u2 := Node_Unescaped w4 n2 in let! out := Document_AppendJSON w4 0%nat (str "x") in
  Ok ([n1; n2; n3; n4], Node_Raw w4 n2, u2, Node_Raw w4 n3, Node_Raw w4 n4, out).
Lemma ex70_lem :
  run70 = Ok ([mkN 0 0 (Some O); mkN 1 0 (Some O); mkN 1 3 (Some 1%nat); mkN 2 0 (Some O)], x5c :: str "u003c", str "<", str "<", str "4." ++ repeat x30 50, (str "x[]", None)) /\
  Document_AppendJSON w70 0%nat (str "x") = Ok (str "x", Some (TypeErr TypeInvalid TypeAnyValue)) /\
  runes (str "<") [60]%N /\ canonical b64 (FFin false (2 ^ 52) (-50)) /\ ftoa_spec exact_ftoa /\ ftoa_special exact_ftoa.
Proof.
  split; [vm_compute; reflexivity|]. split; [reflexivity|]. split; [apply (ru_char 60%N [] []); [left; lia|constructor]|].
  split; [vm_compute; repeat split; try discriminate; left; discriminate|]. split; [exact exact_spec|exact exact_special].
Qed.
