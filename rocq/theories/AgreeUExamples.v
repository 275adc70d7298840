(* Concrete types and texts for C74. *)
From Verif Require Import FloatSpec NumSpec FmtSpec StrSpec Bytes Types JsonSpec Parser Doc DocSpec Strjson Float Num FmtThms Iface IfaceSpec OptSpec Options OptThms Codec CodecSpec CodecMerge CodecBase CodecBuild CodecEnc CodecJson CodecExamples
  DecodeSpec DecodeThms DecodeExamples RoundSpec Coder CoderSpec CoderExamples TreeSpec TreeThms Gen GenSpec GenFields GenMake GenApp GenExamples AgreeSpec AgreeThms AgreeExamples AgreeUSpec AgreeUThms.
Local Open Scope nat_scope.

(* 6 int64, 7 []string, 8 struct{X int64 "x"; B bool "b"}, 9 *T8, 10 struct{ID int64 "id"; Name string "name"; Tags []string "tags"; P *T8 "p"; secret int64},
   11 *T10, 12 *[]string, 13 *string *)
Definition fsu : list sfield := [tagged (str "ID") 6 (str "id"); tagged (str "Name") tString (str "name,omitempty"); tagged (str "Tags") 7 (str "tags"); tagged (str "P") 9 (str "p"); hiddenF (str "secret") 6].
Definition auE : env := envOf [plainT (KInt 64); plainT (KSlice tString); plainT (KStruct fs8); plainT (KPtr 8); plainT (KStruct fsu); plainT (KPtr 10); plainT (KPtr 7); plainT (KPtr tString)].
Definition auM : genv := mkGE (fun t => match kindOf auE t with Some (KStruct fs) => flattenX 0 fs | _ => [] end) (fun _ => false) (fun _ => false) (fun _ => inr UValue) (fun _ => false) (fun _ => false).
Definition auRank (t : tid) : nat := match t with 8 | 10 => 1 | _ => 0 end.
Lemma au_wf : wf_types auE.
Proof. apply (check_wf auE auRank); [|vm_compute; reflexivity]. intro t. change (length (types auE)) with 14. do 14 (destruct t as [|t]; [cbn; lia|]). cbn. lia. Qed.
Lemma au_paths : paths_ok auE auM.
Proof. intros t fs f K I. cbn [fieldsOf auM] in I. rewrite K in I. exact (flattenX_ok auE t fs K [] fs f eq_refl I). Qed.
Lemma au_embeds : embeds_structs auE.
Proof. apply check_embeds. vm_compute. reflexivity. Qed.
Lemma au_kind t k : kindOf auE t = Some k -> In t (seq 0 14).
Proof. intro K. apply kindOf_lt in K. apply in_seq. exact (conj (Nat.le_0_l _) K). Qed.
Ltac au_types K := let J := fresh in pose proof (au_kind _ _ K) as J; cbn [seq In] in J; repeat (destruct J as [<-|J]); [..|contradiction J]; cbv in K; try discriminate K; injection K as <-.
Lemma au_points : no_point_loop auE.
Proof.
  apply (check_points auE (fun t => match t with 4 | 7 | 9 | 11 | 13 => 1 | 12 => 2 | _ => 0 end)). intros t e P. inversion P as [? ? K|? ? K]; subst; au_types K; cbv; lia.
Qed.
Lemma au_unmarshals : unmarshalers_return auE auM.
Proof. split; [intros; eexists _, _; split; [reflexivity|assumption]|]. split; [intros; eexists _, _; split; [reflexivity|assumption]|]. discriminate. Qed.
Lemma au_acyclic : forall t, ~ cyclic auE decodeOptions t.
Proof.
  intros t C. destruct (cyclic_step _ _ _ C) as (u & (fs & f & key & h & K & _) & _). assert (S : isStruct auE t = true) by (apply isStruct_iff; eauto).
  apply (structFields_total_lem _ _ _ S) in C. au_types K; vm_compute in C; discriminate C.
Qed.
Lemma au_pointers : no_pointer_loop auE.
Proof.
  exists (fun t => match t with 9 | 11 | 12 | 13 => 1 | _ => 0 end). split.
  - intro t. change (length (types auE)) with 14%nat. do 14 (destruct t as [|t]; [lia|]). lia.
  - intros t e K. au_types K; lia.
Qed.
Lemma au_target t e : kindOf auE t = Some (KPtr e) -> decodable auE decodeOptions e -> (exists r, newCodec auE decodeOptions (IDec e) = Ok (Some r)) -> target auE t e.
Proof.
  intros K Dc (r & B). split; [|split; [exact Dc|split; [exact au_acyclic|split; [exact au_pointers|]]]].
  - au_types K; eexists; repeat split; reflexivity.
  - intros x Ux Lx. destruct (Dc e (rd_here _ _ _)) as (X & Ty & _). destruct (C54_lem auE decodeOptions (IDec e) au_wf au_acyclic (kindOf_lt _ _ _ (typeOf_kindOf _ _ _ Ty))) as (b & Bd & Iff).
    rewrite B in Bd. injection Bd as <-. enough (Some r = None) by discriminate. apply Iff. eauto.
Qed.
Ltac reads_au L R := let I := fresh in pose proof (reads_in auE decodeOptions L ltac:(vm_compute; reflexivity) _ _ R ltac:(cbn; tauto)) as I; cbn [In] in I; repeat (destruct I as [<-|I]); [..|contradiction I].
Ltac decs_au L := intros ? R; reads_au L R; (eexists; split; [reflexivity|]; split; [repeat split; reflexivity|]); try exact Logic.I;
  (eexists; split; [vm_compute; reflexivity|]; repeat constructor; discriminate).
Lemma tg10 : target auE 11 10. Proof. apply au_target; [reflexivity|decs_au [10; 6; tString; 7; 9; 8; tBool]|eexists; vm_compute; reflexivity]. Qed.
Lemma tg8 : target auE 9 8. Proof. apply au_target; [reflexivity|decs_au [8; 6; tBool]|eexists; vm_compute; reflexivity]. Qed.
Lemma tg7 : target auE 12 7. Proof. apply au_target; [reflexivity|decs_au [7; tString]|eexists; vm_compute; reflexivity]. Qed.
Lemma tgS : target auE 13 tString. Proof. apply au_target; [reflexivity|decs_au [tString]|eexists; vm_compute; reflexivity]. Qed.
Lemma au_hazard t : In t [6; 7; 8; 9; 10; tString; tBool] -> ~ hazard auE decodeOptions t.
Proof. intros I (u & R & H). pose proof (reads_in auE decodeOptions [6; 7; 8; 9; 10; tString; tBool] ltac:(vm_compute; reflexivity) _ _ R I) as J. cbn [In] in J. repeat (destruct J as [<-|J]); [..|contradiction J]; destruct H as [(k & e & K)|[N K]]; discriminate K. Qed.

Lemma au_structs u fs : kindOf auE u = Some (KStruct fs) -> u = 8 /\ fs = fs8 \/ u = 10 /\ fs = fsu.
Proof. intro K. do 14 (destruct u as [|u]; [vm_compute in K; try discriminate K; injection K as <-; auto 10|]). destruct u; discriminate K. Qed.
Lemma au_tidy u fs : kindOf auE u = Some (KStruct fs) -> Forall (tidy auE) fs.
Proof.
  intro K. destruct (au_structs u fs K) as [(_ & ->)|(_ & ->)]; unfold fs8, fsu.
  - apply Forall_cons; [tidied|]. apply Forall_cons; [tidied|]. apply Forall_nil.
  - do 4 (apply Forall_cons; [tidied|]). apply Forall_cons; [|apply Forall_nil]. repeat split; try discriminate; cbn in H0; discriminate.
Qed.
Lemma au_distinct u fs : kindOf auE u = Some (KStruct fs) -> distinct genG (flattenX 0 fs).
Proof.
  intro K. destruct (au_structs u fs K) as [(_ & ->)|(_ & ->)]; apply check_distinct; intros i j n A B.
  - change (nth_error [Some (str "x"); Some (str "b")] i = Some (Some n)) in A. change (nth_error [Some (str "x"); Some (str "b")] j = Some (Some n)) in B.
    destruct i as [|[|i]]; cbn in A; [| |destruct i; discriminate]; destruct j as [|[|j]]; cbn in B; try reflexivity; try congruence; destruct j; discriminate.
  - change (nth_error [Some (str "id"); Some (str "name"); Some (str "tags"); Some (str "p"); None] i = Some (Some n)) in A. change (nth_error [Some (str "id"); Some (str "name"); Some (str "tags"); Some (str "p"); None] j = Some (Some n)) in B.
    do 5 (destruct i as [|i]; [do 5 (destruct j as [|j]; [cbn in A, B; try reflexivity; try congruence; injection A as <-; discriminate B|]); destruct j; discriminate B|]). destruct i; discriminate A.
Qed.
Lemma au_handled u fs : kindOf auE u = Some (KStruct fs) -> handled auE genG (flattenX 0 fs).
Proof.
  intros K m name params I P. apply C60_fields_lem in P. split.
  - destruct (au_structs u fs K) as [(_ & ->)|(_ & ->)]; cbn in I; repeat (destruct I as [<-|I]); try contradiction I; cbn [mtype]; try (eapply can_kind; [reflexivity|exact Logic.I]).
    + eapply can_elem; [apply po_slice; reflexivity|]. eapply can_kind; [reflexivity|exact Logic.I].
    + eapply can_elem; [apply po_ptr; reflexivity|]. eapply can_struct. reflexivity.
  - intros (Ir & Ks). destruct (au_structs u fs K) as [(_ & ->)|(_ & ->)]; cbn in I; repeat (destruct I as [<-|I]); try contradiction I; try discriminate Ks. vm_compute in P. injection P as <- <-. cbn in Ir. destruct Ir as [Ir|[]]. discriminate Ir.
Qed.
Lemma au_same t : same_reads auE genG auM t \/ ~ t < 14.
Proof.
  destruct (Nat.lt_ge_cases t 14) as [L|L]; [left|right; lia]. intros u S.
  assert (Lu : exists T, typeOf auE u = Some T /\ by_kind_u auM u T).
  { assert (u < 14).
    { induction S as [a|a b c N S IH]; [exact L|]. apply IH. clear - N. inversion N as [? T e ET _ Hk|? T fs name params f ET _ Hk Hf _]; subst.
      - pose proof (typeOf_kindOf _ _ _ ET) as K. assert (He : exists k, kindOf auE a = Some k /\ match k with KPtr x | KSlice x | KMap _ x => x = b | _ => False end) by eauto. destruct He as (k & K' & H). au_types K'; cbn in H; try contradiction; subst; unfold tString, tIface; lia.
      - pose proof (typeOf_kindOf _ _ _ ET) as K. rewrite Hk in K. destruct Hf as (x & y & Ef & _). assert (If : In f (fieldsOf auM a)) by (rewrite Ef; apply in_elt). cbn [fieldsOf auM] in If. rewrite K in If.
        destruct (au_structs a fs K) as [(_ & ->)|(_ & ->)]; cbn in If; repeat (destruct If as [<-|If]); try contradiction If; cbn; unfold tString, tBool; lia. }
    clear - H. do 14 (destruct u as [|u]; [eexists; split; [reflexivity|repeat split; reflexivity]|]). lia. }
  destruct Lu as (T & ET & K). exists T. split; [exact ET|]. split; [exact K|]. intros fs cs Hk Sf. pose proof (typeOf_kindOf _ _ _ ET) as Kd. rewrite Hk in Kd.
  assert (Ef : fieldsOf auM u = flattenX 0 fs) by (cbn [fieldsOf auM]; rewrite Kd; reflexivity).
  apply (C74_fields_lem auE genG auM u fs cs Kd); try rewrite Ef; [apply ag_lists|eapply au_tidy; exact Kd|apply ag_usual|eapply au_distinct; exact Kd|eapply au_handled; exact Kd|exact Sf].
Qed.
Lemma au_same_lt t : t < 14 -> same_reads auE genG auM t.
Proof. intro L. destruct (au_same t) as [H|H]; [exact H|contradiction]. Qed.

(* a check that nothing is mismatched *)
Fixpoint fitsB (fuel : nat) (E : env) (t : tid) (j : jval) : bool :=
  match fuel with O => false | S k =>
  match kindOf E t with
  | None => true
  | Some (KInt _) => match j with JNum s => snd (ParseInt s) | JNull => true | _ => false end
  | Some (KUint _) => match j with JNum s => snd (ParseUint s) | JNull => true | _ => false end
  | Some KFloat32 | Some KFloat64 => match j with JNum s => match ParseFloat s with FNaN => false | _ => true end | JNull => true | _ => false end
  | Some KBool => match j with JTrue | JFalse | JNull => true | _ => false end
  | Some KString => match j with JStr _ | JNull => true | _ => false end
  | Some (KPtr e) => match j with JNull => true | _ => fitsB k E e j end
  | Some (KSlice e) | Some (KArray _ e) => match j with JArr js => forallb (fitsB k E e) js | JNull => true | _ => false end
  | Some (KMap _ e) => match j with JObj ms => forallb (fun m => fitsB k E e (snd m)) ms | JNull => true | _ => false end
  | Some (KStruct _) => match j with
      | JObj ms => match structFields E decodeOptions t with Ok cs => forallb (fun m => match find (fun c => bseqb (ckey c) (fst m)) cs with Some c => fitsB k E (ctype c) (snd m) | None => true end) ms | _ => true end
      | JNull => true | _ => false end
  | Some (KIface _) => false
  | Some KOther => true
  end end.
Lemma fits E : forall fuel t j, fitsB fuel E t j = true -> ~ mismatch E decodeOptions t j.
Proof.
  induction fuel as [|k IH]; intros t j H Mm; [discriminate|]. cbn [fitsB] in H.
  inversion Mm as [? kd ? K Nt|? b s K Ni|? b s K Ni|? s K Ni|? ? K|? e ? K Nj Me|? e js j' K I Me|? n e js i j' K Ij Li Me|? kk e ms key j' K I Me|? fs cs ms key j' c K Sf I Ff Me]; subst; try (rewrite K in H).
  - destruct kd, j; try discriminate H; apply Nt; exact Logic.I.
  - destruct (ParseInt s) as [z b'] eqn:P. cbn in H. subst b'. apply (Ni z). left. exact P.
  - destruct (ParseUint s) as [z b'] eqn:P. cbn in H. subst b'. apply (Ni z). left. exact P.
  - assert (ParseFloat s <> FNaN) by (intro Q; destruct K as [K|K]; rewrite K, Q in H; discriminate). apply (Ni (ParseFloat s)). left. auto.
  - discriminate H.
  - destruct j; try contradiction; exact (IH _ _ H Me).
  - rewrite forallb_forall in H. exact (IH _ _ (H _ I) Me).
  - rewrite forallb_forall in H. exact (IH _ _ (H _ (nth_error_In _ _ Ij)) Me).
  - rewrite forallb_forall in H. exact (IH _ _ (H _ I) Me).
  - rewrite Sf in H. rewrite forallb_forall in H. specialize (H _ I). cbn [fst snd] in H. destruct Ff as (a & b & Ec & Ek & Na).
    assert (Q : find (fun c => bseqb (ckey c) key) cs = Some c).
    { rewrite Ec. clear - Ek Na. induction a as [|d a IHa]; cbn.
      - assert (bseqb (ckey c) key = true) by (apply bseqb_true; exact Ek). rewrite H. reflexivity.
      - destruct (bseqb (ckey d) key) eqn:B; [exfalso; apply Na; left; apply bseqb_true; exact B|]. apply IHa. intro X. apply Na. right. exact X. }
    rewrite Q in H. exact (IH _ _ H Me).
Qed.

Definition doc74 : bytes := str "{""id"":7,""tags"":[""a"",""b\n""],""zz"":{},""p"":{""b"":true,""x"":-2}}".
Definition tree74 : jval := JObj [(str "id", JNum (str "7")); (str "tags", JArr [JStr (str "a"); JStr (str "b\n")]); (str "zz", JObj []); (str "p", JObj [(str "b", JTrue); (str "x", JNum (str "-2"))])].
Definition z74 : gv := VStruct [VInt 0; VString []; VSlice None; VPtr None; VInt 0].
Definition w74 : gv := VStruct [VInt 7; VString []; VSlice (Some ([VString (str "a"); VString [x62; x0a]], [])); VPtr (Some (VStruct [VInt (-2); VBool true])); VInt 0].
Lemma z74_blank : blank auE 10 z74.
Proof. eapply bl_struct; [reflexivity|]. constructor; [eapply bl_int; reflexivity|]. constructor; [apply bl_string; reflexivity|]. constructor; [eapply bl_slice; reflexivity|]. constructor; [eapply bl_ptr; reflexivity|]. constructor; [eapply bl_int; reflexivity|constructor]. Qed.
Lemma native_int s : snd (ParseInt s) = true -> (snd (ParseUint s) = true \/ scParseUint s = None) -> ParseFloat s <> FNaN -> native auE s.
Proof. intros A B C. split; [congruence|]. split; [destruct B; congruence|contradiction]. Qed.
Lemma tree74_orderly : orderly tree74 /\ definite auE tree74.
Proof.
  split.
  - apply or_obj; [cbn; repeat constructor; cbn; intuition discriminate|]. constructor; [constructor|]. constructor; [apply or_arr; [discriminate|constructor; [constructor|constructor; [constructor|constructor]]]|].
    constructor; [apply or_obj; constructor|]. constructor; [|constructor]. apply or_obj; [cbn; repeat constructor; cbn; intuition discriminate|]. constructor; [constructor|constructor; [constructor|constructor]].
  - apply df_obj. constructor; [apply df_num, native_int; [vm_compute; reflexivity|left; vm_compute; reflexivity|vm_compute; discriminate]|]. constructor; [apply df_arr; constructor; [constructor|constructor; [constructor|constructor]]|].
    constructor; [apply df_obj; constructor|]. constructor; [|constructor]. apply df_obj. constructor; [constructor|constructor; [|constructor]]. apply df_num, native_int; [vm_compute; reflexivity|right; vm_compute; reflexivity|vm_compute; discriminate].
Qed.
Definition program74 (E : env) (M : genv) : Prop := wf_types E /\ embeds_structs E /\ paths_ok E M /\ no_point_loop E /\ unmarshalers_return E M.
Lemma au_program : program74 auE auM.
Proof. split; [exact au_wf|]. split; [exact au_embeds|]. split; [exact au_paths|]. split; [exact au_points|exact au_unmarshals]. Qed.
Lemma ex74_lem : (wf_types auE /\ embeds_structs auE /\ paths_ok auE auM /\ no_point_loop auE /\ unmarshalers_return auE auM) /\ target auE 11 10 /\ ~ hazard auE decodeOptions 10 /\ same_reads auE genG auM 10 /\
  tree_of (worldOf doc74) (nodeOf doc74) tree74 /\ blank auE 10 z74 /\ orderly tree74 /\ definite auE tree74 /\ ~ mismatch auE decodeOptions 10 tree74 /\
  exists c, Unmarshaler auE genG auM 10 = Ok (Some c) /\ compilesUnmarshaler auM 10 c = true /\ runUnmarshaler auE auM (worldOf doc74) c z74 (nodeOf doc74) = Ok (w74, None) /\
    UnmarshalFromNode auE (worldOf doc74) (nodeOf doc74) 11 (VPtr (Some z74)) = Ok (VPtr (Some w74), None).
Proof.
  split; [exact au_program|]. split; [exact tg10|]. split; [apply au_hazard; cbn; tauto|]. split; [apply au_same_lt; lia|]. split; [apply tree_parsed; vm_compute; reflexivity|]. split; [exact z74_blank|].
  split; [apply tree74_orderly|]. split; [apply tree74_orderly|]. split; [apply (fits auE 9); vm_compute; reflexivity|]. eexists. split; [found|]. split; [vm_compute; reflexivity|]. split; vm_compute; reflexivity.
Qed.

(* where they differ: the two results on a text *)
Definition differ74 (t pt : tid) (z : gv) (doc : bytes) (j : jval) (r r' : res (gv * option uerr)) : Prop := exists c,
  (wf_types auE /\ embeds_structs auE /\ paths_ok auE auM /\ no_point_loop auE /\ unmarshalers_return auE auM) /\ target auE pt t /\ ~ hazard auE decodeOptions t /\ same_reads auE genG auM t /\
  tree_of (worldOf doc) (nodeOf doc) j /\ blank auE t z /\ Unmarshaler auE genG auM t = Ok (Some c) /\ compilesUnmarshaler auM t c = true /\
  runUnmarshaler auE auM (worldOf doc) c z (nodeOf doc) = r /\ UnmarshalFromNode auE (worldOf doc) (nodeOf doc) pt (VPtr (Some z)) = r'.
Ltac differs tg := eexists; split; [exact au_program|]; split; [exact tg|]; split; [apply au_hazard; cbn; tauto|]; split; [apply au_same_lt; unfold tString; lia|]; split; [apply tree_parsed; vm_compute; reflexivity|];
  split; [|split; [found|split; [vm_compute; reflexivity|split; vm_compute; reflexivity]]].
(* an empty array *)
Lemma C74_empty_lem : exists E G M w n t pt c v j, (wf_types E /\ embeds_structs E /\ paths_ok E M /\ no_point_loop E /\ unmarshalers_return E M) /\ target E pt t /\ ~ hazard E decodeOptions t /\ same_reads E G M t /\
  tree_of w n j /\ blank E t v /\ ~ mismatch E decodeOptions t j /\ Unmarshaler E G M t = Ok (Some c) /\ compilesUnmarshaler M t c = true /\
  runUnmarshaler E M w c v n = Ok (VSlice None, None) /\ UnmarshalFromNode E w n pt (VPtr (Some v)) = Ok (VPtr (Some (VSlice (Some ([], [])))), None).
Proof.
  assert (H : differ74 7 12 (VSlice None) (str "[]") (JArr []) (Ok (VSlice None, None)) (Ok (VPtr (Some (VSlice (Some ([], [])))), None))) by (differs tg7; eapply bl_slice; reflexivity).
  destruct H as (c & A1 & A2 & A3 & A4 & A5 & A6 & A7 & A8 & A9 & A10). exists auE, genG, auM, (worldOf (str "[]")), (nodeOf (str "[]")), 7, 12, c, (VSlice None), (JArr []). do 6 (split; [assumption|]). split; [apply (fits auE 9); vm_compute; reflexivity|]. auto.
Qed.
(* a key that is there twice *)
Definition again74 : bytes := str "{""tags"":[""a""],""tags"":[""b"",""c""]}".
Lemma C74_again_lem : exists E G M w n t pt c v j l l', (wf_types E /\ embeds_structs E /\ paths_ok E M /\ no_point_loop E /\ unmarshalers_return E M) /\ target E pt t /\ ~ hazard E decodeOptions t /\ same_reads E G M t /\
  tree_of w n j /\ blank E t v /\ ~ mismatch E decodeOptions t j /\ Unmarshaler E G M t = Ok (Some c) /\ compilesUnmarshaler M t c = true /\
  runUnmarshaler E M w c v n = Ok (VStruct l, None) /\ UnmarshalFromNode E w n pt (VPtr (Some v)) = Ok (VPtr (Some (VStruct l')), None) /\
  nth_error l 2 = Some (VSlice (Some ([VString (str "b"); VString (str "c"); VString []], []))) /\ nth_error l' 2 = Some (VSlice (Some ([VString (str "b"); VString (str "c")], []))).
Proof.
  set (l := [VInt 0; VString []; VSlice (Some ([VString (str "b"); VString (str "c"); VString []], [])); VPtr None; VInt 0]). set (l' := [VInt 0; VString []; VSlice (Some ([VString (str "b"); VString (str "c")], [])); VPtr None; VInt 0]).
  assert (H : differ74 10 11 z74 again74 (JObj [(str "tags", JArr [JStr (str "a")]); (str "tags", JArr [JStr (str "b"); JStr (str "c")])]) (Ok (VStruct l, None)) (Ok (VPtr (Some (VStruct l')), None))) by (differs tg10; exact z74_blank).
  destruct H as (c & A1 & A2 & A3 & A4 & A5 & A6 & A7 & A8 & A9 & A10). exists auE, genG, auM, (worldOf again74), (nodeOf again74), 10, 11, c, z74, (JObj [(str "tags", JArr [JStr (str "a")]); (str "tags", JArr [JStr (str "b"); JStr (str "c")])]), l, l'. do 6 (split; [assumption|]).
  split; [apply (fits auE 9); vm_compute; reflexivity|]. do 4 (split; [assumption|]). split; reflexivity.
Qed.
(* null for a number: only the generated code refuses it; a number for a string: only Unmarshal refuses it *)
Lemma C74_null_lem : exists E G M w n t pt c v j e, (wf_types E /\ embeds_structs E /\ paths_ok E M /\ no_point_loop E /\ unmarshalers_return E M) /\ target E pt t /\ ~ hazard E decodeOptions t /\ same_reads E G M t /\
  tree_of w n j /\ blank E t v /\ orderly j /\ ~ mismatch E decodeOptions t j /\ Unmarshaler E G M t = Ok (Some c) /\ compilesUnmarshaler M t c = true /\
  runUnmarshaler E M w c v n = Ok (v, Some e) /\ UnmarshalFromNode E w n pt (VPtr (Some v)) = Ok (VPtr (Some v), None).
Proof.
  set (z := VStruct [VInt 0; VBool false]). set (j := JObj [(str "x", JNull)]).
  assert (H : differ74 8 9 z (str "{""x"":null}") j (Ok (z, Some (UType (TypeErr TypeNull TypeNumber)))) (Ok (VPtr (Some z), None))).
  { differs tg8. eapply bl_struct; [reflexivity|]. constructor; [eapply bl_int; reflexivity|]. constructor; [apply bl_bool; reflexivity|constructor]. }
  destruct H as (c & A1 & A2 & A3 & A4 & A5 & A6 & A7 & A8 & A9 & A10). exists auE, genG, auM, (worldOf (str "{""x"":null}")), (nodeOf (str "{""x"":null}")), 8, 9, c, z, j, (UType (TypeErr TypeNull TypeNumber)). do 6 (split; [assumption|]).
  split; [apply or_obj; [cbn; constructor; [intros []|constructor]|constructor; [constructor|constructor]]|]. split; [apply (fits auE 9); vm_compute; reflexivity|]. auto.
Qed.
Lemma C74_string_lem : exists E G M w n t pt c v j e, (wf_types E /\ embeds_structs E /\ paths_ok E M /\ no_point_loop E /\ unmarshalers_return E M) /\ target E pt t /\ ~ hazard E decodeOptions t /\ same_reads E G M t /\
  tree_of w n j /\ blank E t v /\ orderly j /\ definite E j /\ Unmarshaler E G M t = Ok (Some c) /\ compilesUnmarshaler M t c = true /\
  runUnmarshaler E M w c v n = Ok (VString [], None) /\ UnmarshalFromNode E w n pt (VPtr (Some v)) = Ok (VPtr (Some (VString [])), Some e).
Proof.
  assert (H : exists e, differ74 tString 13 (VString []) (str "1") (JNum (str "1")) (Ok (VString [], None)) (Ok (VPtr (Some (VString [])), Some e))).
  { eexists. differs tgS. apply bl_string. reflexivity. }
  destruct H as (e & c & A1 & A2 & A3 & A4 & A5 & A6 & A7 & A8 & A9 & A10). exists auE, genG, auM, (worldOf (str "1")), (nodeOf (str "1")), tString, 13, c, (VString []), (JNum (str "1")), e. do 6 (split; [assumption|]). split; [constructor|].
  split; [apply df_num, native_int; [vm_compute; reflexivity|left; vm_compute; reflexivity|vm_compute; discriminate]|]. auto.
Qed.
Lemma ex74_fields : exists fs cs, kindOf auE 10 = Some (KStruct fs) /\ lists 0 fs (fieldsOf auM 10) /\ Forall (tidy auE) fs /\ usual genG fs /\ distinct genG (fieldsOf auM 10) /\ handled auE genG (fieldsOf auM 10) /\
  structFields auE decodeOptions 10 = Ok cs /\ length cs = 4.
Proof.
  exists fsu. eexists. split; [reflexivity|]. split; [apply (ag_lists fsu)|]. split; [apply (au_tidy 10); reflexivity|]. split; [apply ag_usual|]. split; [apply (au_distinct 10 fsu); reflexivity|]. split; [apply (au_handled 10 fsu); reflexivity|].
  split; [found|reflexivity].
Qed.
