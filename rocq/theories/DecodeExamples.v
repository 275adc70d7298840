(* Concrete types and texts for the theorems on decoding. *)
From Verif Require Import Bytes Types JsonSpec Parser Doc DocSpec DocProofs DocDec DocExamples Strjson Float Num Iface IfaceSpec Options Codec CodecSpec CodecMerge CodecBase CodecBuild CodecExamples ParserThms DecodeSpec DecodeTree DecodeThms.
Local Open Scope nat_scope.

Definition next (E : env) (O : opts) (t : tid) : list tid :=
  match kindOf E t with Some k => elems k ++ match structFields E O t with Ok cs => map ctype cs | _ => [] end | None => [] end.
Lemma reads_in E O L : forallb (fun t => forallb (fun u => existsb (Nat.eqb u) L) (next E O t)) L = true -> forall t u, reads E O t u -> In t L -> In u L.
Proof.
  intros C. rewrite forallb_forall in C. assert (N : forall t u, In t L -> In u (next E O t) -> In u L).
  { intros t u It Iu. specialize (C t It). rewrite forallb_forall in C. specialize (C u Iu). apply existsb_exists in C as (x & Ix & Ex). apply Nat.eqb_eq in Ex. subst. exact Ix. }
  induction 1; intro It; auto; apply IHreads; apply (N t); auto; unfold next.
  - rewrite H. apply in_or_app. left. exact H0.
  - rewrite H, H0. apply in_or_app. right. apply in_map. exact H1.
Qed.

(* 6 int, 7 int8, 8 struct{Name string "name"; Next *T8; N int8; X interface{}}, 9 *T8, 10 []int8, 11 *[]int8,
   12 map[string]int8, 13 *T12, 14 [2]int8, 15 *T14, 16 struct{A int}, 17 *T16, 18 struct{*T16; B bool}, 19 *T18,
   20 type S string, 21 map[S]int8, 22 *T21, 23 type I interface{}, 24 *I, 25 *int8 *)
Definition decE : env := envOf [
  plainT (KInt 64); plainT (KInt 8);
  plainT (KStruct [tagged (str "Name") tString (str "name"); fld (str "Next") 9; fld (str "N") 7; fld (str "X") tIface]); plainT (KPtr 8);
  plainT (KSlice 7); plainT (KPtr 10); plainT (KMap tString 7); plainT (KPtr 12); plainT (KArray 2 7); plainT (KPtr 14);
  plainT (KStruct [fld (str "A") 6]); plainT (KPtr 16); plainT (KStruct [emb (str "T") 17; fld (str "B") tBool]); plainT (KPtr 18);
  plainT KString; plainT (KMap 20 7); plainT (KPtr 21); plainT (KIface false); plainT (KPtr 23); plainT (KPtr 7)].
Lemma dec_kind t k : kindOf decE t = Some k -> In t (seq 0 26).
Proof. intro K. apply kindOf_lt in K. apply in_seq. exact (conj (Nat.le_0_l _) K). Qed.
Ltac dec_types K := let J := fresh in pose proof (dec_kind _ _ K) as J; cbn [seq In] in J; repeat (destruct J as [<-|J]); [..|contradiction J]; cbv in K; try discriminate K; injection K as <-.
Lemma dec_wf : wf_types decE.
Proof.
  split; [|split].
  - intros t k u K I. change (length (types decE)) with 26%nat. dec_types K; cbn in I; intuition (subst; unfold tString, tIface, tMapSI, tBool; lia).
  - intros t bits [K|K]; dec_types K; cbn; auto.
  - exists (fun t => match t with 8 | 14 | 16 => 1 | 18 => 2 | _ => 0 end)%nat. split.
    + intro t. change (length (types decE)) with 26%nat. do 26 (destruct t as [|t]; [lia|]). lia.
    + intros t k u K I. dec_types K; cbn in I; intuition (subst; unfold tString, tIface, tMapSI, tBool; lia).
Qed.
Lemma dec_embeds : embeds_structs decE.
Proof.
  intros t fs f e K I A Ke. dec_types K;
    cbn in I; intuition (subst; cbn in A; try discriminate; cbv in Ke; try discriminate); injection Ke as <-; eexists; cbv; reflexivity.
Qed.
Lemma dec_acyclic : forall t, ~ cyclic decE decodeOptions t.
Proof.
  intros t C. destruct (cyclic_step _ _ _ C) as (u & (fs & f & key & h & K & _) & _). assert (S : isStruct decE t = true) by (apply isStruct_iff; eauto).
  apply (structFields_total_lem _ _ _ S) in C. dec_types K; vm_compute in C; discriminate C.
Qed.
Lemma dec_pointers : no_pointer_loop decE.
Proof.
  exists (fun t => match t with 9 | 11 | 13 | 15 | 17 | 19 | 22 | 24 | 25 => 1 | _ => 0 end). split.
  - intro t. change (length (types decE)) with 26%nat. do 26 (destruct t as [|t]; [lia|]). lia.
  - intros t e K. dec_types K; lia.
Qed.
Lemma dec_target t e : kindOf decE t = Some (KPtr e) -> decodable decE decodeOptions e -> (exists r, newCodec decE decodeOptions (IDec e) = Ok (Some r)) -> target decE t e.
Proof.
  intros K D (r & B). split; [|split; [exact D|split; [exact dec_acyclic|split; [exact dec_pointers|]]]].
  - dec_types K; eexists; repeat split; reflexivity.
  - intros x Ux Lx. destruct (D e (rd_here _ _ _)) as (X & Ty & _). destruct (C54_lem decE decodeOptions (IDec e) dec_wf dec_acyclic (kindOf_lt _ _ _ (typeOf_kindOf _ _ _ Ty))) as (b & Bd & Iff).
    rewrite B in Bd. injection Bd as <-. enough (Some r = None) by discriminate. apply Iff. eauto.
Qed.
Ltac reads_of L R := let I := fresh in pose proof (reads_in decE decodeOptions L ltac:(vm_compute; reflexivity) _ _ R ltac:(cbn; tauto)) as I; cbn [In] in I; repeat (destruct I as [<-|I]); [..|contradiction I].
Ltac decs L := intros ? R; reads_of L R; (eexists; split; [reflexivity|]; split; [repeat split; reflexivity|]); try exact Logic.I;
  (eexists; split; [vm_compute; reflexivity|]; repeat constructor; discriminate).
Lemma d8 : decodable decE decodeOptions 8. Proof. decs [8; 9; 7; tIface; tString]. Qed.
Lemma t9 : target decE 9 8. Proof. apply dec_target; [reflexivity|exact d8|eexists; vm_compute; reflexivity]. Qed.
Lemma t11 : target decE 11 10. Proof. apply dec_target; [reflexivity|decs [10; 7]|eexists; vm_compute; reflexivity]. Qed.
Lemma t13 : target decE 13 12. Proof. apply dec_target; [reflexivity|decs [12; 7]|eexists; vm_compute; reflexivity]. Qed.
Lemma t15 : target decE 15 14. Proof. apply dec_target; [reflexivity|decs [14; 7]|eexists; vm_compute; reflexivity]. Qed.
Lemma t22 : target decE 22 21. Proof. apply dec_target; [reflexivity|decs [21; 7]|eexists; vm_compute; reflexivity]. Qed.
Lemma t24 : target decE 24 23. Proof. apply dec_target; [reflexivity|decs [23]|eexists; vm_compute; reflexivity]. Qed.
Lemma t25 : target decE 25 7. Proof. apply dec_target; [reflexivity|decs [7]|eexists; vm_compute; reflexivity]. Qed.
Lemma h8 : ~ hazard decE decodeOptions 8.
Proof. intros (u & R & H). reads_of [8; 9; 7; tIface; tString] R; destruct H as [(k & e & K)|[N K]]; try discriminate K; congruence. Qed.
Lemma h7 : ~ hazard decE decodeOptions 7.
Proof. intros (u & R & H). reads_of [7] R; destruct H as [(k & e & K)|[N K]]; try discriminate K; congruence. Qed.
Lemma s8 : strict decE decodeOptions 8.
Proof. intros u R. reads_of [8; 9; 7; tIface; tString] R; split; intros; discriminate. Qed.
Lemma s7 : strict decE decodeOptions 7.
Proof. intros u R. reads_of [7] R; split; intros; discriminate. Qed.
Definition z8 : gv := VStruct [VString (str "old"); VPtr None; VInt 3; VIface None].
Lemma z8_typed : typed decE 8 z8.
Proof. unfold z8. ty. Qed.
Ltac setup := split; [exact dec_wf|]; split; [exact dec_embeds|].

Definition in43 : bytes := str "{""Next"":{""N"":-7,""X"":[true]},""z"":1,""name"":""b""}".
Definition out43 : gv := VStruct [VString (str "b"); VPtr (Some (VStruct [VString []; VPtr None; VInt (-7); VIface (Some (tSliceI, VSlice (Some ([VIface (Some (tBool, VBool true))], []))))])); VInt 3; VIface None].
Definition parsed (s : bytes) : option jval := match Document_Parse [mkDoc [] 0%N] 0 s with Ok (W, (n, _, None)) => treeN W n | _ => None end.
Lemma begins_parsed s j : parsed s = Some j -> begins s j.
Proof.
  unfold parsed. destruct (Document_Parse [mkDoc [] 0%N] 0 s) as [[W [[n tail] [e|]]]| |] eqn:P; try discriminate. intro H. apply treeN_sound in H.
  destruct (proj1 (Parse_tree_iff [mkDoc [] 0%N] 0 s j tail)) as (_ & s1 & w & H1); [eauto|]. exists s1, w, tail. exact H1.
Qed.
Definition worldOf (s : bytes) : world := match Document_Parse [mkDoc [] 0%N] 0 s with Ok (W, _) => W | _ => [] end.
Definition nodeOf (s : bytes) : Node := match Document_Parse [mkDoc [] 0%N] 0 s with Ok (_, (n, _, _)) => n | _ => mkN 0 0 None end.
Lemma tree_parsed s j : parsed s = Some j -> tree_of (worldOf s) (nodeOf s) j.
Proof. unfold parsed, worldOf, nodeOf. destruct (Document_Parse [mkDoc [] 0%N] 0 s) as [[W [[n tail] [e|]]]| |]; try discriminate. apply treeN_sound. Qed.

Ltac found := lazymatch goal with |- ?l = _ => let r := eval vm_compute in l in let H := fresh in assert (H : l = r) by (vm_compute; reflexivity); rewrite H; reflexivity end.

(* ---- C43 ---- *)
Definition tree43 : jval := JObj [(str "Next", JObj [(str "N", JNum (str "-7")); (str "X", JArr [JTrue])]); (str "z", JNum (str "1")); (str "name", JStr (str "b"))].
Lemma ex43_lem : wf_types decE /\ embeds_structs decE /\ target decE 9 8 /\ ~ hazard decE decodeOptions 8 /\ typed decE 8 z8 /\ begins in43 tree43 /\
  Unmarshal decE 5 in43 9 (VPtr (Some z8)) = Ok (VPtr (Some out43), None) /\ exists err, Unmarshal decE 5 (str "{""N"":") 9 (VPtr (Some z8)) = Ok (VPtr (Some z8), Some err).
Proof.
  setup. split; [exact t9|]. split; [exact h8|]. split; [exact z8_typed|]. split; [apply begins_parsed; vm_compute; reflexivity|]. split; [vm_compute; reflexivity|]. eexists. found.
Qed.
Lemma ex43_map : wf_types decE /\ embeds_structs decE /\ target decE 13 12 /\ kindOf decE 12 = Some (KMap tString 7) /\ ~ hazard decE decodeOptions 7 /\ typed decE 12 (VMap (Some [(VString (str "a"), VInt 1)])) /\
  tree_of (worldOf (str "{""b"":2,""a"":3}")) (nodeOf (str "{""b"":2,""a"":3}")) (JObj [(str "b", JNum (str "2")); (str "a", JNum (str "3"))]) /\
  UnmarshalFromNode decE (worldOf (str "{""b"":2,""a"":3}")) (nodeOf (str "{""b"":2,""a"":3}")) 13 (VPtr (Some (VMap (Some [(VString (str "a"), VInt 1)])))) =
    Ok (VPtr (Some (VMap (Some [(VString (str "a"), VInt 3); (VString (str "b"), VInt 2)]))), None).
Proof.
  setup. split; [exact t13|]. split; [reflexivity|]. split; [exact h7|]. split; [ty|]. split; [apply tree_parsed; vm_compute; reflexivity|]. vm_compute. reflexivity.
Qed.
(* a nil map *)
Lemma C43_refuted_lem : exists E s t e v, wf_types E /\ embeds_structs E /\ target E t e /\ typed E e v /\ begins s (JObj [(str "a", JNum (str "1"))]) /\ ~ mismatch E decodeOptions e (JObj [(str "a", JNum (str "1"))]) /\
  Unmarshal E 0 s t (VPtr (Some v)) = Panic.
Proof.
  exists decE, (str "{""a"":1}"), 13, 12, (VMap None). setup. split; [exact t13|]. split; [ty|]. split; [apply begins_parsed; vm_compute; reflexivity|]. split; [|vm_compute; reflexivity].
  intro M. inversion M; subst; try (match goal with A : kindOf decE _ = Some _ |- _ => cbv in A; injection A as; subst end); try discriminate.
  - match goal with A : ~ takes _ _ |- _ => apply A; exact Logic.I end.
  - match goal with A : In _ _ |- _ => cbn in A; destruct A as [A|[]]; injection A as; subst end. match goal with A : mismatch _ _ _ (JNum _) |- _ => inversion A; subst end; try (match goal with A : kindOf decE 7 = Some _ |- _ => cbv in A; try discriminate A; injection A as; subst end).
    + match goal with A : ~ takes _ _ |- _ => apply A; exact Logic.I end.
    + match goal with A : forall z, ~ int_of _ z |- _ => apply (A 1%Z); left; vm_compute; reflexivity end.
    + match goal with A : _ \/ _ |- _ => destruct A as [A|A]; discriminate A end.
Qed.
(* struct{*T16; B bool} with a nil pointer: the member is lost without an error *)
Lemma C43_lost_refuted_lem : exists E s t e v cs c, wf_types E /\ embeds_structs E /\ typed E e v /\ kindOf E t = Some (KPtr e) /\ structFields E decodeOptions e = Ok cs /\ field_for cs (str "A") c /\
  begins s (JObj [(str "A", JNum (str "1"))]) /\ Unmarshal E 0 s t (VPtr (Some v)) = Ok (VPtr (Some v), None).
Proof.
  exists decE, (str "{""A"":1}"), 19, 18, (VStruct [VPtr None; VBool true]), [mkC (str "A") [0; -1; 0]%Z 6 0; mkC (str "B") [1]%Z tBool 0], (mkC (str "A") [0; -1; 0]%Z 6 0).
  setup. split; [ty|]. split; [reflexivity|]. split; [vm_compute; reflexivity|]. split; [exists [], [mkC (str "B") [1]%Z tBool 0]; repeat split; auto|]. split; [apply begins_parsed; vm_compute; reflexivity|].
  vm_compute. reflexivity.
Qed.
(* a key type that is a defined string type; a defined interface type; a nil target; type P *P *)
Lemma C43_named_refuted_lem : exists E t e v t' e' v', wf_types E /\ embeds_structs E /\ target E t e /\ target E t' e' /\ typed E e (VMap (Some v)) /\ typed E e' v' /\
  (Unmarshal E 0 (str "{""a"":1}") t (VPtr (Some (VMap (Some v)))) = Panic) /\ Unmarshal E 0 (str "1") t' (VPtr (Some v')) = Panic.
Proof.
  exists decE, 22, 21, [], 24, 23, (VIface None). setup. split; [exact t22|]. split; [exact t24|]. split; [ty|]. split; [ty|]. split; vm_compute; reflexivity.
Qed.
Definition loopE : env := envOf [plainT (KPtr 6)].
Lemma C43_nil_refuted_lem : exists E t e, wf_types E /\ embeds_structs E /\ target E t e /\ ~ hazard E decodeOptions e /\ typed E t (VPtr None) /\ Unmarshal E 0 (str "1") t (VPtr None) = Panic.
Proof. exists decE, 25, 7. setup. split; [exact t25|]. split; [exact h7|]. split; [ty|]. vm_compute. reflexivity. Qed.
Lemma C43_loop_refuted_lem : exists E t, wf_types E /\ kindOf E t = Some (KPtr t) /\ typed E t (VPtr None) /\ exists o G, newCodec E decodeOptions (IDec t) = Ok (Some (o, G)) /\ forall fuel w n, decode fuel E G w o (VPtr None) n = Diverge \/ Node_Type w n = TypeNull.
Proof.
  exists loopE, 6. split; [|split; [reflexivity|split; [ty|exists 0, [CKind (IDec 6) 0 0]; split; [vm_compute; reflexivity|]]]].
  - assert (L : forall t k, kindOf loopE t = Some k -> In t (seq 0 7)) by (intros t k K; apply kindOf_lt in K; apply in_seq; exact (conj (Nat.le_0_l _) K)).
    split; [|split].
    + intros t k u K I. pose proof (L _ _ K) as J. cbn [seq In] in J. repeat (destruct J as [<-|J]); [..|contradiction J]; cbv in K; injection K as <-; cbn in I; intuition (subst; unfold tString, tIface; cbn; lia).
    + intros t bits [K|K]; pose proof (L _ _ K) as J; cbn [seq In] in J; repeat (destruct J as [<-|J]); try contradiction J; cbv in K; discriminate K.
    + exists (fun _ => 0). split; [intro; cbn; lia|]. intros t k u K I. pose proof (L _ _ K) as J. cbn [seq In] in J. repeat (destruct J as [<-|J]); [..|contradiction J]; cbv in K; injection K as <-; cbn in I; contradiction I.
  - intros fuel w n. destruct (Node_Type w n =? TypeNull)%N eqn:En; [right; apply N.eqb_eq; exact En|left].
    induction fuel as [|k IH]; [reflexivity|]. cbn [decode nth_error]. replace (typeOf loopE 6) with (Some (plainT (KPtr 6))) by reflexivity. cbn [plainT tkind]. destruct (Node_Data w n). rewrite En.
    replace (zero loopE 6) with (VPtr None) by reflexivity. rewrite IH. reflexivity.
Qed.

(* ---- C42 ---- *)
Definition in42 : bytes := str "{""Next"":{""Next"":{""N"":""x""}}}".
Definition tree42 : jval := JObj [(str "Next", JObj [(str "Next", JObj [(str "N", JStr (str "x"))])])].
Definition fs8 : list codec := [mkC (str "name") [0]%Z tString 0; mkC (str "Next") [1]%Z 9 0; mkC (str "N") [2]%Z 7 0; mkC (str "X") [3]%Z tIface 0].
Lemma fields8 : structFields decE decodeOptions 8 = Ok fs8. Proof. vm_compute. reflexivity. Qed.
Lemma ff8 i k c : nth_error fs8 i = Some c -> ckey c = k -> ~ In k (map ckey (firstn i fs8)) -> field_for fs8 k c.
Proof. intros N K F. exists (firstn i fs8), (skipn (S i) fs8). split; [|auto]. clear - N. revert N. generalize fs8. induction i; intros [|x l] N; try discriminate; cbn in *; [congruence|]. f_equal. auto. Qed.
Lemma mm42 : mismatch decE decodeOptions 8 tree42.
Proof.
  assert (F : field_for fs8 (str "Next") (mkC (str "Next") [1]%Z 9 0)) by (apply (ff8 1); [reflexivity|reflexivity|cbn; intuition discriminate]).
  eapply mm_field; [reflexivity|exact fields8|left; reflexivity|exact F|]. eapply mm_ptr; [reflexivity|discriminate|].
  eapply mm_field; [reflexivity|exact fields8|left; reflexivity|exact F|]. eapply mm_ptr; [reflexivity|discriminate|].
  eapply mm_field; [reflexivity|exact fields8|left; reflexivity|apply (ff8 2); [reflexivity|reflexivity|cbn; intuition discriminate]|].
  eapply mm_kind; [reflexivity|]. exact (fun f => f).
Qed.
Lemma ex42_lem : wf_types decE /\ embeds_structs decE /\ target decE 9 8 /\ strict decE decodeOptions 8 /\ typed decE 8 z8 /\ begins in42 tree42 /\ mismatch decE decodeOptions 8 tree42 /\
  exists x err, Unmarshal decE 0 in42 9 (VPtr (Some z8)) = Ok (x, Some err).
Proof.
  setup. split; [exact t9|]. split; [exact s8|]. split; [exact z8_typed|]. split; [apply begins_parsed; vm_compute; reflexivity|]. split; [exact mm42|]. do 2 eexists. found.
Qed.
Lemma mm_str e s : kindOf decE e = Some (KInt 8) -> mismatch decE decodeOptions e (JStr s).
Proof. intro K. eapply mm_kind; [exact K|]. exact (fun f => f). Qed.
Definition slice42 : jval := JArr [JNum (str "1"); JStr (str "x"); JNum (str "3")].
(* []int8 from [1,"x",3], [2]int8 from ["x",2] *)
Lemma C42_refuted_lem : exists E s t e v v', wf_types E /\ embeds_structs E /\ target E t e /\ ~ hazard E decodeOptions e /\ typed E e v /\ begins s slice42 /\ mismatch E decodeOptions e slice42 /\
  (Unmarshal E 0 s t (VPtr (Some v)) = Ok (VPtr (Some v'), None)) /\ v' = VSlice (Some ([VInt 1], [VInt 0; VInt 0])).
Proof.
  exists decE, (str "[1,""x"",3]"), 11, 10, (VSlice None), (VSlice (Some ([VInt 1], [VInt 0; VInt 0]))). setup. split; [exact t11|]. split; [|split; [ty|split; [apply begins_parsed; vm_compute; reflexivity|split; [|split; [vm_compute; reflexivity|reflexivity]]]]].
  - intros (u & R & H). reads_of [10; 7] R; destruct H as [(k & e & K)|[N K]]; try discriminate K; congruence.
  - eapply mm_slice; [reflexivity|right; left; reflexivity|apply mm_str; reflexivity].
Qed.
Lemma C42_array_refuted_lem : exists E s t e v, wf_types E /\ embeds_structs E /\ target E t e /\ ~ hazard E decodeOptions e /\ typed E e v /\ begins s (JArr [JStr (str "x"); JNum (str "2")]) /\
  mismatch E decodeOptions e (JArr [JStr (str "x"); JNum (str "2")]) /\ Unmarshal E 0 s t (VPtr (Some v)) = Ok (VPtr (Some (VArray [VInt 7; VInt 2])), None).
Proof.
  exists decE, (str "[""x"",2]"), 15, 14, (VArray [VInt 7; VInt 7]). setup. split; [exact t15|]. split; [|split; [ty|split; [apply begins_parsed; vm_compute; reflexivity|split; [|vm_compute; reflexivity]]]].
  - intros (u & R & H). reads_of [14; 7] R; destruct H as [(k & e & K)|[N K]]; try discriminate K; congruence.
  - eapply (mm_array _ _ _ 2 _ _ 0); [reflexivity|reflexivity|lia|apply mm_str; reflexivity].
Qed.
(* 300 into int8; text after the value *)
Lemma C42_range_refuted_lem : exists E s t e v z, wf_types E /\ embeds_structs E /\ target E t e /\ strict E decodeOptions e /\ kindOf E e = Some (KInt 8) /\ typed E e v /\ begins s (JNum (str "300")) /\ int_of (str "300") z /\ (2 ^ 7 <= z)%Z /\
  Unmarshal E 0 s t (VPtr (Some v)) = Ok (VPtr (Some (VInt 44)), None).
Proof.
  exists decE, (str "300"), 25, 7, (VInt 0), 300%Z. setup. split; [exact t25|]. split; [exact s7|]. split; [reflexivity|]. split; [ty|]. split; [apply begins_parsed; vm_compute; reflexivity|]. split; [left; vm_compute; reflexivity|]. split; [lia|].
  vm_compute. reflexivity.
Qed.
Lemma C42_rest_refuted_lem : exists E s t e v, wf_types E /\ embeds_structs E /\ target E t e /\ strict E decodeOptions e /\ typed E e v /\ (forall j, ~ rfc_value j s) /\
  Unmarshal E 0 s t (VPtr (Some v)) = Ok (VPtr (Some (VInt 1)), None).
Proof.
  exists decE, (str "1]"), 25, 7, (VInt 0). setup. split; [exact t25|]. split; [exact s7|]. split; [ty|]. split; [|vm_compute; reflexivity].
  intros j V. inversion V as [w Hw Ej Ew|w Hw Ej Ew| | | | | | |]; subst. apply rfc_lenient_number in Hw. destruct Hw as (c & w' & Eq & _ & Hw). injection Eq as <- <-. rewrite Forall_forall in Hw. apply (Hw x5d); [left; reflexivity|right; right; left; reflexivity].
Qed.
Lemma slice_lem : wf_types decE /\ embeds_structs decE /\ target decE 11 10 /\ kindOf decE 10 = Some (KSlice 7) /\ strict decE decodeOptions 7 /\ ~ hazard decE decodeOptions 7 /\
  typed decE 10 (VSlice (Some ([VInt 9; VInt 8], [VInt 6]))) /\ tree_of (worldOf (str "[1,""x"",3]")) (nodeOf (str "[1,""x"",3]")) slice42 /\
  UnmarshalFromNode decE (worldOf (str "[1,""x"",3]")) (nodeOf (str "[1,""x"",3]")) 11 (VPtr (Some (VSlice (Some ([VInt 9; VInt 8], [VInt 6]))))) = Ok (VPtr (Some (VSlice (Some ([VInt 1], [VInt 8; VInt 6])))), None).
Proof.
  setup. split; [exact t11|]. split; [reflexivity|]. split; [exact s7|]. split; [exact h7|]. split; [ty|]. split; [apply tree_parsed; vm_compute; reflexivity|]. vm_compute. reflexivity.
Qed.
