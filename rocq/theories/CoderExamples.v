(* Concrete types, options and values for C56, C57 and C58. *)
From Coq Require Import Permutation.
From Verif Require Import FloatSpec NumSpec FmtSpec StrSpec Bytes Types JsonSpec Parser Doc DocSpec DocProofs DocDec DocExamples Strjson Float Num NumInt FmtThms Iface IfaceSpec Options Codec CodecSpec CodecMerge CodecBase CodecBuild CodecEnc CodecJson CodecExamples ParserThms
  DecodeSpec DecodeTree DecodeThms DecodeExamples RoundSpec RoundThms RoundExamples MethodSpec MethodThms MethodExamples Coder CoderSpec CoderThms.
Local Open Scope nat_scope.

Definition ytag (n : bytes) (t : tid) (tag : bytes) : sfield :=
  mkField n t true false (str "yaml:" ++ x22 :: tag ++ [x22]) (fun k => if bseqb k (str "yaml") then Some tag else None).
(* 6 int64, 7 struct{A int64 "alpha"; B string "b"; Next *T7 "next"} with yaml tags, 8 *T7, 9 int64 with MarshalText and
   UnmarshalText, 10 *T9, 11 struct{V T12 ",omitempty"}, 12 int64 with Omit on the pointer, 13 *T11, 14 *interface{},
   15 a type without a codec, 16 struct{C T15}, 17 int64 with MarshalJSON on the pointer, 18 *T17, 19 as 9, 20 *T19,
   21 *T16 *)
Definition codE : env :=
  mkEnv [plainT (KInt 64); plainT (KStruct [ytag (str "A") 6 (str "alpha"); ytag (str "B") tString (str "b"); ytag (str "Next") 8 (str "next")]); plainT (KPtr 7);
      mkT (KInt 64) textMU textMU; mkT (KPtr 9) textMU noMethods; plainT (KStruct [tagged (str "V") 12 (str ",omitempty")]); mkT (KInt 64) noMethods omits; plainT (KPtr 11); plainT (KPtr tIface);
      plainT KOther; plainT (KStruct [fld (str "C") 15]); mkT (KInt 64) noMethods jsonM; mkT (KPtr 17) jsonM noMethods; mkT (KInt 64) textMU textMU; mkT (KPtr 19) textMU noMethods; plainT (KPtr 16)]
    (fun _ _ b => Ok (b, Some UValue)) (fun _ _ => Ok (Some (str "true"), None))
    (fun _ v => match v with VInt 0 => Ok (str "zero", None) | VInt _ => Ok (str "some", None) | _ => Ok ([], Some UValue) end) (fun _ _ => Ok false) (fun _ _ => Ok true)
    (fun _ v _ _ => Ok (v, Some UValue)) (fun _ v _ => Ok (v, Some UValue)) (fun _ v s => Ok (VPtr (Some (VInt (Z.of_nat (length s)))), None))
    (fun _ => None) exact_ftoa (fun _ m => m).
(* checks that compute *)
Definition ids (E : env) : list tid := seq 0 (length (types E)).
Lemma check_kind E (P : tid -> kind -> bool) : forallb (fun t => match kindOf E t with Some k => P t k | None => true end) (ids E) = true -> forall t k, kindOf E t = Some k -> P t k = true.
Proof. intros H t k K. rewrite forallb_forall in H. specialize (H t). rewrite K in H. apply H. apply in_seq. pose proof (kindOf_lt _ _ _ K). lia. Qed.
Definition wfOk (E : env) (rank : tid -> nat) (t : tid) (k : kind) : bool :=
  forallb (fun u => u <? length (types E)) (mentions k) && forallb (fun u => rank u <? rank t) (contains k) &&
  match k with KInt b | KUint b => existsb (Z.eqb b) [8; 16; 32; 64]%Z | _ => true end.
Lemma check_wf E rank : (forall t, rank t < length (types E)) -> forallb (fun t => match kindOf E t with Some k => wfOk E rank t k | None => true end) (ids E) = true -> wf_types E.
Proof.
  intros R H. pose proof (check_kind E (wfOk E rank) H) as C. assert (C' : forall t k, kindOf E t = Some k -> (forall u, In u (mentions k) -> u < length (types E)) /\ (forall u, In u (contains k) -> rank u < rank t) /\ match k with KInt b | KUint b => In b [8; 16; 32; 64]%Z | _ => True end).
  { intros t k K. apply C in K. unfold wfOk in K. apply andb_prop in K as [K K3]. apply andb_prop in K as [K1 K2]. rewrite forallb_forall in K1, K2. split; [|split].
    - intros u I. apply Nat.ltb_lt. apply K1. exact I.
    - intros u I. apply Nat.ltb_lt. apply K2. exact I.
    - destruct k; auto; apply existsb_exists in K3 as (b & I & Eb); apply Z.eqb_eq in Eb; subst; exact I. }
  split; [|split].
  - intros t k u K I. exact (proj1 (C' t k K) u I).
  - intros t b [K|K]; apply C' in K; apply K.
  - exists rank. split; [exact R|]. intros t k u K I. exact (proj1 (proj2 (C' t k K)) u I).
Qed.
Lemma check_embeds E : forallb (fun t => match kindOf E t with Some (KStruct fs) => forallb (fun f => negb (fanon f)) fs | _ => true end) (ids E) = true -> embeds_structs E.
Proof.
  intros H t fs f e K I A _. pose proof (check_kind E (fun _ k => match k with KStruct fs => forallb (fun f => negb (fanon f)) fs | _ => true end) H t _ K) as C. cbn beta iota in C.
  rewrite forallb_forall in C. specialize (C f I). rewrite A in C. discriminate.
Qed.
Lemma cod_rank t : match t with 7 => 1 | 11 => 1 | 16 => 1 | _ => 0 end < 22.
Proof. do 22 (destruct t as [|t]; [lia|]). lia. Qed.
Lemma cod_wf : wf_types codE.
Proof. apply (check_wf codE (fun t => match t with 7 => 1 | 11 => 1 | 16 => 1 | _ => 0 end)); [exact cod_rank|vm_compute; reflexivity]. Qed.
Lemma cod_embeds : embeds_structs codE.
Proof. apply check_embeds. vm_compute. reflexivity. Qed.
(* the options: the key from the tag yaml, and every empty field left out *)
Definition yamlO : opts := mkO (str "yaml") true [] false false.
Definition yamlF : opts := mkO (str "yaml") true (str "Omit") false false.
Lemma yaml_completed : completed yamlO yamlF.
Proof. apply completed_lem. reflexivity. Qed.
Definition yamlT : opts := mkO (str "yaml") false (str "Omit") false false.
Lemma yaml_tag_completed : completed (tagOnly (str "yaml")) yamlT.
Proof. apply completed_lem. reflexivity. Qed.
Definition charsOk (s : bytes) : bool := forallb (fun c => (32 <=? bN c)%N && negb (beqb c x22) && negb (beqb c x5c)) s.
Lemma chars_ok s : charsOk s = true -> rfc_chars s.
Proof.
  unfold charsOk. induction s as [|c s IH]; cbn; intro H; [constructor|]. apply andb_prop in H as [H Hs]. apply andb_prop in H as [H H3]. apply andb_prop in H as [H1 H2].
  apply chars_plain; [apply N.leb_le; exact H1|intros ->; discriminate|intros ->; discriminate|auto].
Qed.
Definition fieldsOk (E : env) (O : opts) (t : tid) : bool :=
  match structFields E O t with Ok cs => forallb (fun c => charsOk (ckey c) && negb (N.eqb (N.land (chints c) hintRaw) hintRaw)) cs | _ => negb (isStruct E t) end.
Lemma check_acyclic E O : forallb (fieldsOk E O) (ids E) = true -> forall t, ~ cyclic E O t.
Proof.
  intros H t C. destruct (cyclic_step _ _ _ C) as (u & (fs & f & key & h & K & _) & _). assert (Ss : isStruct E t = true) by (apply isStruct_iff; eauto).
  apply (structFields_total_lem _ _ _ Ss) in C. rewrite forallb_forall in H. specialize (H t). unfold fieldsOk in H. rewrite C, Ss in H. discriminate H. apply in_seq. pose proof (kindOf_lt _ _ _ K). lia.
Qed.
Lemma check_tags E O : forallb (fieldsOk E O) (ids E) = true -> tags_json E O.
Proof.
  intros H t cs c F I. assert (L : t < length (types E)).
  { unfold structFields in F. destruct (S (length (types E))) as [|n]; [discriminate|]. cbn [merge] in F. unfold typeOf in F. destruct (nth_error (types E) t) eqn:N; [|discriminate]. apply nth_error_Some. congruence. }
  rewrite forallb_forall in H. specialize (H t). unfold fieldsOk in H. rewrite F, forallb_forall in H. specialize (H ltac:(apply in_seq; lia) c I). apply andb_prop in H as [H1 H2].
  split; [apply chars_ok; exact H1|]. intro X. rewrite X, N.eqb_refl in H2. discriminate.
Qed.
Ltac checked := vm_compute; reflexivity.
Lemma cod_acyclic : forall t, ~ cyclic codE defaultOptions t. Proof. apply check_acyclic. checked. Qed.
Lemma yaml_acyclic : forall t, ~ cyclic codE yamlF t. Proof. apply check_acyclic. checked. Qed.
Lemma yaml_tag_acyclic : forall t, ~ cyclic codE yamlT t. Proof. apply check_acyclic. checked. Qed.
Lemma cod_tags : tags_json codE defaultOptions. Proof. apply check_tags. checked. Qed.
Lemma yaml_tags : tags_json codE yamlF. Proof. apply check_tags. checked. Qed.
Lemma cod_maps : walks_maps codE. Proof. intros b m. apply Permutation_refl. Qed.
Lemma cod_return : methods_return codE.
Proof. repeat split; intros; try (eexists; reflexivity). cbn. destruct v; try (eexists; reflexivity). destruct z; eexists; reflexivity. Qed.
Lemma cod_write : methods_write_json codE.
Proof.
  split; [|split]; cbn; intros; [discriminate| |].
  - injection H as <-. eexists. exists JTrue. split; [reflexivity|constructor].
  - destruct v; try discriminate. destruct z; injection H as <-; apply chars_ok; reflexivity.
Qed.
Lemma cod_env : go_env codE.
Proof. split; [exact cod_wf|]. split; [exact cod_embeds|]. split; [exact exact_spec|]. split; [exact cod_maps|exact cod_tags]. Qed.
Lemma cod_pointers : no_pointer_loop codE.
Proof.
  exists (fun t => match t with 8 | 10 | 13 | 14 | 18 | 20 | 21 => 1 | _ => 0 end). split.
  - intro t. change (length (types codE)) with 22%nat. do 22 (destruct t as [|t]; [lia|]). lia.
  - intros t e K. assert (L : t < 22) by exact (kindOf_lt _ _ _ K). do 22 (destruct t as [|t]; [vm_compute in K; try discriminate K; injection K as <-; lia|]). lia.
Qed.

(* ---- C56 ---- *)
Definition enc8 : typeEncoder := match NewTypeEncoder codE (Some 8) yamlO with Ok (Some m) => m | _ => mkTE EText 0 yamlO end.
Definition v56 : gv := VStruct [VInt 5; VString []; VPtr (Some (VStruct [VInt 0; VString (str "x"); VPtr None]))].
Lemma v56_typed : typed codE 7 v56. Proof. unfold v56. ty. Qed.
Lemma v56_json : tops_ok codE v56 /\ floats_json v56.
Proof.
  split.
  - assert (H : forall x, inside v56 x -> match x with VIface _ => False | _ => True end); [unfold v56; parts|]. intros dt x I. contradiction (H _ I).
  - assert (H : forall x, inside v56 x -> match x with VFloat _ => False | _ => True end); [unfold v56; parts|]. intros f I. contradiction (H _ I).
Qed.
Lemma own8 : own_methods codE 8.
Proof. intros T Ty. injection Ty as <-. intros X Tx. injection Tx as <-. repeat split. Qed.
Lemma accepts87 : accepts codE 8 7.
Proof. exists 7. split; [left; reflexivity|]. right. split; [reflexivity|]. eexists. split; [reflexivity|]. discriminate. Qed.
Lemma ex56_lem : go_env codE /\ completed yamlO yamlF /\ (forall u, ~ cyclic codE defaultOptions u) /\ tags_json codE yamlF /\ methods_return codE /\ methods_write_json codE /\ oNaN yamlO = false /\ oInf yamlO = false /\
  NewTypeEncoder codE (Some 8) yamlO = Ok (Some enc8) /\ own_methods codE 8 /\ accepts codE 8 7 /\ typed codE 7 v56 /\ v56 <> VPtr None /\ tops_ok codE v56 /\ floats_json v56 /\
  Encode codE enc8 (str "x=") (Some (7, v56)) = Ok (str "x={""alpha"":5,""next"":{""b"":""x""}}", None) /\
  AppendJSON codE (str "x=") (Some (7, v56)) = Ok (str "x={""A"":5,""B"":"""",""Next"":{""A"":0,""B"":""x"",""Next"":null}}", None).
Proof.
  split; [exact cod_env|]. split; [exact yaml_completed|]. split; [exact cod_acyclic|]. split; [exact yaml_tags|]. split; [exact cod_return|]. split; [exact cod_write|]. do 2 (split; [reflexivity|]). split; [vm_compute; reflexivity|].
  split; [exact own8|]. split; [exact accepts87|]. split; [exact v56_typed|]. split; [discriminate|]. split; [exact (proj1 v56_json)|]. split; [exact (proj2 v56_json)|]. split; vm_compute; reflexivity.
Qed.
(* the chan in the field of 16 *)
Lemma ex56_new_lem : wf_types codE /\ completed yamlO yamlF /\ (forall u, ~ cyclic codE yamlF u) /\ ~ encoded_by_method codE 21 /\ stands_for codE 21 16 /\ uses_star codE yamlF (IEnc 16) (IEnc 15) /\ lacks codE (IEnc 15) /\
  NewTypeEncoder codE (Some 21) yamlO = Ok None /\ NewTypeEncoder codE (Some 8) yamlO = Ok (Some enc8) /\ encoded_by_method codE 10.
Proof.
  split; [exact cod_wf|]. split; [exact yaml_completed|]. split; [exact yaml_acyclic|]. split; [intros (T & Ty & H); injection Ty as <-; apply H; repeat split|]. split; [left; reflexivity|].
  split; [eapply us_step; [|constructor]; eapply (us_field _ _ _ 16 _ _ _ (mkC (str "C") [0]%Z 15 hintOmitempty)); [auto|repeat split; reflexivity|reflexivity|vm_compute; reflexivity|left; reflexivity|auto]|].
  split; [eexists; split; [repeat split; reflexivity|exact Logic.I]|]. split; [vm_compute; reflexivity|]. split; [vm_compute; reflexivity|]. eexists. split; [reflexivity|]. intros (A & J & T). discriminate T.
Qed.
Lemma ex56_reject_lem : NewTypeEncoder codE (Some 8) yamlO = Ok (Some enc8) /\ typed codE 6 (VInt 1) /\ VInt 1 <> VPtr None /\ ~ accepts codE 8 6 /\ Encode codE enc8 (str "x") (Some (6, VInt 1)) = Ok (str "x", Some UInvalidValue).
Proof.
  split; [vm_compute; reflexivity|]. split; [ty|]. split; [discriminate|]. split; [|vm_compute; reflexivity].
  intros (u & [Ku|(_ & k & Ku & Nk)] & [K6|(<- & _)]); try discriminate. vm_compute in Ku. injection Ku as <-. exact (Nk _ eq_refl).
Qed.
Definition enc9 : typeEncoder := mkTE EText 9 yamlF.
Lemma ex56_method_lem : NewTypeEncoder codE (Some 9) yamlO = Ok (Some enc9) /\ own_methods codE 9 /\ encoded_by_method codE 9 /\ stands_for codE 9 9 /\ unpointed codE 10 (VPtr (Some (VInt 0))) 9 (VInt 0) /\ typeOf codE 9 = Some (mkT (KInt 64) textMU textMU) /\
  Encode codE enc9 [] (Some (10, VPtr (Some (VInt 0)))) = Ok (str """zero""", None) /\ Encode codE enc9 [] (Some (9, VInt 4)) = Ok (str """some""", None).
Proof.
  split; [reflexivity|]. split; [intros T Ty; injection Ty as <-; repeat split|]. split; [eexists; split; [reflexivity|intros (_ & _ & T); discriminate T]|]. split; [right; split; [reflexivity|]; eexists; split; [reflexivity|discriminate]|].
  split; [left; split; reflexivity|]. repeat split.
Qed.
Definition encEx : typeEncoder := match NewTypeEncoder exE (Some 18) noOptions with Ok (Some m) => m | _ => mkTE EText 0 yamlO end.
Definition exP : env := mkEnv (user exE ++ [plainT (KPtr 18)]) (callAppend exE) (callJSON exE) (callText exE) (callOmit exE) (callOmitPtr exE) (callNodeU exE) (callJSONU exE) (callTextU exE) (scParseFloat exE) (ftoa exE) (mapOrder exE).
Definition ex56p : gv := VStruct [VStruct [VArray [VInt 0; VInt 0]; VString []; VString (str "x")]; VInt 1].
Lemma ex56_pointer_lem : omits_by_value exP (str "Omit") /\ (exists m, NewTypeEncoder exP (Some 18) noOptions = Ok (Some m) /\ Encode exP m [] (Some (18, ex56p)) = Ok (str "{""X"":{""H"":""x""},""Y"":1}", None) /\
    Encode exP m [] (Some (19, VPtr (Some ex56p))) = Ok (str "{""X"":{""H"":""x""},""Y"":1}", None)) /\
  kindOf exP 19 = Some (KPtr 18) /\ (forall e, kindOf exP 18 <> Some (KPtr e)).
Proof.
  split; [|split; [|split; [reflexivity|discriminate]]].
  - intros t T Ty H. unfold typeOf in Ty. assert (L : t < 20) by (change 20 with (length (types exP)); apply nth_error_Some; congruence). do 20 (destruct t as [|t]; [injection Ty as <-; try discriminate H; left; reflexivity|]). lia.
  - destruct (NewTypeEncoder exP (Some 18) noOptions) as [[m|]| |] eqn:N; vm_compute in N; try discriminate N. injection N as <-. eexists. split; [reflexivity|]. split; vm_compute; reflexivity.
Qed.
Lemma C56_nil_refuted_lem : exists E t O m s, go_env E /\ NewTypeEncoder E (Some t) O = Ok (Some m) /\ own_methods E t /\ accepts E t s /\ typed E s (VPtr None) /\ Encode E m [] (Some (s, VPtr None)) = Panic.
Proof.
  exists codE, 8, yamlO, enc8, 8. split; [exact cod_env|]. split; [vm_compute; reflexivity|]. split; [exact own8|]. split; [exists 7; split; left; reflexivity|]. split; [ty|vm_compute; reflexivity].
Qed.
Definition nanO : opts := mkO [] false [] true true.
Lemma C56_nan_refuted_lem : exists E O m t v out, go_env E /\ oNaN O = true /\ NewTypeEncoder E (Some t) O = Ok (Some m) /\ typed E t v /\ Encode E m [] (Some (t, v)) = Ok (out, None) /\ forall j, ~ rfc_value j out.
Proof.
  exists codE, nanO. eexists. exists tFloat64, (VFloat FNaN), (str "NaN"). split; [exact cod_env|]. split; [reflexivity|]. split; [vm_compute; reflexivity|]. split; [ty|]. split; [vm_compute; reflexivity|].
  apply no_json_word; try discriminate. intros [_ H]. vm_compute in H. apply H. reflexivity.
Qed.
Lemma C56_method_refuted_lem : exists E t s O m v, go_env E /\ NewTypeEncoder E (Some t) O = Ok (Some m) /\ encoded_by_method E t /\ accepts E t s /\ kindOf E s = Some (KPtr t) /\ typed E s (VPtr (Some v)) /\
  Encode E m [] (Some (t, v)) = Panic /\ Encode E m [] (Some (s, VPtr (Some v))) = Panic.
Proof.
  exists codE, 17, 18, noOptions. eexists. exists (VInt 1). split; [exact cod_env|]. split; [reflexivity|]. split; [eexists; split; [reflexivity|intros (_ & J & _); discriminate J]|].
  split; [exists 17; split; [right; split; [reflexivity|]; eexists; split; [reflexivity|discriminate]|left; reflexivity]|]. split; [reflexivity|]. split; [ty|]. split; vm_compute; reflexivity.
Qed.
Lemma C56_pointer_refuted_lem : exists E t s O m v, go_env E /\ NewTypeEncoder E (Some t) O = Ok (Some m) /\ kindOf E s = Some (KPtr t) /\ typed E t v /\
  Encode E m [] (Some (t, v)) = Ok (str "{""V"":7}", None) /\ Encode E m [] (Some (s, VPtr (Some v))) = Ok (str "{}", None).
Proof.
  exists codE, 11, 13, noOptions. destruct (NewTypeEncoder codE (Some 11) noOptions) as [[m|]| |] eqn:N; vm_compute in N; try discriminate N. injection N as <-. eexists. exists (VStruct [VInt 7]). split; [exact cod_env|]. split; [reflexivity|]. split; [reflexivity|].
  split; [ty|]. split; vm_compute; reflexivity.
Qed.

(* ---- C57 ---- *)
Definition fs7 : list codec := [mkC (str "alpha") [0]%Z 6 0; mkC (str "b") [1]%Z tString 0; mkC (str "next") [2]%Z 8 0].
Lemma fields7 : structFields codE yamlT 7 = Ok fs7. Proof. vm_compute. reflexivity. Qed.
Ltac reads7 O R := let I := fresh in pose proof (reads_in codE O [7; 8; 6; tString] ltac:(vm_compute; reflexivity) _ _ R ltac:(cbn; tauto)) as I; cbn [In] in I; repeat (destruct I as [<-|I]); [..|contradiction I].
Ltac decodable7 O := intros ? R; reads7 O R; (eexists; split; [reflexivity|]; split; [repeat split; reflexivity|]); try exact Logic.I;
  (eexists; split; [vm_compute; reflexivity|]; repeat constructor; discriminate).
Lemma dec7 : decodable codE yamlT 7. Proof. decodable7 yamlT. Qed.
Lemma t87 : target_with codE yamlT 8 7.
Proof.
  split; [eexists; repeat split; reflexivity|]. split; [exact dec7|]. split; [exact yaml_tag_acyclic|]. split; [exact cod_pointers|].
  intros x Ux Lx. destruct (C54_lem codE yamlT (IDec 7) cod_wf yaml_tag_acyclic) as (b & Bd & Iff); [cbn; lia|]. vm_compute in Bd. injection Bd as <-. destruct Iff as [_ Iff]. discriminate Iff. eauto.
Qed.
Lemma h7y O : O = yamlT \/ O = yamlF -> ~ hazard codE O 7.
Proof. intros [->| ->] (u & R & H); [reads7 yamlT R|reads7 yamlF R]; destruct H as [(k & e & K)|[N K]]; try discriminate K; congruence. Qed.
Lemma s7y : strict codE yamlT 7.
Proof. intros u R. reads7 yamlT R; split; intros; discriminate. Qed.
Definition dec8 : decoder := match NewTypeDecoder codE (Some 8) (str "yaml") with Ok (Some d) => d | _ => DIface end.
Definition z57 : gv := VStruct [VInt 1; VString (str "old"); VPtr None].
Definition in57 : bytes := str "{""alpha"":5,""A"":9,""next"":{""b"":""x""}}".
Definition tree57 : jval := JObj [(str "alpha", JNum (str "5")); (str "A", JNum (str "9")); (str "next", JObj [(str "b", JStr (str "x"))])].
Definition out57 : gv := VStruct [VInt 5; VString (str "old"); VPtr (Some (VStruct [VInt 0; VString (str "x"); VPtr None]))].
Ltac setupY := split; [exact cod_wf|]; split; [exact cod_embeds|]; split; [exact yaml_tag_completed|]; split; [exact t87|].
Lemma ex57_lem : wf_types codE /\ embeds_structs codE /\ completed (tagOnly (str "yaml")) yamlT /\ target_with codE yamlT 8 7 /\ ~ hazard codE yamlT 7 /\ typed codE 7 z57 /\ tree_of (worldOf in57) (nodeOf in57) tree57 /\
  NewTypeDecoder codE (Some 8) (str "yaml") = Ok (Some dec8) /\
  Decode codE 14 (worldOf in57) dec8 (Some (8, VPtr (Some z57))) (nodeOf in57) = Ok (Some (8, VPtr (Some out57)), None) /\
  UnmarshalFromNode codE (worldOf in57) (nodeOf in57) 8 (VPtr (Some z57)) = Ok (VPtr (Some (VStruct [VInt 9; VString (str "old"); VPtr None])), None).
Proof.
  setupY. split; [apply h7y; auto|]. split; [unfold z57; ty|]. split; [apply tree_parsed; vm_compute; reflexivity|]. split; [vm_compute; reflexivity|]. split; vm_compute; reflexivity.
Qed.
Definition bad57 : bytes := str "{""next"":{""alpha"":""x""},""b"":""y""}".
Definition badTree57 : jval := JObj [(str "next", JObj [(str "alpha", JStr (str "x"))]); (str "b", JStr (str "y"))].
Lemma ff7 i k c : nth_error fs7 i = Some c -> ckey c = k -> ~ In k (map ckey (firstn i fs7)) -> field_for fs7 k c.
Proof. intros N K F. exists (firstn i fs7), (skipn (S i) fs7). split; [|auto]. clear - N. revert N. generalize fs7. induction i; intros [|x l] N; try discriminate; cbn in *; [congruence|]. f_equal. auto. Qed.
Lemma mm57 : mismatch codE yamlT 7 badTree57.
Proof.
  eapply mm_field; [reflexivity|exact fields7|left; reflexivity|apply (ff7 2); [reflexivity|reflexivity|cbn; intuition discriminate]|]. eapply mm_ptr; [reflexivity|discriminate|].
  eapply mm_field; [reflexivity|exact fields7|left; reflexivity|apply (ff7 0); [reflexivity|reflexivity|cbn; intuition discriminate]|]. eapply mm_kind; [reflexivity|]. exact (fun f => f).
Qed.
Lemma ex57_errors_lem : wf_types codE /\ embeds_structs codE /\ completed (tagOnly (str "yaml")) yamlT /\ target_with codE yamlT 8 7 /\ typed codE 7 z57 /\ tree_of (worldOf bad57) (nodeOf bad57) badTree57 /\
  NewTypeDecoder codE (Some 8) (str "yaml") = Ok (Some dec8) /\ strict codE yamlT 7 /\ mismatch codE yamlT 7 badTree57 /\
  exists x e, Decode codE 14 (worldOf bad57) dec8 (Some (8, VPtr (Some z57))) (nodeOf bad57) = Ok (x, Some e).
Proof.
  setupY. split; [unfold z57; ty|]. split; [apply tree_parsed; vm_compute; reflexivity|]. split; [vm_compute; reflexivity|]. split; [exact s7y|]. split; [exact mm57|]. do 2 eexists. found.
Qed.
Lemma ex57_new_lem : wf_types codE /\ completed (tagOnly (str "yaml")) yamlT /\ (forall u, ~ cyclic codE yamlT u) /\
  NewTypeDecoder codE (Some 8) (str "yaml") = Ok (Some dec8) /\ NewTypeDecoder codE (Some 7) (str "yaml") = Ok None /\ NewTypeDecoder codE (Some 21) (str "yaml") = Ok None /\ lacks codE (IDec 15) /\ uses_star codE yamlT (IDec 16) (IDec 15) /\
  NewTypeDecoder codE (Some tIface) (str "yaml") = Ok (Some DIface) /\ NewTypeDecoder codE (Some 10) (str "yaml") = Ok (Some DText).
Proof.
  split; [exact cod_wf|]. split; [exact yaml_tag_completed|]. split; [exact yaml_tag_acyclic|]. do 3 (split; [vm_compute; reflexivity|]). split; [eexists; split; [repeat split; reflexivity|exact Logic.I]|].
  split; [eapply us_step; [|constructor]; eapply (us_field _ _ _ 16 _ _ _ (mkC (str "C") [0]%Z 15 0)); [auto|repeat split; reflexivity|reflexivity|vm_compute; reflexivity|left; reflexivity|auto]|]. split; reflexivity.
Qed.
Lemma ex57_reject_lem : typeOf codE 8 = Some (plainT (KPtr 7)) /\ no_unmarshaler noMethods /\ NewTypeDecoder codE (Some 8) (str "yaml") = Ok (Some dec8) /\ 13 < length (types codE) /\
  Decode codE 14 (worldOf in57) dec8 (Some (13, VPtr (Some (VStruct [VInt 1])))) (nodeOf in57) = Ok (Some (13, VPtr (Some (VStruct [VInt 1]))), Some UInvalidValue).
Proof. split; [reflexivity|]. split; [repeat split|]. split; [vm_compute; reflexivity|]. split; [vm_compute; lia|vm_compute; reflexivity]. Qed.
Definition in57i : bytes := str "[true,{""a"":null}]".
Lemma ex57_iface_lem : kindOf codE 14 = Some (KPtr tIface) /\ kindOf codE tIface = Some (KIface false) /\ tree_of (worldOf in57i) (nodeOf in57i) (JArr [JTrue; JObj [(str "a", JNull)]]) /\ numbers_parse (JArr [JTrue; JObj [(str "a", JNull)]]) /\
  NewTypeDecoder codE None [] = Ok (Some DIface) /\
  Decode codE 14 (worldOf in57i) DIface (Some (14, VPtr (Some (VIface None)))) (nodeOf in57i) =
    Ok (Some (14, VPtr (Some (VIface (Some (tSliceI, VSlice (Some ([VIface (Some (tBool, VBool true)); VIface (Some (tMapSI, VMap (Some [(VString (str "a"), VIface None)])))], []))))))), None).
Proof.
  split; [reflexivity|]. split; [reflexivity|]. split; [apply tree_parsed; vm_compute; reflexivity|]. split; [repeat constructor|]. split; [reflexivity|]. vm_compute. reflexivity.
Qed.
Lemma ex57_nil_lem : tree_of (worldOf in57i) (nodeOf in57i) (JArr [JTrue; JObj [(str "a", JNull)]]) /\ typeOf codE 8 = Some (plainT (KPtr 7)) /\ NewTypeDecoder codE (Some 8) (str "yaml") = Ok (Some dec8) /\
  Decode codE 14 (worldOf in57i) dec8 (Some (8, VPtr None)) (nodeOf in57i) = Panic.
Proof. split; [apply tree_parsed; vm_compute; reflexivity|]. split; [reflexivity|]. split; vm_compute; reflexivity. Qed.
Lemma ex57_method_lem : typeOf codE 10 = Some (mkT (KPtr 9) textMU noMethods) /\ unmarshals textMU = true /\ tree_of (worldOf (str """abc""")) (nodeOf (str """abc""")) (JStr (str "abc")) /\
  NewTypeDecoder codE (Some 10) [] = Ok (Some DText) /\ Decode codE 14 (worldOf (str """abc""")) DText (Some (10, VPtr (Some (VInt 0)))) (nodeOf (str """abc""")) = Ok (Some (10, VPtr (Some (VInt 3))), None).
Proof. split; [reflexivity|]. split; [reflexivity|]. split; [apply tree_parsed; vm_compute; reflexivity|]. split; [reflexivity|]. vm_compute. reflexivity. Qed.
(* a decoder for a type with a method takes any other type with the method *)
Lemma C57_method_refuted_lem : exists E pi t s d w n v v', go_env E /\ s <> t /\ (exists T, typeOf E t = Some T /\ unmarshals (tmeth T) = true) /\ NewTypeDecoder E (Some t) [] = Ok (Some d) /\ typed E s v /\ v' <> v /\ Decode E pi w d (Some (s, v)) n = Ok (Some (s, v'), None).
Proof.
  exists codE, 14, 10, 20, DText, (worldOf (str """abc""")), (nodeOf (str """abc""")), (VPtr (Some (VInt 0))), (VPtr (Some (VInt 3))). split; [exact cod_env|]. split; [discriminate|].
  split; [eexists; split; reflexivity|]. split; [reflexivity|]. split; [ty|]. split; [discriminate|]. vm_compute. reflexivity.
Qed.
(* a number that does not parse: there is an error, and what was in the interface is lost *)
Lemma C57_iface_refuted_lem : exists E pi w n d j v x e, go_env E /\ kindOf E pi = Some (KPtr tIface) /\ tree_of w n j /\ NewTypeDecoder E None [] = Ok (Some d) /\ typed E pi (VPtr (Some v)) /\
  Decode E pi w d (Some (pi, VPtr (Some v))) n = Ok (Some (pi, VPtr (Some x)), Some e) /\ v <> VIface None /\ x = VIface (Some (tSliceI, VSlice None)).
Proof.
  exists codE, 14, (worldOf (str "[1,--]")), (nodeOf (str "[1,--]")), DIface, (JArr [JNum (str "1"); JNum (str "--")]), (VIface (Some (tBool, VBool true))). do 2 eexists. split; [exact cod_env|]. split; [reflexivity|]. split; [apply tree_parsed; vm_compute; reflexivity|].
  split; [reflexivity|]. split; [ty|]. split; [found|]. split; [discriminate|reflexivity].
Qed.

(* ---- C58 ---- *)
Lemma both87 : both_ways codE yamlF 8 7.
Proof.
  split; [eexists; repeat split; reflexivity|]. split; [decodable7 yamlF|]. split; [exact cod_pointers|]. split; [|intros T Ty _; injection Ty as <-; repeat split].
  intros u R. reads7 yamlF R; (split; [eexists; repeat split; reflexivity|]; split;
      [intros T Ty; injection Ty as <-; cbn; repeat split; try (intros X Ty; injection Ty as <-; reflexivity)
      |intros cs F; vm_compute in F; try discriminate F; injection F as <-; cbn; repeat (constructor; [cbn; intuition discriminate|]); constructor]).
Qed.
Lemma v56_survives : survives codE yamlF 7 v56.
Proof.
  assert (Sx : forall l, (exists z s p, l = [VInt z; VString s; p] /\ float_int z /\ valid_utf8 s /\ plain_end s /\ survives codE yamlF 8 p) -> survives codE yamlF 7 (VStruct l)).
  { intros l (z & s & p & -> & Fz & Us & Ps & Sp). eapply sv_struct; [reflexivity|vm_compute; reflexivity|]. intros c x I R. cbn [In] in I.
    destruct I as [<-|[<-|[<-|[]]]]; cbn [cindex ctype] in *; (eapply reaches_same in R; [|reach]); subst x; [eapply sv_int; [reflexivity|exact Fz]|apply sv_string; [reflexivity|exact Us|exact Ps]|exact Sp]. }
  apply Sx. do 3 eexists. split; [reflexivity|]. split; [apply rep53; vm_compute; discriminate|]. split; [asciistr|]. split; [plainstr|]. eapply sv_ptr; [reflexivity|discriminate|discriminate|].
  apply Sx. do 3 eexists. split; [reflexivity|]. split; [apply rep53; vm_compute; discriminate|]. split; [asciistr|]. split; [plainstr|]. eapply sv_ptr_nil. reflexivity.
Qed.
Definition z58 : gv := VStruct [VInt 0; VString []; VPtr None].
Lemma ex58_lem : go_env codE /\ (forall u, ~ cyclic codE defaultOptions u) /\ completed yamlO yamlF /\ tags_json codE yamlF /\ both_ways codE yamlF 8 7 /\ ~ hazard codE yamlF 7 /\
  NewTypeEncoder codE (Some 7) yamlO = Ok (Some enc8) /\ NewTypeDecoder codE (Some 8) (oTag yamlO) = Ok (Some dec8) /\ typed codE 7 v56 /\ survives codE yamlF 7 v56 /\ v56 <> VPtr None /\ typed codE 7 z58 /\ blank codE 7 z58 /\
  Encode codE enc8 [] (Some (7, v56)) = Ok (str "{""alpha"":5,""next"":{""b"":""x""}}", None) /\
  Decode codE 14 (worldOf (str "{""alpha"":5,""next"":{""b"":""x""}}")) dec8 (Some (8, VPtr (Some z58))) (nodeOf (str "{""alpha"":5,""next"":{""b"":""x""}}")) = Ok (Some (8, VPtr (Some v56)), None).
Proof.
  split; [exact cod_env|]. split; [exact cod_acyclic|]. split; [exact yaml_completed|]. split; [exact yaml_tags|]. split; [exact both87|]. split; [apply h7y; auto|]. do 2 (split; [vm_compute; reflexivity|]).
  split; [exact v56_typed|]. split; [exact v56_survives|]. split; [discriminate|]. split; [unfold z58; ty|]. split; [unfold z58; repeat (first [eapply bl_int; reflexivity|eapply bl_string; reflexivity|eapply bl_ptr; reflexivity|eapply bl_struct; [reflexivity|]|constructor])|].
  split; vm_compute; reflexivity.
Qed.
(* the same object with the tag of the decoder left out *)
Lemma C58_refuted_lem : exists E O m d t pt v z w, go_env E /\ NewTypeEncoder E (Some t) O = Ok (Some m) /\ NewTypeDecoder E (Some pt) [] = Ok (Some d) /\ kindOf E pt = Some (KPtr t) /\ typed E t v /\ blank E t z /\ v <> z /\
  Encode E m [] (Some (t, v)) = Ok (w, None) /\ Decode E 14 (worldOf w) d (Some (pt, VPtr (Some z))) (nodeOf w) = Ok (Some (pt, VPtr (Some z)), None).
Proof.
  exists codE, yamlO, enc8. destruct (NewTypeDecoder codE (Some 8) []) as [[d|]| |] eqn:N; vm_compute in N; try discriminate N. injection N as <-. eexists. exists 7, 8, v56, z58, (str "{""alpha"":5,""next"":{""b"":""x""}}").
  split; [exact cod_env|]. split; [vm_compute; reflexivity|]. split; [reflexivity|]. split; [reflexivity|]. split; [exact v56_typed|].
  split; [unfold z58; repeat (first [eapply bl_int; reflexivity|eapply bl_string; reflexivity|eapply bl_ptr; reflexivity|eapply bl_struct; [reflexivity|]|constructor])|]. split; [discriminate|]. split; vm_compute; reflexivity.
Qed.
