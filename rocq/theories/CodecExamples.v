(* Concrete types and values for the theorems on codecs. *)
From Coq Require Import Permutation.
From Verif Require Import FloatSpec FmtSpec Bytes Types JsonSpec Parser Doc DocSpec Strjson Float Num NumSpec FmtThms Options Codec CodecSpec CodecMerge CodecBase CodecBuild CodecOmit CodecEnc CodecJson.
Local Open Scope nat_scope.

Definition fld (n : bytes) (t : tid) : sfield := mkField n t true false [] (fun _ => None).
Definition tagged (n : bytes) (t : tid) (tag : bytes) : sfield :=
  mkField n t true false (str "json:" ++ x22 :: tag ++ [x22]) (fun k => if bseqb k (str "json") then Some tag else None).
Definition emb (n : bytes) (t : tid) : sfield := mkField n t true true [] (fun _ => None).
Definition envOf (u : list tdef) : env :=
  mkEnv u (fun _ _ b => Ok (b, Some UValue)) (fun _ _ => Ok (None, Some UValue)) (fun _ _ => Ok ([], Some UValue)) (fun _ _ => Ok false) (fun _ _ => Ok false)
    (fun _ v _ _ => Ok (v, Some UValue)) (fun _ v _ => Ok (v, Some UValue)) (fun _ v _ => Ok (v, Some UValue)) (fun _ => None) exact_ftoa (fun _ m => m).
Definition omits : mset := mkM false false false false false false (fun m => bseqb m (str "Omit")).

(* 6 int, 7 struct{A int}, 8 struct{T7; A string}, 9 [2]int, 10 struct{F [2]int; G string; H string} with omitempty,
   11 struct{Name string; Next *T11; Tags []string; M map[string]interface{}}, 12 *T11, 13 []string, 14 *T7,
   15 struct{*T7; B bool}, 16 int with an Omit method, 17 struct{A int; T7}, 18 struct{X T10; Y T16} with omitempty *)
Definition exE : env := envOf [
  plainT (KInt 64);
  plainT (KStruct [fld (str "A") 6]);
  plainT (KStruct [emb (str "Inner") 7; fld (str "A") tString]);
  plainT (KArray 2 6);
  plainT (KStruct [tagged (str "F") 9 (str ",omitempty"); tagged (str "G") tString (str "g,omitempty"); fld (str "H") tString]);
  plainT (KStruct [fld (str "Name") tString; fld (str "Next") 12; fld (str "Tags") 13; fld (str "M") tMapSI]);
  plainT (KPtr 11);
  plainT (KSlice tString);
  plainT (KPtr 7);
  plainT (KStruct [emb (str "Inner") 14; fld (str "B") tBool]);
  mkT (KInt 64) omits omits;
  plainT (KStruct [fld (str "A") tString; emb (str "Inner") 7]);
  plainT (KStruct [tagged (str "X") 10 (str ",omitempty"); tagged (str "Y") 16 (str ",omitempty")])].

Lemma ex_kind t k : kindOf exE t = Some k -> In t (seq 0 19).
Proof. intro K. apply kindOf_lt in K. apply in_seq. exact (conj (Nat.le_0_l _) K). Qed.
Ltac all_types K := let J := fresh in pose proof (ex_kind _ _ K) as J; cbn [seq In] in J; repeat (destruct J as [<-|J]); [..|contradiction J]; cbv in K; try discriminate K; injection K as <-.
Lemma ex_wf : wf_types exE.
Proof.
  split; [|split].
  - intros t k u K I. change (length (types exE)) with 19%nat. all_types K; cbn in I; intuition (subst; unfold tString, tIface, tMapSI, tBool; lia).
  - intros t bits [K|K]; all_types K; cbn; auto.
  - exists (fun t => match t with 7 => 1 | 8 => 2 | 9 => 1 | 10 => 2 | 11 => 1 | 15 => 1 | 17 => 2 | 18 => 3 | _ => 0 end)%nat. split.
    + intro t. change (length (types exE)) with 19%nat. do 19 (destruct t as [|t]; [lia|]). lia.
    + intros t k u K I. all_types K; cbn in I; intuition (subst; unfold tString, tIface, tMapSI, tBool; lia).
Qed.
Lemma ex_embeds_structs : embeds_structs exE.
Proof.
  intros t fs f e K I A Ke. all_types K;
    cbn in I; intuition (subst; cbn in A; try discriminate; cbv in Ke; try discriminate); injection Ke as <-; eexists; cbv; reflexivity.
Qed.
Lemma ex_fields : forall t, isStruct exE t = true -> exists cs, structFields exE defaultOptions t = Ok cs /\
  Forall (fun c => rfc_chars (ckey c) /\ (N.land (chints c) hintRaw = hintRaw -> N.land (chints c) hintHTML = hintHTML)) cs.
Proof.
  assert (R : forall s, forallb (fun c => (32 <=? bN c)%N && negb (beqb c x22) && negb (beqb c x5c)) s = true -> rfc_chars s).
  { induction s as [|c s IH]; cbn; intro H; [constructor|]. apply andb_prop in H as [H Hs]. apply andb_prop in H as [H H3]. apply andb_prop in H as [H1 H2].
    apply chars_plain; [apply N.leb_le; exact H1|intros ->; discriminate|intros ->; discriminate|auto]. }
  intros t S. destruct (proj1 (isStruct_iff _ _) S) as (fs & K). all_types K; eexists; (split; [vm_compute; reflexivity|]);
    repeat (constructor; [split; [apply R; vm_compute; reflexivity|vm_compute; discriminate]|]); constructor.
Qed.
Lemma ex_acyclic : forall t, ~ cyclic exE defaultOptions t.
Proof.
  intros t C. destruct (cyclic_step _ _ _ C) as (u & (fs & f & key & h & K & _) & _). assert (S : isStruct exE t = true) by (apply isStruct_iff; eauto).
  destruct (ex_fields t S) as (cs & F & _). apply (structFields_total_lem _ _ _ S) in C. congruence.
Qed.
Lemma ex_tags : tags_json exE defaultOptions.
Proof.
  intros t cs c F I. assert (S : isStruct exE t = true).
  { unfold structFields in F. change (length (types exE)) with 19%nat in F. cbn [merge] in F. unfold isStruct. destruct (typeOf exE t) as [T|]; [|discriminate]. destruct (tkind T); auto; discriminate. }
  destruct (ex_fields t S) as (cs' & F' & H). assert (cs' = cs) by congruence. subst. rewrite Forall_forall in H. apply H. exact I.
Qed.
Lemma ex_maps : walks_maps exE. Proof. intros b m. apply Permutation_refl. Qed.
Lemma ex_return : methods_return exE.
Proof. repeat split; intros; eexists; reflexivity. Qed.
Lemma ex_write : methods_write_json exE.
Proof. repeat split; intros; discriminate. Qed.
Lemma ex_appends : appends exE. Proof. intros t v b out H. discriminate. Qed.

Definition two : float := FFin false (2 ^ 52)%Z (-51)%Z.
Lemma two_json : canonical b64 two /\ (finite two -> exists g, narrow 32 two g /\ finite g).
Proof.
  split; [vm_compute; repeat split; try discriminate; left; discriminate|]. intros _. exists (to32 two). split; [right; split; [reflexivity|]; apply to32_rounded; vm_compute; discriminate|vm_compute; exact Logic.I].
Qed.
Definition ex41 : gv := VPtr (Some (VStruct [VString [x61; x22];
  VPtr (Some (VStruct [VString (str "b"); VPtr None; VSlice None; VMap None]));
  VSlice (Some ([VString (str "x"); VString []], []));
  VMap (Some [(VString (str "k"), VIface (Some (tSliceI, VSlice (Some ([VIface None; VIface (Some (tFloat64, VFloat two)); VIface (Some (15%nat, VStruct [VPtr None; VBool true]))], [])))))])])).
Ltac ty := repeat (first [ eapply t_ptr_nil; reflexivity | eapply t_slice_nil; reflexivity | eapply t_map_nil; reflexivity | eapply t_iface_nil; reflexivity
  | eapply t_bool; reflexivity | eapply t_string; reflexivity | (eapply t_int; [reflexivity|vm_compute; split; [discriminate|reflexivity]]) | (eapply t_float; right; reflexivity)
  | eapply t_ptr; [reflexivity|] | eapply t_slice; [reflexivity| |] | eapply t_array; [reflexivity|reflexivity|] | eapply t_iface; [reflexivity|let m := fresh in let K := fresh in intros m K; cbv in K; discriminate K|]
  | eapply t_map; [reflexivity| |] | eapply t_struct; [reflexivity|] | split | constructor | (let K := fresh in intro K; cbn in K; intuition discriminate) ]).
Lemma ex41_typed : typed exE 12 ex41.
Proof. unfold ex41. ty. Qed.
Ltac in_parts H := repeat (match type of H with
  | inside _ _ => inversion H; clear H; subst
  | In _ _ => cbn in H
  end).
Lemma inside_list (P : gv -> Prop) v : (forall x, inside v x -> P x) <-> P v /\ match v with
  | VIface (Some (_, x)) | VPtr (Some x) => forall y, inside x y -> P y
  | VSlice (Some (l, _)) | VArray l | VStruct l => Forall (fun x => forall y, inside x y -> P y) l
  | VMap (Some m) => Forall (fun p => forall y, inside (snd p) y -> P y) m
  | _ => True end.
Proof.
  split.
  - intro H. split; [apply H; constructor|]. destruct v as [| | | | |[[dt x]|]|[x|]|[[l s]|]|l|[m|]|l|]; auto.
    + intros y I. apply H. constructor. exact I.
    + intros y I. apply H. constructor. exact I.
    + apply Forall_forall. intros x I y J. apply H. eapply ins_slice; eassumption.
    + apply Forall_forall. intros x I y J. apply H. eapply ins_array; eassumption.
    + apply Forall_forall. intros [k x] I y J. apply H. eapply ins_map; eassumption.
    + apply Forall_forall. intros x I y J. apply H. eapply ins_struct; eassumption.
  - intros [H0 H] x I. inversion I; subst; auto; cbn in H; rewrite ?Forall_forall in H; eauto.
Qed.
Ltac parts := repeat (first [ exact Logic.I | refine (proj2 (inside_list _ _) _); split; [try exact Logic.I|] | apply Forall_cons; cbn [snd] | apply Forall_nil ]).
Lemma ex41_floats : floats_json ex41.
Proof.
  assert (H : forall x, inside ex41 x -> match x with VFloat f => canonical b64 f /\ (finite f -> exists g, narrow 32 f g /\ finite g) | _ => True end); [|intros f I; exact (H _ I)].
  unfold ex41. parts. exact two_json.
Qed.
Lemma plain_top E t k v : typeOf E t = Some (plainT k) -> (forall e, k = KPtr e -> exists k', typeOf E e = Some (plainT k')) -> v <> VPtr None -> top_ok E t v.
Proof.
  intros Ty H Nv. split; auto. intros T Ty'. rewrite Ty in Ty'. injection Ty' as <-. cbn. destruct k; try (repeat split; fail). destruct (H e eq_refl) as (k' & Te). intros X TX. rewrite Te in TX. injection TX as <-. repeat split.
Qed.
Ltac top := eapply plain_top; [reflexivity|intros ? K; try discriminate K; injection K as <-; eexists; reflexivity|discriminate].
Lemma ex41_tops : top_ok exE 12 ex41 /\ tops_ok exE ex41.
Proof.
  split; [top|]. assert (H : forall x, inside ex41 x -> match x with VIface (Some (dt, y)) => top_ok exE dt y | _ => True end); [|intros dt y I; exact (H _ I)].
  unfold ex41. parts; top.
Qed.
Lemma ex41_lem : wf_types exE /\ embeds_structs exE /\ (forall t, ~ cyclic exE defaultOptions t) /\ walks_maps exE /\ ftoa_spec (ftoa exE) /\ tags_json exE defaultOptions /\
  methods_return exE /\ methods_write_json exE /\ typed exE 12 ex41 /\ top_ok exE 12 ex41 /\ tops_ok exE ex41 /\ floats_json ex41 /\
  Marshal exE (Some (12, ex41)) = Ok (str "{""Name"":""a\"""",""Next"":{""Name"":""b"",""Next"":null,""Tags"":[],""M"":null},""Tags"":[""x"",""""],""M"":{""k"":[null,2."
    ++ repeat x30 22 ++ str ",{""B"":true}]}}", None).
Proof.
  repeat (split; [first [exact ex_wf|exact ex_embeds_structs|exact ex_acyclic|exact ex_maps|exact exact_spec|exact ex_tags|exact ex_return|exact ex_write|exact ex41_typed|exact (proj1 ex41_tops)|exact (proj2 ex41_tops)|exact ex41_floats]|]).
  vm_compute. reflexivity.
Qed.

(* ---- C46 ---- *)
Definition cA1 : codec := mkC (str "A") [0; 0]%Z 6 0.
Definition cA2 : codec := mkC (str "A") [1]%Z tString 0.
Ltac offer := repeat (first [ eapply off_struct; [reflexivity|] | apply off_end
  | eapply off_embed; [reflexivity|reflexivity|discriminate|reflexivity|reflexivity| |] | eapply off_embed_ptr; [reflexivity|reflexivity|discriminate|reflexivity|reflexivity|reflexivity| |]
  | eapply off_field; [reflexivity|reflexivity|discriminate|auto|] ]).
Lemma ex46_refuted : exists E t cs l c v, structFields E defaultOptions t = Ok cs /\ offers E defaultOptions t [] l /\ Get cs (ckey c) = Some c /\ ~ shortest_first l c /\
  typed E t v /\ Marshal E (Some (t, v)) = Ok (str "{""A"":1,""A"":""x""}", None).
Proof.
  exists exE, 8, [cA1; cA2], ([cA1] ++ [cA2]), cA1, (VStruct [VStruct [VInt 1]; VString (str "x")]). split; [vm_compute; reflexivity|]. split; [offer|]. split; [reflexivity|]. split; [|split; [ty|vm_compute; reflexivity]].
  intros (a & b & Eq & Fa & Fb). cbn in Eq. destruct a as [|x [|y a]]; cbn in Eq.
  - injection Eq as Eq. subst b. inversion Fb as [|? ? H _]; subst. cbn in H. lia.
  - injection Eq as _ Eq _. discriminate.
  - destruct a; discriminate.
Qed.
Lemma ex46_lem : exists cs, structFields exE defaultOptions 17 = Ok cs /\ offers exE defaultOptions 17 [] [mkC (str "A") [0]%Z tString 0; mkC (str "A") [1; 0]%Z 6 0] /\
  first_is_shortest [mkC (str "A") [0]%Z tString 0; mkC (str "A") [1; 0]%Z 6 0] (str "A") /\ cs = [mkC (str "A") [0]%Z tString 0].
Proof.
  eexists. split; [vm_compute; reflexivity|]. split; [|split; [|reflexivity]].
  - change ([mkC (str "A") [0]%Z tString 0; mkC (str "A") [1; 0]%Z 6 0]) with (mkC (str "A") ([] ++ [Z.of_nat 0]) (ftype (fld (str "A") tString)) 0 :: ([mkC (str "A") [1; 0]%Z 6 0] ++ [])). offer.
  - intros c r H. cbn in H. injection H as <- <-. constructor; [cbn; lia|constructor].
Qed.
(* 6 string with MarshalText, 7 struct{} whose pointer has MarshalJSON, 8 *T7, 9 struct{*T9}, 10 *T9, 11 chan, 12 map[string]T11 *)
Definition text6 : mset := mkM false false true false false false (fun _ => false).
Definition json7 : mset := mkM false true false false false false (fun _ => false).
Definition badE : env :=
  mkEnv [mkT KString text6 text6; mkT (KStruct []) noMethods json7; mkT (KPtr 7) json7 noMethods; plainT (KStruct [emb (str "T") 10]); plainT (KPtr 9); plainT KOther; plainT (KMap tString 11)]
    (fun _ _ b => Ok (b, Some UValue)) (fun _ _ => Ok (Some (str "1"), None)) (fun _ v => match v with VString s => Ok (s, None) | _ => Panic end) (fun _ _ => Ok false) (fun _ _ => Ok false)
    (fun _ v _ _ => Ok (v, Some UValue)) (fun _ v _ => Ok (v, Some UValue)) (fun _ v _ => Ok (v, Some UValue)) (fun _ => None) exact_ftoa (fun _ m => m).
Lemma bad_kind t k : kindOf badE t = Some k -> In t (seq 0 13).
Proof. intro K. apply kindOf_lt in K. apply in_seq. exact (conj (Nat.le_0_l _) K). Qed.
Ltac bad_types K := let J := fresh in pose proof (bad_kind _ _ K) as J; cbn [seq In] in J; repeat (destruct J as [<-|J]); [..|contradiction J]; cbv in K; try discriminate K; injection K as <-.
Lemma bad_wf : wf_types badE.
Proof.
  split; [|split].
  - intros t k u K I. change (length (types badE)) with 13. bad_types K; cbn in I; intuition (subst; unfold tString, tIface, tMapSI, tBool; lia).
  - intros t bits [K|K]; bad_types K; cbn; auto.
  - exists (fun t => match t with 9 => 1 | _ => 0 end). split.
    + intro t. change (length (types badE)) with 13. do 10 (destruct t as [|t]; [lia|]). lia.
    + intros t k u K I. bad_types K; cbn in I; intuition (subst; lia).
Qed.
Lemma bad_loop : cyclic badE defaultOptions 9.
Proof.
  exists 9, 9. split; [constructor|]. split; [|constructor]. exists [emb (str "T") 10], (emb (str "T") 10), (str "T"), 0%N. repeat split; try reflexivity; [left; reflexivity|discriminate|right; reflexivity|eexists; reflexivity].
Qed.
Lemma C54_refuted_lem : exists E t, wf_types E /\ cyclic E defaultOptions t /\ newCodec E defaultOptions (IDec t) = Diverge /\ newCodec E defaultOptions (IEnc t) = Diverge.
Proof. exists badE, 9. split; [exact bad_wf|]. split; [exact bad_loop|]. split; vm_compute; reflexivity. Qed.
Lemma C54_cyclic_lem E O t : cyclic E O t -> (exists T, typeOf E t = Some T /\ no_marshaler (tmeth T)) -> newCodec E O (IEnc t) = Diverge.
Proof.
  intros C (T & Ty & A & J & X). destruct (cyclic_step _ _ _ C) as (u & (fs & f & key & h & K & _) & _). assert (Ss : isStruct E t = true) by (apply isStruct_iff; eauto).
  pose proof (typeOf_kindOf _ _ _ Ty) as K'. rewrite K in K'. injection K' as K'. apply (structFields_total_lem _ _ _ Ss) in C.
  unfold newCodec. destruct (S (length (types E)) * (2 * length (types E) + 2)) as [|k] eqn:F; [lia|]. cbn [make]. cbn [itype]. rewrite Ty. unfold handled, marshals. cbn [idec]. rewrite A, J, X. cbn [orb]. rewrite <- K'. cbn [cachedStruct lookupKey bcache]. rewrite C. reflexivity.
Qed.
Lemma ex54_lem : (exists T, by_kind exE (IDec 11) T /\ uses exE defaultOptions (IDec 11) (IEnc 12)) /\ (exists o G, newCodec exE defaultOptions (IDec 11) = Ok (Some (o, G))) /\
  uses_star badE defaultOptions (IEnc 12) (IEnc 11) /\ lacks badE (IEnc 11) /\ newCodec badE defaultOptions (IEnc 12) = Ok None.
Proof.
  split; [|split; [do 2 eexists; vm_compute; reflexivity|split; [|split; [|vm_compute; reflexivity]]]].
  - eexists. split; [repeat split; reflexivity|]. eapply (us_field _ _ _ 11 _ _ _ (mkC (str "Next") [1]%Z 12 0)); [auto|repeat split; reflexivity|reflexivity|vm_compute; reflexivity|right; left; reflexivity|auto].
  - eapply us_step; [|constructor]. eapply us_enc; [repeat split; reflexivity|left; reflexivity].
  - eexists. split; [repeat split; reflexivity|exact Logic.I].
Qed.

(* ---- C41 ---- *)
Definition huge : float := FFin false (2 ^ 52)%Z 76%Z.
Lemma no_json_word c r : ~ digit c -> c <> x2d -> c <> x22 -> c <> x74 -> c <> x66 -> c <> x6e -> c <> x5b -> c <> x7b -> forall j, ~ rfc_value j (c :: r).
Proof.
  intros D H1 H2 H3 H4 H5 H6 H7 j V. inversion V as [w Hw Ej Ew|w Hw Ej Ew| | | | | | |]; subst; try congruence. exact (not_number false c r D H1 Hw).
Qed.
Lemma C41_refuted_lem : exists E t v out, wf_types E /\ embeds_structs E /\ (forall t, ~ cyclic E defaultOptions t) /\ methods_return E /\ tags_json E defaultOptions /\ ftoa_spec (ftoa E) /\ ftoa_special (ftoa E) /\
  typed E t v /\ canonical_floats v /\ top_ok E t v /\ Marshal E (Some (t, v)) = Ok (out, None) /\ forall j, ~ rfc_value j out.
Proof.
  exists exE, tFloat64, (VFloat huge), (str "+Inf"). split; [exact ex_wf|]. split; [exact ex_embeds_structs|]. split; [exact ex_acyclic|]. split; [exact ex_return|]. split; [exact ex_tags|]. split; [exact exact_spec|].
  split; [exact exact_special|]. split; [ty|]. split; [intros f I; inversion I; subst; vm_compute; repeat split; try discriminate; left; discriminate|]. split; [top|]. split; [vm_compute; reflexivity|].
  apply no_json_word; try discriminate. intros [H _]. vm_compute in H. apply H. reflexivity.
Qed.
Lemma C41_text_refuted_lem : exists E t v out, wf_types E /\ methods_return E /\ typed E t v /\ top_ok E t v /\ Marshal E (Some (t, v)) = Ok (out, None) /\ forall j, ~ rfc_value j out.
Proof.
  exists (mkEnv (user badE) (callAppend badE) (callJSON badE) (fun _ _ => Ok ([x22], None)) (callOmit badE) (callOmitPtr badE) (callNodeU badE) (callJSONU badE) (callTextU badE) (scParseFloat badE) (ftoa badE) (mapOrder badE)), 6, (VString []), [x22; x22; x22].
  split; [exact bad_wf|]. split; [repeat split; intros; eexists; reflexivity|]. split; [ty|].
  split; [split; [discriminate|]; intros T Ty; cbv in Ty; injection Ty as <-; repeat split|]. split; [vm_compute; reflexivity|].
  intros j V. inversion V as [w Hw Ej Ew|w Hw Ej Ew| | | | | | |]; subst.
  - destruct w as [|a w]; [discriminate Ew|]. injection Ew; intros; subst. inversion Hw; subst; congruence.
  - apply (not_number false x22 [x22; x22]); try discriminate; [|exact Hw]. intros [H _]. vm_compute in H. apply H. reflexivity.
Qed.
Lemma C41_panic_refuted_lem : exists E t t' v, wf_types E /\ typed E t v /\ typed E t' (VPtr None) /\ (exists r, newCodec E defaultOptions (IEnc t) = Ok (Some r)) /\ (exists r, newCodec E defaultOptions (IEnc t') = Ok (Some r)) /\
  Marshal E (Some (t, v)) = Panic /\ Marshal E (Some (t', VPtr None)) = Panic.
Proof. exists badE, 7, 8, (VStruct []). split; [exact bad_wf|]. split; [ty|]. split; [ty|]. split; [eexists; vm_compute; reflexivity|]. split; [eexists; vm_compute; reflexivity|]. split; vm_compute; reflexivity. Qed.
Lemma ex41_key : exists E t v, typed E t v /\ Marshal E (Some (t, v)) = Ok ([x7b; x22; x61; x22; x62; x22; x3a] ++ str "1}", None).
Proof. exists (envOf [plainT (KInt 64); plainT (KStruct [tagged (str "A") 6 [x61; x22; x62]])]), 7, (VStruct [VInt 1]). split; [ty|vm_compute; reflexivity]. Qed.

(* ---- C44 ---- *)
Definition cF : codec := mkC (str "F") [0]%Z 9 hintOmitempty.
Definition ex44 : gv := VStruct [VArray [VInt 0; VInt 0]; VString []; VString (str "x")].
Lemma ex44_refuted : exists E t v cs c x, typed E t v /\ structFields E defaultOptions t = Ok cs /\ In c cs /\ reaches v (cindex c) x /\ omitempty c /\ ~ go_empty x /\ dropped E defaultOptions false c x /\
  Marshal E (Some (t, v)) = Ok (str "{""H"":""x""}", None).
Proof.
  exists exE, 10, ex44, [cF; mkC (str "g") [1]%Z tString hintOmitempty; mkC (str "H") [2]%Z tString 0], cF, (VArray [VInt 0; VInt 0]). split; [unfold ex44; ty|]. split; [vm_compute; reflexivity|]. split; [left; reflexivity|].
  split; [unfold ex44; apply (rc_field [VArray [VInt 0; VInt 0]; VString []; VString (str "x")] 0 (VArray [VInt 0; VInt 0]) [] _ eq_refl); constructor|]. split; [reflexivity|]. split; [intro G; inversion G|]. split; [|vm_compute; reflexivity].
  apply dr_value; [reflexivity|intros (T & fs & Ty & K & _); cbv in Ty; injection Ty as <-; discriminate|]. apply (newOmiter_spec exE defaultOptions false 5 9 _ true). vm_compute. reflexivity.
Qed.
Definition built (E : env) (t : tid) : nat * list cobj := match newCodec E defaultOptions (IEnc t) with Ok (Some r) => r | _ => (0, []) end.
Definition enc44 (t : tid) (b : bytes) (v : gv) : res (bytes * option uerr) := encode 5 exE (snd (built exE t)) defaultOptions (fst (built exE t)) false b v.
Lemma ex44_lem : appends exE /\ ftoa_spec (ftoa exE) /\ ftoa_special (ftoa exE) /\ walks_maps exE /\ canonical_floats ex44 /\ fieldwise exE 10 /\
  newCodec exE defaultOptions (IEnc 10) = Ok (Some (built exE 10)) /\ (exists fs, nth_error (snd (built exE 10)) (fst (built exE 10)) = Some (CStruct 10 fs)) /\
  enc44 10 (str "x=") ex44 = Ok (str "x={""H"":""x""}", None) /\
  enc44 15 [] (VStruct [VPtr (Some (VStruct [VInt 3])); VBool true]) = Ok (str "{""A"":3,""B"":true}", None) /\
  enc44 15 [] (VStruct [VPtr None; VBool true]) = Ok (str "{""B"":true}", None) /\
  enc44 18 [] (VStruct [ex44; VInt 0]) = Ok (str "{""X"":{""H"":""x""},""Y"":0}", None).
Proof.
  split; [exact ex_appends|]. split; [exact exact_spec|]. split; [exact exact_special|]. split; [exact ex_maps|]. split.
  - assert (H : forall x, inside ex44 x -> match x with VFloat f => canonical b64 f | _ => True end); [|intros f I; exact (H _ I)]. unfold ex44. parts.
  - split; [do 2 eexists; repeat split; reflexivity|]. split; [vm_compute; reflexivity|]. split; [eexists; vm_compute; reflexivity|]. repeat split; vm_compute; reflexivity.
Qed.
Lemma plain_kept E O addr c x : chints c = 0%N -> ~ dropped E O addr c x.
Proof. intros H D. assert (Om : omitempty c) by (inversion D; assumption). unfold omitempty in Om. rewrite H in Om. discriminate Om. Qed.
Definition f17 : list (codec * (nat * nat)) := [(mkC (str "A") [0]%Z tString 0, (1, 2))].
Definition l17 : list codec := [mkC (str "A") [0]%Z tString 0; mkC (str "A") [1; 0]%Z 6 0].
Lemma once_lem : nth_error (snd (built exE 17)) (fst (built exE 17)) = Some (CStruct 17 f17) /\ structFields exE defaultOptions 17 = Ok (map fst f17) /\ offers exE defaultOptions 17 [] l17 /\ (forall key, first_is_shortest l17 key) /\
  written exE (snd (built exE 17)) defaultOptions false (VStruct [VString (str "x"); VStruct [VInt 1]]) f17 [(str "A", str """x""")].
Proof.
  split; [vm_compute; reflexivity|]. split; [vm_compute; reflexivity|]. split; [destruct ex46_lem as (cs & _ & H & _); exact H|]. split.
  - intros key c r H. unfold with_key, l17 in H. cbn [filter ckey] in H. destruct (bseqb (str "A") key); [|discriminate]. injection H as <- <-. constructor; [cbn; lia|constructor].
  - apply (wr_member _ _ _ _ _ (mkC (str "A") [0]%Z tString 0) 1 2 (VString (str "x")) [] [] [] 5 (str """x""")); [apply (rc_field [VString (str "x"); VStruct [VInt 1]] 0 (VString (str "x")) [] _ eq_refl); constructor| | |constructor].
    + apply plain_kept. reflexivity.
    + vm_compute. reflexivity.
Qed.
Lemma go_lem : typed exE 13 (VSlice (Some ([], [VString (str "old")]))) /\ silent exE defaultOptions 13 /\ omitempty (mkC (str "T") [0]%Z 13 hintOmitempty) /\
  go_empty (VSlice (Some ([], [VString (str "old")]))) /\ dropped exE defaultOptions false (mkC (str "T") [0]%Z 13 hintOmitempty) (VSlice (Some ([], [VString (str "old")]))) /\
  ~ dropped exE defaultOptions false (mkC (str "T") [0]%Z 13 hintOmitempty) (VSlice (Some ([VString []], []))).
Proof.
  split; [ty|]. split; [|split; [reflexivity|split; [constructor|split]]].
  - intros T Ty; cbv in Ty; injection Ty as <-; split; reflexivity.
  - apply dr_value; [reflexivity|intros (T & fs & Ty & K & _); cbv in Ty; injection Ty as <-; discriminate|]. apply (newOmiter_spec exE defaultOptions false 5 13 _ true). vm_compute. reflexivity.
  - assert (Nf : ~ fieldwise exE 13) by (intros (T & fs & Ty & K & _); cbv in Ty; injection Ty as <-; discriminate).
    intro D. inversion D; subst; try contradiction. exact (newOmiter_spec exE defaultOptions false 5 13 (VSlice (Some ([VString []], []))) false eq_refl ltac:(assumption)).
Qed.
