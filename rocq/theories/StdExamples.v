(* Concrete types and values for C77. *)
From Coq Require Import Permutation.
From Verif Require Import FloatSpec NumSpec FmtSpec StrSpec Bytes Types JsonSpec Parser Doc DocSpec Strjson Utf8 Utf8Proofs StrProofs StrThms Float Num FmtThms Iface IfaceSpec OptSpec Options OptThms Codec CodecSpec CodecMerge CodecBase CodecBuild CodecEnc CodecJson CodecExamples
  DecodeSpec DecodeExamples RoundSpec Coder CoderSpec CoderExamples TreeSpec TreeThms Gen GenSpec GenExamples RfcOne AgreeSpec AgreeThms AgreeExamples StdSpec StdFields StdThms.
Local Open Scope nat_scope.

Definition ascii (r : N) : Prop := (48 <= r <= 57 \/ 65 <= r <= 90 \/ 97 <= r <= 122)%N.
(* 6 int64, 7 struct{A int64; B string}, 8 []string, 9 struct{A string; T7; Name string "name,omitempty"; Next *T9; Tags []string "tags";
   M map[string]interface{} "m"; Skip int64 "-"; F float64 "f"}, 10 *T9, 11 struct{*T7; C bool "c,omitempty"}, 12 *T7, 13 uint8, 14 []uint8, 15 map[int64]string *)
Definition fs7 : list sfield := [fld (str "A") 6; fld (str "B") tString].
Definition fs9 : list sfield := [fld (str "A") tString; emb (str "T7") 7; tagged (str "Name") tString (str "name,omitempty"); fld (str "Next") 10; tagged (str "Tags") 8 (str "tags");
  tagged (str "M") tMapSI (str "m"); tagged (str "Skip") 6 (str "-"); tagged (str "F") tFloat64 (str "f")].
Definition fs11 : list sfield := [emb (str "T7") 12; tagged (str "C") tBool (str "c,omitempty")].
Definition stE : env := envOf [plainT (KInt 64); plainT (KStruct fs7); plainT (KSlice tString); plainT (KStruct fs9); plainT (KPtr 9); plainT (KStruct fs11); plainT (KPtr 7); plainT (KUint 8); plainT (KSlice 13); plainT (KMap 6 tString)].
Definition stRank (t : tid) : nat := match t with 7 => 1 | 9 => 2 | 11 => 1 | _ => 0 end.
Lemma st_wf : wf_types stE.
Proof. apply (check_wf stE stRank); [|vm_compute; reflexivity]. intro t. change (length (types stE)) with 16. do 16 (destruct t as [|t]; [cbn; lia|]). cbn. lia. Qed.
Lemma st_types t T : typeOf stE t = Some T -> tmeth T = noMethods /\ tptr T = noMethods.
Proof. intro H. do 16 (destruct t as [|t]; [injection H as <-; split; reflexivity|]). destruct t; discriminate H. Qed.
Lemma st_methodless : methodless stE.
Proof. intros t T H. destruct (st_types _ _ H) as (-> & ->). repeat split. Qed.
Lemma st_structs_are u fs : kindOf stE u = Some (KStruct fs) -> u = 7 /\ fs = fs7 \/ u = 9 /\ fs = fs9 \/ u = 11 /\ fs = fs11.
Proof. intro K. do 16 (destruct u as [|u]; [vm_compute in K; try discriminate K; injection K as <-; auto 10|]). destruct u; discriminate K. Qed.

Definition plain_ascii (p : bytes) : bool := forallb (fun c => (bN c <? 128)%N && ((48 <=? bN c) && (bN c <=? 57) || (65 <=? bN c) && (bN c <=? 90) || (97 <=? bN c) && (bN c <=? 122) || existsb (beqb c) tag_chars)%N) p.
Lemma ascii_valid p : p <> [] -> plain_ascii p = true -> valid_name ascii p.
Proof.
  intros N H. split; [exact N|]. exists (map bN p). unfold plain_ascii in H. rewrite forallb_forall in H.
  assert (L : forall c, In c p -> (bN c < 128)%N /\ (ascii (bN c) \/ In (bN c) (map bN tag_chars))).
  { intros c I. specialize (H c I). apply andb_prop in H as (A & B). apply N.ltb_lt in A. split; [exact A|]. rewrite !orb_true_iff, !andb_true_iff, !N.leb_le in B. unfold ascii.
    destruct B as [[[B|B]|B]|B]; [left; auto..|right]. apply existsb_exists in B as (d & I' & Ed). apply beqb_true in Ed. subst d. apply in_map. exact I'. }
  clear H N. split; [|split].
  - rewrite Forall_forall. intros r I. apply in_map_iff in I as (c & <- & I). left. destruct (L c I). lia.
  - induction p as [|c p IH]; [reflexivity|]. cbn [map utf8s concat]. unfold utf8s in *. cbn [map concat]. rewrite <- IH by (intros; apply L; right; assumption). unfold utf8. rewrite (proj2 (N.ltb_lt _ _) (proj1 (L c (or_introl eq_refl)))).
    cbn [app]. f_equal. symmetry. apply Nb_bN.
  - rewrite Forall_forall. intros r I. apply in_map_iff in I as (c & <- & I). apply L. exact I.
Qed.
Lemma not_in_list (b : byte) l : forallb (fun c => negb (beqb c b)) l = true -> ~ In b l.
Proof. intros H I. rewrite forallb_forall in H. specialize (H _ I). destruct (beqb b b) eqn:X; [discriminate|]. assert (beqb b b = true) by (apply beqb_true; reflexivity). congruence. Qed.
Lemma field_tagged E n t p ps : Forall no_comma (p :: ps) -> n <> str "-" -> ~ In x5c n -> p = [] \/ valid_name ascii p -> ~ In x5c p -> (p = str "-" -> ps = []) -> ~ In (str "string") ps ->
  (In (str "omitempty") ps -> omittable (kindOf E t)) -> std_field E ascii (tagged n t (join x2c (p :: ps))).
Proof.
  intros Fo Nn Nb Vp Np Da Ns Om. split; [discriminate|]. split; [exact Nn|]. split; [exact Nb|]. intros v q qs L Fq Ev. change (Some (join x2c (p :: ps)) = Some v) in L. assert (Hv : v = join x2c (p :: ps)) by congruence.
  assert (Hj : join x2c (p :: ps) = join x2c (q :: qs)) by congruence. apply split_unique in Hj; auto. injection Hj as <- <-. split; [|repeat split; auto; try discriminate].
  rewrite Hv. cbn [ftag tagged]. generalize (join x2c (p :: ps)). intro w. rewrite app_length. cbn [length]. rewrite app_length. lia.
Qed.
Lemma field_plain E n t a : n <> str "-" -> ~ In x5c n -> std_field E ascii (mkField n t true a [] (fun _ => None)).
Proof. intros A B. split; [discriminate|]. split; [exact A|]. split; [exact B|]. discriminate. Qed.
Ltac fielded := match goal with
  | |- std_field ?E _ (tagged ?n ?t ?tag) => let l := eval vm_compute in (splitComma tag) in lazymatch l with (?p, ?ps) =>
      change (std_field E ascii (tagged n t (join x2c (p :: ps)))); apply field_tagged; [apply no_commas; vm_compute; reflexivity|discriminate|apply not_in_list; vm_compute; reflexivity|
        first [left; reflexivity|right; apply ascii_valid; [discriminate|vm_compute; reflexivity]]|apply not_in_list; vm_compute; reflexivity|first [reflexivity|discriminate]|cbn; intuition discriminate|
        first [intros _; vm_compute; exact Logic.I|cbn; intuition discriminate]] end
  | |- _ => apply field_plain; [discriminate|apply not_in_list; vm_compute; reflexivity]
  end.
Lemma st_fields t fs : kindOf stE t = Some (KStruct fs) -> Forall (std_field stE ascii) fs.
Proof. intro K. destruct (st_structs_are t fs K) as [(_ & ->)|[(_ & ->)|(_ & ->)]]; unfold fs7, fs9, fs11; repeat (apply Forall_cons; [fielded|]); apply Forall_nil. Qed.
Lemma st_embeds : embeds_structs stE.
Proof.
  intros t fs f e K I A Ke. destruct (st_structs_are t fs K) as [(_ & ->)|[(_ & ->)|(_ & ->)]]; unfold fs7, fs9, fs11 in I; cbn [In] in I;
    repeat (destruct I as [<-|I]; [first [discriminate A|discriminate Ke|injection Ke as <-; exists fs7; reflexivity]|]); destruct I.
Qed.
Definition first_ok (c d : codec) : bool := if bseqb (ckey c) (ckey d) then (length (filter (Z.leb 0) (cindex c)) <? length (filter (Z.leb 0) (cindex d))) && (length (cindex c) <=? length (cindex d)) else true.
Fixpoint firsts (l : list codec) : bool := match l with [] => true | c :: l => forallb (first_ok c) l && firsts l end.
Lemma firsts_ok l : firsts l = true -> ForallOrdPairs (fun c d => ckey c = ckey d -> length (filter (Z.leb 0) (cindex c)) < length (filter (Z.leb 0) (cindex d)) /\ length (cindex c) <= length (cindex d)) l.
Proof.
  induction l as [|c l IH]; cbn; intro H; [constructor|]. apply andb_prop in H as (A & B). constructor; [|apply IH; exact B]. rewrite forallb_forall in A. rewrite Forall_forall. intros d I Ek. specialize (A d I). unfold first_ok in A.
  apply bseqb_true in Ek. rewrite Ek in A. apply andb_prop in A as (A1 & A2). apply Nat.ltb_lt in A1. apply Nat.leb_le in A2. auto.
Qed.
Ltac offered := repeat (first [ eapply off_struct; [reflexivity|] | apply off_end
  | eapply off_hidden; [right; eexists; eexists; reflexivity|]
  | eapply off_embed; [reflexivity|reflexivity|discriminate|reflexivity|reflexivity| |] | eapply off_embed_ptr; [reflexivity|reflexivity|discriminate|reflexivity|reflexivity|reflexivity| |]
  | eapply off_field; [reflexivity|reflexivity|discriminate|auto|] ]).
Lemma st_std : std_structs stE ascii.
Proof.
  intros t fs K. split; [apply (st_fields t); exact K|]. assert (O : exists l, offers stE defaultOptions t [] l /\ firsts l = true).
  { destruct (st_structs_are t fs K) as [(-> & _)|[(-> & _)|(-> & _)]]; eexists; (split; [offered|vm_compute; reflexivity]). }
  destruct O as (l & Of & F). eapply first_offers; [exact st_fields|exact st_embeds|exact Of|apply firsts_ok; exact F].
Qed.

Lemma std_world_of E : wf_types E -> embeds_structs E -> methodless E -> (forall b m, mapOrder E b m = m) -> ftoa E = exact_ftoa -> tags_json E defaultOptions -> methods_write_json E -> std_world E.
Proof. intros A B C Dm F G H. repeat (split; [first [assumption|rewrite F; exact exact_spec|intros b m; rewrite Dm; apply Permutation_refl]|]). exact C. Qed.
Lemma st_world : std_world stE.
Proof. apply std_world_of; [exact st_wf|exact st_embeds|exact st_methodless|reflexivity|reflexivity|apply check_tags; vm_compute; reflexivity|repeat split; intros; discriminate]. Qed.

Lemma part_list E (P : tid -> gv -> Prop) t v : P t v -> match v with
  | VIface (Some (dt, x)) => forall u y, part_of E dt x u y -> P u y
  | VPtr (Some x) => forall e, kindOf E t = Some (KPtr e) -> forall u y, part_of E e x u y -> P u y
  | VSlice (Some (l, _)) => forall e, kindOf E t = Some (KSlice e) -> Forall (fun x => forall u y, part_of E e x u y -> P u y) l
  | VArray l => forall n e, kindOf E t = Some (KArray n e) -> Forall (fun x => forall u y, part_of E e x u y -> P u y) l
  | VMap (Some m) => forall k e, kindOf E t = Some (KMap k e) -> Forall (fun p => forall u y, part_of E e (snd p) u y -> P u y) m
  | VStruct l => forall fs, kindOf E t = Some (KStruct fs) -> Forall2 (fun f x => forall u y, part_of E (ftype f) x u y -> P u y) fs l
  | _ => True end -> forall u y, part_of E t v u y -> P u y.
Proof.
  intros H0 H u y I. inversion I; subst; eauto; try (match goal with K : kindOf _ _ = _ |- _ => specialize (H _ K) || specialize (H _ _ K) end); rewrite ?Forall_forall in *; eauto.
  clear - H H2 H3 H4. revert i H2 H3. induction H as [|f0 x0 fs l Fx F IH]; intros [|i] A B; try discriminate; cbn in A, B; [injection A as ->; injection B as ->; eauto|eauto].
Qed.
Definition part_ok (E : env) (u : tid) (x : gv) : Prop :=
  (forall e, kindOf E u = Some (KSlice e) -> x <> VSlice None /\ kindOf E e <> Some (KUint 8)) /\
  (forall f q, kindOf E u = Some KFloat64 -> x = VFloat f -> value_at E f 32 q -> value_at E f 64 q).
(* A float that is the same with 32 bits. *)
Lemma exact_value E f bits s m x q : ftoa E = exact_ftoa -> (if (bits =? 32)%Z then to32 f else f) = FFin s m x -> (0 <= m)%Z -> value_at E f bits q <-> (q == fval (FFin s m x))%Q.
Proof.
  intros F Ef M. unfold value_at. rewrite F. unfold exact_ftoa. rewrite Ef. split.
  - intros (e & p & Sp & Tp & V). destruct (exact_parts_spec e s m x M) as (_ & Te & Ve). assert (Ep : exact_parts e s m x = p). { apply text_one; [destruct e; apply Te|exact Sp|exact Tp]. } rewrite <- V, <- Ep. exact Ve.
  - intro V. destruct (exact_parts_spec false s m x M) as (_ & Te & Ve). exists false, (exact_parts false s m x). split; [apply Te|]. split; [reflexivity|]. rewrite Ve, V. reflexivity.
Qed.
Lemma two_portable E q : ftoa E = exact_ftoa -> value_at E two 32 q -> value_at E two 64 q.
Proof.
  intros F V. apply (exact_value E two 32 false (2 ^ 23) (-22) q F) in V; [|vm_compute; reflexivity|lia]. apply (exact_value E two 64 false (2 ^ 52) (-51) q F); [reflexivity|lia|]. rewrite V. vm_compute. reflexivity.
Qed.
Ltac portable_parts := repeat (first
  [ refine (part_list _ _ _ _ _ _); [split; [let e := fresh in let K := fresh in intros e K; try discriminate K; injection K as <-; split; discriminate
      |let K := fresh in let X := fresh in intros ? ? K X; try discriminate K; try discriminate X]|try exact Logic.I]
  | let K := fresh in intros ? K; injection K as <- | let K := fresh in intros ? ? K; injection K as <- <- | apply Forall_cons; cbn [snd] | apply Forall_nil | apply Forall2_cons | apply Forall2_nil ]).
Definition v77 : gv := VPtr (Some (VStruct [VString [x61; x22]; VStruct [VInt 5; VString (str "b")]; VString []; VPtr None; VSlice (Some ([VString (str "x")], []));
  VMap (Some [(VString (str "k"), VIface (Some (11, VStruct [VPtr (Some (VStruct [VInt 1; VString (str "y")])); VBool false])))]); VInt 9; VFloat two])).
Lemma v77_value : std_value stE 10 v77.
Proof.
  split; [unfold v77; ty|]. split; [split; [discriminate|]|].
  - intros dt I. assert (H : forall x, inside v77 x -> match x with VIface (Some (_, VPtr None)) => False | _ => True end) by (unfold v77; parts). exact (H _ I).
  - assert (H : forall x, inside v77 x -> match x with VFloat f => canonical b64 f /\ (finite f -> exists g, narrow 32 f g /\ finite g) | _ => True end); [|intros f I; exact (H _ I)]. unfold v77. parts. exact two_json.
Qed.
Lemma v77_portable : portable stE 10 v77.
Proof. unfold portable. change (forall u x, part_of stE 10 v77 u x -> part_ok stE u x). unfold v77. portable_parts. injection H0 as <-. apply two_portable. reflexivity. Qed.
Definition out77 : bytes := str "{""A"":""a\"""",""B"":""b"",""Next"":null,""tags"":[""x""],""m"":{""k"":{""A"":1,""B"":""y""}},""f"":2." ++ repeat x30 22 ++ str "}".
Lemma ex77_lem : std_world stE /\ std_structs stE ascii /\ std_value stE 10 v77 /\ portable stE 10 v77 /\ AppendJSON stE (str "x") (Some (10, v77)) = Ok (str "x" ++ out77, None).
Proof. split; [exact st_world|]. split; [exact st_std|]. split; [exact v77_value|]. split; [exact v77_portable|]. vm_compute. reflexivity. Qed.
Lemma ex77_unique_lem : std_structs stE ascii /\ formats_agree stE v77 /\ small_maps v77 /\ exists m, std stE ascii 10 v77 m.
Proof.
  split; [exact st_std|]. split; [|split].
  - assert (H : forall x, inside v77 x -> match x with VFloat f => f = two | _ => True end) by (unfold v77; parts; reflexivity).
    intros f bits q r I A B. specialize (H _ I). cbn in H. subst f. destruct (Z.eqb_spec bits 32) as [->|Nb].
    + apply (exact_value stE two 32 false (2 ^ 23) (-22) _ eq_refl) in A, B; [|vm_compute; reflexivity|lia|vm_compute; reflexivity|lia]. rewrite A, B. reflexivity.
    + assert (Ef : (if (bits =? 32)%Z then to32 two else two) = FFin false (2 ^ 52) (-51)) by (destruct (Z.eqb_spec bits 32); [contradiction|reflexivity]).
      apply (exact_value stE two bits false (2 ^ 52) (-51) _ eq_refl Ef) in A, B; [|lia..]. rewrite A, B. reflexivity.
  - assert (H : forall x, inside v77 x -> match x with VMap (Some m) => length m <= 1 | _ => True end) by (unfold v77; parts; cbn; lia). intros m I. exact (H _ I).
  - destruct ex77_lem as (W & S & V & P & A). destruct (C77_lem _ _ _ _ _ _ W S V P A) as (w & j & m & _ & _ & _ & Sm). exists m. exact Sm.
Qed.

(* ---- where it differs: values ---- *)
Lemma other_of E letter t v out m : std_world E -> std_value E t v -> AppendJSON E [] (Some (t, v)) = Ok (out, None) -> std E letter t v m -> (forall j, rfc_value j out -> ~ says j m) -> writes_other E letter t v.
Proof.
  intros (Wf & Es & Wm & Fs & Tj & Mw & ML) (Tv & (Nt & Ni) & Fj) A S N. destruct (C69_lem E [] t v out Wf Es Wm Fs Tj Mw Tv) as (j & w & Ew & R & _); auto.
  - apply methodless_top; assumption.
  - intros dt x I. apply methodless_top; [exact ML|]. intros ->. exact (Ni _ I).
  - cbn [app] in Ew. subst w. exists out, j, m. split; [exact A|]. split; [exact R|]. split; [exact S|]. apply N. exact R.
Qed.
Lemma st_bare t T : typeOf stE t = Some T -> std_bare stE t.
Proof. intro H. exact (bare stE st_methodless t T H). Qed.
Lemma floatless v : (forall x, inside v x -> match x with VFloat _ | VIface _ => False | _ => True end) -> v <> VPtr None -> no_nil_tops v /\ floats_json v.
Proof. intros H N. split; [split; [exact N|]|]; [intros dt I|intros f I]; destruct (H _ I). Qed.
Lemma C77_nil_lem : exists E letter t v, std_world E /\ std_structs E letter /\ std_value E t v /\ v = VSlice None /\ writes_other E letter t v.
Proof.
  assert (V : std_value stE 8 (VSlice None)) by (split; [ty|apply floatless; [parts|discriminate]]).
  exists stE, ascii, 8, (VSlice None). split; [exact st_world|]. split; [exact st_std|]. split; [exact V|]. split; [reflexivity|].
  eapply (other_of _ _ _ _ (str "[]") SNull st_world V); [vm_compute; reflexivity|eapply st_slice_nil; [eapply st_bare|]; reflexivity|]. intros j R S. inversion S; subst. inversion R.
Qed.
Lemma C77_bytes_lem : exists E letter t e v, std_world E /\ std_structs E letter /\ std_value E t v /\ kindOf E t = Some (KSlice e) /\ kindOf E e = Some (KUint 8) /\ v = VSlice (Some ([VUint 104; VUint 105], [])) /\
  std E letter t v (SStr (str "aGk=")) /\ writes_other E letter t v.
Proof.
  assert (S : std stE ascii 14 (VSlice (Some ([VUint 104; VUint 105], []))) (SStr (str "aGk="))).
  { change (SStr (str "aGk=")) with (SStr (base64 [104; 105]%Z)). change [VUint 104; VUint 105] with (map VUint [104; 105]%Z). eapply st_bytes with (e := 13); [eapply st_bare| |eapply st_bare|]; reflexivity. }
  assert (V : std_value stE 14 (VSlice (Some ([VUint 104; VUint 105], [])))).
  { split; [eapply t_slice; [reflexivity| |constructor]; repeat constructor; (eapply t_uint; [reflexivity|cbn; lia])|apply floatless; [parts|discriminate]]. }
  exists stE, ascii, 14, 13, (VSlice (Some ([VUint 104; VUint 105], []))). split; [exact st_world|]. split; [exact st_std|]. split; [exact V|]. do 3 (split; [reflexivity|]). split; [exact S|].
  eapply (other_of _ _ _ _ (str "[104,105]") _ st_world V); [vm_compute; reflexivity|exact S|]. intros j R X. inversion X; subst. inversion R.
Qed.
Lemma C77_float_lem : exists E letter t v f, std_world E /\ std_structs E letter /\ std_value E t v /\ kindOf E t = Some KFloat64 /\ v = VFloat f /\ writes_other E letter t v.
Proof.
  assert (V : std_value stE tFloat64 (VFloat near_one)).
  { split; [ty|]. split; [split; [discriminate|]|].
    - intros dt I. inversion I.
    - assert (H : forall x, inside (VFloat near_one) x -> match x with VFloat f => canonical b64 f /\ (finite f -> exists g, narrow 32 f g /\ finite g) | _ => True end) by (parts; exact near_one_json). intros f I. exact (H _ I). }
  exists stE, ascii, tFloat64, (VFloat near_one), near_one. split; [exact st_world|]. split; [exact st_std|]. split; [exact V|]. do 2 (split; [reflexivity|]).
  eapply (other_of _ _ _ _ n32 (SNum (fval near_one)) st_world V); [vm_compute; reflexivity| |].
  - eapply st_float64; [eapply st_bare; reflexivity|reflexivity|]. apply (exact_value stE near_one 64 false (2 ^ 52 + 1) (-52)); [reflexivity|reflexivity|lia|reflexivity].
  - intros j R X. inversion X as [| | |p q Sp Vp| | |]; subst. inversion R; subst. destruct (exact_parts_spec false false (2 ^ 23) (-23) ltac:(lia)) as (_ & (S0 & _) & V0).
    assert (Ep : p = exact_parts false false (2 ^ 23) (-23)) by (apply text_one; [exact Sp|exact S0|vm_compute; assumption]). rewrite Ep, V0 in Vp. revert Vp. apply Qeq_bool_neq. vm_compute. reflexivity.
Qed.
(* ---- where it only fails ---- *)
Lemma C77_keys_lem : exists E letter t v k e, std_world E /\ std_structs E letter /\ std_value E t v /\ portable E t v /\ kindOf E t = Some (KMap k e) /\ kindOf E k = Some (KInt 64) /\ only_fails E letter t v.
Proof.
  exists stE, ascii, 15, (VMap (Some [(VInt 7, VString (str "x"))])), 6, tString. split; [exact st_world|]. split; [exact st_std|]. split; [split; [ty|apply floatless; [parts|discriminate]]|].
  split; [change (forall u x, part_of stE 15 (VMap (Some [(VInt 7, VString (str "x"))])) u x -> part_ok stE u x); portable_parts|]. do 2 (split; [reflexivity|]).
  eexists. eexists. exists (SObj [(str "7", SStr (str "x"))]). split; [vm_compute; reflexivity|]. eapply st_map; [eapply st_bare; reflexivity|reflexivity|apply Permutation_refl|]. constructor.
  - eapply st_bare. reflexivity.
  - apply (sk_int stE 6 64 7 (mkParts false (str "7") None None)); [reflexivity| |apply int_nz; [vm_compute; split; discriminate|constructor]|discriminate|reflexivity]. split; [|split; reflexivity]. repeat split; try discriminate; repeat constructor; vm_compute; discriminate.
  - apply (st_string stE ascii tString (str "x") [120%N]); [eapply st_bare; reflexivity|reflexivity|]. apply (ru_char 120 [] []); [left; lia|constructor].
  - constructor.
Qed.

(* ---- where it differs: fields ---- *)
(* 6 int64, 7 [2]int64, 8 struct{F [2]int64 "f,omitempty"}, 9 struct{A int64 "a,string"}, 10 struct{A int64 "-,"}, 11 struct{A int64},
   12 struct{inner} with inner = T11 unexported, 13 struct{A int64 "x"; B int64 "x"}, 14 struct{A int64 "a'b"} *)
Definition bdE : env := envOf [plainT (KInt 64); plainT (KArray 2 6); plainT (KStruct [tagged (str "F") 7 (str "f,omitempty")]); plainT (KStruct [tagged (str "A") 6 (str "a,string")]);
  plainT (KStruct [tagged (str "A") 6 (str "-,")]); plainT (KStruct [fld (str "A") 6]); plainT (KStruct [mkField (str "inner") 11 false true [] (fun _ => None)]);
  plainT (KStruct [tagged (str "A") 6 (str "x"); tagged (str "B") 6 (str "x")]); plainT (KStruct [tagged (str "A") 6 (str "a'b")])].
Definition bdRank (t : tid) : nat := match t with 7 => 1 | 8 => 2 | 9 => 1 | 10 => 1 | 11 => 1 | 12 => 2 | 13 => 1 | 14 => 1 | _ => 0 end.
Lemma bd_wf : wf_types bdE.
Proof. apply (check_wf bdE bdRank); [|vm_compute; reflexivity]. intro t. change (length (types bdE)) with 15. do 15 (destruct t as [|t]; [cbn; lia|]). cbn. lia. Qed.
Lemma bd_methodless : methodless bdE.
Proof.
  intros t T H. assert (X : tmeth T = noMethods /\ tptr T = noMethods) by (do 15 (destruct t as [|t]; [injection H as <-; split; reflexivity|]); destruct t; discriminate H).
  destruct X as (-> & ->). repeat split.
Qed.
Lemma bd_world : std_world bdE.
Proof. apply std_world_of; [exact bd_wf|intros t fs f e _ _ _ K; exfalso; revert K; generalize (ftype f); intro u; do 15 (destruct u as [|u]; [discriminate|]); destruct u; discriminate|exact bd_methodless|reflexivity|reflexivity|apply check_tags; vm_compute; reflexivity|repeat split; intros; discriminate]. Qed.
Lemma bd_bare t T : typeOf bdE t = Some T -> std_bare bdE t.
Proof. intro H. exact (bare bdE bd_methodless t T H). Qed.

Lemma std_tag_one letter f n o n' o' : std_tag letter f n o -> std_tag letter f n' o' -> n = n' /\ o = o'.
Proof.
  assert (Sp : forall p ps q qs, Forall no_comma (p :: ps) -> Forall no_comma (q :: qs) -> flookup f (str "json") = Some (join x2c (p :: ps)) -> flookup f (str "json") = Some (join x2c (q :: qs)) -> p = q /\ ps = qs).
  { intros p ps q qs A B C D. assert (X : join x2c (p :: ps) = join x2c (q :: qs)) by congruence. apply split_unique in X; auto. injection X as -> ->. auto. }
  intros H H'. destruct H as [L|v p ps L N Fo -> Va|v p ps L N Fo -> Va]; destruct H' as [L'|v' p' ps' L' N' Fo' -> Va'|v' p' ps' L' N' Fo' -> Va']; try congruence; auto;
    destruct (Sp _ _ _ _ Fo Fo' L L') as (-> & ->); auto; contradiction.
Qed.
(* One field, and not an embedded struct. *)
Lemma one_candidate E letter t f name opts : kindOf E t = Some (KStruct [f]) -> std_tag letter f name opts -> fcanset f = true -> (forall u p, ~ embedded E f u p) -> forall s, candidate E letter t s <->
  s = mkSF (match name with [] => fname f | _ => name end) [0%Z] (ftype f) (match name with [] => false | _ => true end) (OptSpec.has (str "omitempty") opts) (OptSpec.has (str "string") opts).
Proof.
  intros K Tg Cs Ne s. split.
  - intro H. inversion H as [t' gs i g n o K' N T' _ Nn|t' gs i g o K' N T' _ _|t' gs i g o u q c K' N T' Em _]; subst; rewrite K in K'; injection K' as <-; (destruct i as [|i]; [cbn in N; injection N as <-|destruct i; discriminate N]).
    + destruct (std_tag_one _ _ _ _ _ _ Tg T') as (-> & ->). destruct n; [congruence|reflexivity].
    + destruct (std_tag_one _ _ _ _ _ _ Tg T') as (-> & ->). reflexivity.
    + destruct (Ne _ _ Em).
  - intros ->. destruct name as [|c name]; [eapply (cd_plain E letter t [f] 0 f); eauto|eapply (cd_named E letter t [f] 0 f); eauto; discriminate].
Qed.
Lemma sole_field E letter t s0 : (forall s, candidate E letter t s <-> s = s0) -> std_fields E letter t [s0].
Proof.
  intro C. split; [|repeat constructor]. intro s. cbn [In]. split; [intros [<-|[]]|intros (H & _); left; symmetry; apply C; exact H].
  split; [apply C; reflexivity|]. intros d Cd _ Nd. apply C in Cd. subst d. congruence.
Qed.
Lemma one_field E letter t f name opts : kindOf E t = Some (KStruct [f]) -> std_tag letter f name opts -> fcanset f = true -> (forall u p, ~ embedded E f u p) ->
  std_fields E letter t [mkSF (match name with [] => fname f | _ => name end) [0%Z] (ftype f) (match name with [] => false | _ => true end) (OptSpec.has (str "omitempty") opts) (OptSpec.has (str "string") opts)].
Proof.
  intros. apply sole_field. apply one_candidate; assumption.
Qed.
Lemma tag_valid n t p ps : Forall no_comma (p :: ps) -> join x2c (p :: ps) <> str "-" -> valid_name ascii p -> std_tag ascii (tagged n t (join x2c (p :: ps))) p ps.
Proof. intros A B C. eapply sg_name; [reflexivity|exact B|exact A|reflexivity|exact C]. Qed.
Ltac tag_is p ps := match goal with |- std_tag _ (tagged ?n ?t _) _ _ => exact (tag_valid n t p ps (no_commas (p :: ps) eq_refl) ltac:(discriminate) (ascii_valid p ltac:(discriminate) eq_refl)) end.
Lemma bd_int z : std bdE ascii 6 (VInt z) (SNum (inject_Z z)).
Proof. eapply st_int; [eapply bd_bare|]; reflexivity. Qed.
Lemma bd_other t v out m : std_value bdE t v -> AppendJSON bdE [] (Some (t, v)) = Ok (out, None) -> std bdE ascii t v m -> (forall j, rfc_value j out -> ~ says j m) -> writes_other bdE ascii t v.
Proof. intros V A S N. eapply other_of; try eassumption. exact bd_world. Qed.
Lemma none_left j : rfc_value j (str "{}") -> j = JObj [].
Proof. intro R. apply (rfc_unique _ _ _ R). apply (v_obj0 _ _ _ _ []). constructor. Qed.
Lemma none_says j a l : rfc_value j (str "{}") -> says j (SObj (a :: l)) -> False.
Proof. intros R X. apply none_left in R. subst j. inversion X as [| | | | | |? ? F]; subst. inversion F. Qed.
Ltac plain_value := split; [ty|apply floatless; [parts|discriminate]].

Lemma ex77_array : writes_other bdE ascii 8 (VStruct [VArray [VInt 0; VInt 0]]).
Proof.
  eapply (bd_other _ _ (str "{}") (SObj [(str "f", SArr [SNum (inject_Z 0); SNum (inject_Z 0)])])); [plain_value|vm_compute; reflexivity| |intros j R X; exact (none_says _ _ _ R X)].
  eapply st_struct; [eapply bd_bare; reflexivity|reflexivity|eapply (one_field _ _ _ (tagged (str "F") 7 (str "f,omitempty")) (str "f") [str "omitempty"]); [reflexivity|tag_is (str "f") ([str "omitempty"] : list bytes)|reflexivity|intros u p H; inversion H; discriminate]|].
  eapply sb_member; [eapply (rc_field _ 0); [reflexivity|constructor]|intros (_ & G); inversion G|left; reflexivity| |constructor].
  eapply st_array; [eapply bd_bare; reflexivity|reflexivity|]. repeat (apply se_cons; [apply bd_int|]). apply se_nil.
Qed.
Lemma ex77_string : writes_other bdE ascii 9 (VStruct [VInt 1]).
Proof.
  eapply (bd_other _ _ (str "{""a"":1}") (SObj [(str "a", SStr (str "1"))])); [plain_value|vm_compute; reflexivity| |].
  - eapply st_struct; [eapply bd_bare; reflexivity|reflexivity|eapply (one_field _ _ _ (tagged (str "A") 6 (str "a,string")) (str "a") [str "string"]); [reflexivity|tag_is (str "a") ([str "string"] : list bytes)|reflexivity|intros u p H; inversion H; discriminate]|].
    eapply sb_quoted with (j := JNum (str "1")); [eapply (rc_field _ 0); [reflexivity|constructor]|intros (X & _); discriminate X|reflexivity|left; exact Logic.I|discriminate|apply bd_int|apply (int_says 1)|apply v_num; apply (FormatUint_number 1)|constructor].
  - intros j R X. assert (j = JObj [(str "a", JNum (str "1"))]) by (apply (rfc_unique _ _ _ R), (obj_one (str "a") _ (str "1")); [reflexivity|apply v_num; apply (FormatUint_number 1)]). subst j.
    inversion X as [| | | | | |ms l F]; subst. inversion F as [|? ? ? ? (_ & Y) _]; subst. inversion Y.
Qed.
Lemma ex77_dash : writes_other bdE ascii 10 (VStruct [VInt 1]).
Proof.
  eapply (bd_other _ _ (str "{}") (SObj [(str "-", SNum (inject_Z 1))])); [plain_value|vm_compute; reflexivity| |intros j R X; exact (none_says _ _ _ R X)].
  eapply st_struct; [eapply bd_bare; reflexivity|reflexivity|eapply (one_field _ _ _ (tagged (str "A") 6 (str "-,")) (str "-") [[]]); [reflexivity|tag_is (str "-") ([[]] : list bytes)|reflexivity|intros u p H; inversion H; discriminate]|].
  eapply sb_member; [eapply (rc_field _ 0); [reflexivity|constructor]|intros (X & _); discriminate X|left; reflexivity|apply bd_int|constructor].
Qed.
Lemma ascii_head r rs c s : c :: s = utf8s (r :: rs) -> scalar r -> (bN c < 128)%N -> r = bN c /\ s = utf8s rs.
Proof.
  unfold utf8s. cbn [map concat]. intros U S L. destruct (N.lt_ge_cases r 128) as [A|A].
  - unfold utf8 in U. rewrite (proj2 (N.ltb_lt _ _) A) in U. cbn [app] in U. injection U as -> ->. rewrite bNb by lia. auto.
  - exfalso. pose proof (high_bytes r A S) as F. assert (N0 : utf8 r <> []) by (unfold utf8; destruct (r <? 128)%N, (r <? 2048)%N, (r <? 65536)%N; discriminate).
    destruct (utf8 r) as [|d q]; [congruence|]. injection U as -> _. inversion F as [|? ? B]; subst. lia.
Qed.
Lemma ex77_name : writes_other bdE ascii 14 (VStruct [VInt 1]).
Proof.
  eapply (bd_other _ _ (str "{""a'b"":1}") (SObj [(str "A", SNum (inject_Z 1))])); [plain_value|vm_compute; reflexivity| |].
  - eapply st_struct; [eapply bd_bare; reflexivity|reflexivity|eapply (one_field _ _ _ (tagged (str "A") 6 (str "a'b")) [] []); [reflexivity| |reflexivity|intros u p H; inversion H; discriminate]|].
    + eapply (sg_bad _ _ (str "a'b") (str "a'b") []); [reflexivity|discriminate|apply no_commas; reflexivity|reflexivity|]. intros (_ & rs & Sc & U & L).
      destruct rs as [|r rs]; [discriminate U|]. inversion Sc; inversion L as [|? ? _ L1]; subst. apply ascii_head in U; [|assumption|vm_compute; reflexivity]. destruct U as (_ & U).
      destruct rs as [|r2 rs]; [discriminate U|]. match goal with A : Forall scalar (r2 :: rs) |- _ => inversion A; subst end. inversion L1 as [|? ? L2 _]; subst. apply ascii_head in U; [|assumption|vm_compute; reflexivity]. destruct U as (-> & _).
      destruct L2 as [L2|L2]; [unfold ascii in L2; vm_compute in L2; intuition (try congruence)|vm_compute in L2; intuition discriminate].
    + eapply sb_member; [eapply (rc_field _ 0); [reflexivity|constructor]|intros (X & _); discriminate X|left; reflexivity|apply bd_int|constructor].
  - intros j R X. assert (j = JObj [(str "a'b", JNum (str "1"))]) by (apply (rfc_unique _ _ _ R), (obj_one (str "a'b") _ (str "1")); [reflexivity|apply v_num; apply (FormatUint_number 1)]). subst j.
    inversion X as [| | | | | |ms l F]; subst. inversion F as [|? ? ? ? (Y & _) _]; subst. inversion Y.
Qed.
Lemma ex77_inner : writes_other bdE ascii 12 (VStruct [VStruct [VInt 1]]).
Proof.
  eapply (bd_other _ _ (str "{}") (SObj [(str "A", SNum (inject_Z 1))])); [plain_value|vm_compute; reflexivity| |intros j R X; exact (none_says _ _ _ R X)].
  eapply st_struct with (l := [mkSF (str "A") [0; 0]%Z 6 false false false]); [eapply bd_bare; reflexivity|reflexivity| |].
  - assert (C11 : forall s, candidate bdE ascii 11 s <-> s = mkSF (str "A") [0%Z] 6 false false false).
    { apply (one_candidate bdE ascii 11 (fld (str "A") 6) [] [] eq_refl (sg_none ascii (fld (str "A") 6) eq_refl) eq_refl). intros u p H. inversion H; discriminate. }
    apply sole_field. intro s. split.
    + intro H. inversion H as [t' gs i g n o K' N T' Cs Nn|t' gs i g o K' N T' Cs _|t' gs i g o u q c K' N T' Em Cd]; subst; injection K' as <-; (destruct i as [|i]; [cbn in N; injection N as <-|destruct i; discriminate N]); try discriminate Cs.
      assert (u = 11 /\ q = []) as (-> & ->) by (inversion Em; subst; [auto|discriminate]). apply C11 in Cd. subst c. reflexivity.
    + intros ->. apply (cd_deep bdE ascii 12 [mkField (str "inner") 11 false true [] (fun _ => None)] 0 (mkField (str "inner") 11 false true [] (fun _ => None)) [] 11 [] (mkSF (str "A") [0%Z] 6 false false false)); [reflexivity|reflexivity|apply sg_none; reflexivity|eapply eb_struct; reflexivity|apply C11; reflexivity].
  - eapply sb_member; [eapply (rc_field _ 0); [reflexivity|eapply (rc_field _ 0); [reflexivity|constructor]]|intros (X & _); discriminate X|left; reflexivity|apply bd_int|constructor].
Qed.
Lemma ex77_clash : writes_other bdE ascii 13 (VStruct [VInt 1; VInt 2]).
Proof.
  eapply (bd_other _ _ (str "{""x"":1}") (SObj [])); [plain_value|vm_compute; reflexivity| |].
  - eapply st_struct with (l := []); [eapply bd_bare; reflexivity|reflexivity| |constructor]. split; [|constructor]. intro s. split; [intros []|]. intros (Cs & Dm).
    assert (TA : std_tag ascii (tagged (str "A") 6 (str "x")) (str "x") []) by tag_is (str "x") ([] : list bytes). assert (TB : std_tag ascii (tagged (str "B") 6 (str "x")) (str "x") []) by tag_is (str "x") ([] : list bytes).
    pose (a := mkSF (str "x") [0%Z] 6 true false false). pose (b := mkSF (str "x") [1%Z] 6 true false false). pose (fs := [tagged (str "A") 6 (str "x"); tagged (str "B") 6 (str "x")]).
    assert (Ca : candidate bdE ascii 13 a) by (apply (cd_named bdE ascii 13 fs 0 (tagged (str "A") 6 (str "x")) (str "x") []); [reflexivity|reflexivity|exact TA|reflexivity|discriminate]).
    assert (Cb : candidate bdE ascii 13 b) by (apply (cd_named bdE ascii 13 fs 1 (tagged (str "B") 6 (str "x")) (str "x") []); [reflexivity|reflexivity|exact TB|reflexivity|discriminate]).
    assert (Sab : s = a \/ s = b).
    { inversion Cs as [t' gs i g n o K' N T' _ Nn|t' gs i g o K' N T' _ _|t' gs i g o u q c K' N T' Em _]; subst; injection K' as <-; (destruct i as [|[|i]]; [cbn in N; injection N as <-|cbn in N; injection N as <-|destruct i; discriminate N]);
        first [destruct (std_tag_one _ _ _ _ _ _ TA T') as (E1 & E2)|destruct (std_tag_one _ _ _ _ _ _ TB T') as (E1 & E2)]; try discriminate E1; try (inversion Em; discriminate); subst n o; auto. }
    destruct Sab as [->| ->]; [destruct (Dm b Cb eq_refl ltac:(discriminate)) as [X|(_ & _ & X)]|destruct (Dm a Ca eq_refl ltac:(discriminate)) as [X|(_ & _ & X)]]; try discriminate X; vm_compute in X; lia.
  - intros j R X. assert (j = JObj [(str "x", JNum (str "1"))]) by (apply (rfc_unique _ _ _ R), (obj_one (str "x") _ (str "1")); [reflexivity|apply v_num; apply (FormatUint_number 1)]). subst j. inversion X as [| | | | | |ms l F]; subst. inversion F.
Qed.
Lemma bd_portable t v : (forall x, inside v x -> match x with VFloat _ | VSlice _ => False | _ => True end) -> portable bdE t v.
Proof.
  intros H u x P. assert (I : inside v x). { clear - P. induction P; [apply ins_here|apply ins_iface|apply ins_ptr|eapply ins_slice|eapply ins_array|eapply ins_map|eapply ins_struct; [eapply nth_error_In; eassumption|]]; eassumption. }
  specialize (H _ I). split; [|intros f q _ -> _; exact (False_ind _ H)]. intros e K. split; [intros ->; exact H|]. clear - K. do 15 (destruct u as [|u]; [try discriminate K; try (injection K as <-; discriminate)|]); destruct u; discriminate K.
Qed.

Ltac field_case t ex := exists t; split; [reflexivity|]; split; [plain_value|]; split; [apply bd_portable; parts|exact ex].
Lemma C77_fields_lem : exists E letter i a inner, std_world E /\ kindOf E i = Some (KInt 64) /\ kindOf E a = Some (KArray 2 i) /\ kindOf E inner = Some (KStruct [fld (str "A") i]) /\
  field_case E letter [tagged (str "F") a (str "f,omitempty")] (VStruct [VArray [VInt 0; VInt 0]]) /\
  field_case E letter [tagged (str "A") i (str "a,string")] (VStruct [VInt 1]) /\
  field_case E letter [tagged (str "A") i (str "-,")] (VStruct [VInt 1]) /\
  field_case E letter [tagged (str "A") i (str "a'b")] (VStruct [VInt 1]) /\
  field_case E letter [mkField (str "inner") inner false true [] (fun _ => None)] (VStruct [VStruct [VInt 1]]) /\
  field_case E letter [tagged (str "A") i (str "x"); tagged (str "B") i (str "x")] (VStruct [VInt 1; VInt 2]).
Proof.
  exists bdE, ascii, 6, 7, 11. split; [exact bd_world|]. do 3 (split; [reflexivity|]).
  split; [field_case 8 ex77_array|]. split; [field_case 9 ex77_string|]. split; [field_case 10 ex77_dash|]. split; [field_case 14 ex77_name|]. split; [field_case 12 ex77_inner|]. field_case 13 ex77_clash.
Qed.
Lemma C77_pointer_lem : exists E letter t, std_world E /\ std_structs E letter /\ typed E t (VPtr None) /\ std E letter t (VPtr None) SNull /\ AppendJSON E [] (Some (t, VPtr None)) = Panic.
Proof.
  exists stE, ascii, 10. split; [exact st_world|]. split; [exact st_std|]. split; [ty|]. split; [|vm_compute; reflexivity]. eapply st_nil; [eapply st_bare|]; reflexivity.
Qed.
