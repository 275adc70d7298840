(* Concrete types and values for C72. *)
From Coq Require Import Permutation.
From Verif Require Import FloatSpec NumSpec FmtSpec StrSpec Bytes Types JsonSpec Parser Doc DocSpec Strjson Float Num FmtThms Iface IfaceSpec OptSpec Options OptThms Codec CodecSpec CodecMerge CodecBase CodecBuild CodecEnc CodecJson CodecExamples
  DecodeSpec DecodeExamples RoundSpec Coder CoderSpec CoderExamples TreeSpec TreeThms Gen GenSpec GenFields GenMake GenApp GenExamples RfcOne AgreeSpec AgreeThms.
Local Open Scope nat_scope.

(* 6 int64, 7 []string, 8 struct{X int64 "x"; B bool "b"}, 9 *T8, 10 struct{ID int64 "id"; Name string "name,omitempty"; Tags []string "tags";
   P *T8 "p"; Q *T8 "q,omitempty"; secret int64}, 11 struct{P *T8 "p"}, 12 map[int64]bool, 13 struct{M T12 "m"}, 14 struct{F float64 "f"} *)
Definition hiddenF (n : bytes) (t : tid) : sfield := mkField n t false false [] (fun _ => None).
Definition fs8 : list sfield := [tagged (str "X") 6 (str "x"); tagged (str "B") tBool (str "b")].
Definition fs10 : list sfield := [tagged (str "ID") 6 (str "id"); tagged (str "Name") tString (str "name,omitempty"); tagged (str "Tags") 7 (str "tags"); tagged (str "P") 9 (str "p"); tagged (str "Q") 9 (str "q,omitempty");
  hiddenF (str "secret") 6].
Definition agE : env := envOf [plainT (KInt 64); plainT (KSlice tString); plainT (KStruct fs8); plainT (KPtr 8); plainT (KStruct fs10); plainT (KStruct [tagged (str "P") 9 (str "p")]);
  plainT (KMap 6 tBool); plainT (KStruct [tagged (str "M") 12 (str "m")]); plainT (KStruct [tagged (str "F") tFloat64 (str "f")])].
Fixpoint flattenX (i : nat) (fs : list sfield) : list mfield :=
  match fs with [] => [] | f :: r => mkMF (fname f) (fcanset f) [Z.of_nat i] (ftype f) (ftag f) (flookup f) :: flattenX (S i) r end.
Definition agM : genv := mkGE (fun t => match kindOf agE t with Some (KStruct fs) => flattenX 0 fs | _ => [] end) (fun _ => false) (fun _ => false) (fun _ => inr UValue) (fun _ => false) (fun _ => false).
Definition agRank (t : tid) : nat := match t with 8 | 10 | 11 | 13 | 14 => 1 | _ => 0 end.
Lemma ag_wf : wf_types agE.
Proof. apply (check_wf agE agRank); [|vm_compute; reflexivity]. intro t. change (length (types agE)) with 15. do 15 (destruct t as [|t]; [cbn; lia|]). cbn. lia. Qed.
Lemma flattenX_ok E t fs : kindOf E t = Some (KStruct fs) -> forall a b f, fs = a ++ b -> In f (flattenX (length a) b) -> walks E t (mpath f) (mtype f) /\ mpath f <> [].
Proof.
  intros K a b. revert a. induction b as [|g b IH]; intros a f -> I; [destruct I|]. destruct I as [<-|I].
  - cbn [mpath mtype]. split; [|discriminate]. eapply wk_field; [exact K| |constructor]. rewrite nth_error_app2, Nat.sub_diag by lia. reflexivity.
  - apply (IH (a ++ [g]) f); [rewrite <- app_assoc; reflexivity|]. rewrite app_length. cbn [length]. replace (length a + 1) with (S (length a)) by lia. exact I.
Qed.
Lemma ag_paths : paths_ok agE agM.
Proof. intros t fs f K I. cbn [fieldsOf agM] in I. rewrite K in I. exact (flattenX_ok agE t fs K [] fs f eq_refl I). Qed.
Lemma ag_lists fs : forall i, lists i fs (flattenX i fs).
Proof. induction fs as [|f fs IH]; intro i; cbn; constructor; auto. Qed.

Lemma tidy_tagged E n t p ps : Forall no_comma (p :: ps) -> n <> [] -> n <> str "-" -> n <> str "_" -> OptSpec.has (str "html") ps = false -> OptSpec.has (str "8bit") ps = false ->
  (In (str "omitempty") ps -> forall gs, kindOf E t <> Some (KStruct gs)) -> tidy E (tagged n t (join x2c (p :: ps))).
Proof.
  intros Fo N1 N2 N3 Hh Hr Ho. unfold tidy. cbn [fanon fname fcanset tagged ftag flookup ftype]. split; [reflexivity|]. split; [exact N1|]. split; [exact N2|]. split; [contradiction|]. split.
  - intros v H. change (Some (join x2c (p :: ps)) = Some v) in H. assert (Hv : v = join x2c (p :: ps)) by congruence. rewrite Hv. generalize (join x2c (p :: ps)). intro w. rewrite app_length. cbn [length]. rewrite app_length. lia.
  - intros q qs Fq H. change (Some (join x2c (p :: ps)) = Some (join x2c (q :: qs))) in H. assert (Hj : join x2c (p :: ps) = join x2c (q :: qs)) by congruence. clear H. rename Hj into H. apply split_unique in H; auto. injection H as <- <-.
    split; [|split; [|exact Ho]]; intro I; apply has_In in I; congruence.
Qed.
Lemma no_commas l : forallb (fun q => forallb (fun c => negb (beqb c x2c)) q) l = true -> Forall no_comma l.
Proof. rewrite forallb_forall, Forall_forall. intros H q I X. specialize (H q I). rewrite forallb_forall in H. specialize (H x2c X). discriminate. Qed.
Ltac tidied := match goal with |- tidy ?E (tagged ?n ?t ?tag) => let l := eval vm_compute in (splitComma tag) in lazymatch l with (?p, ?ps) =>
  change (tidy E (tagged n t (join x2c (p :: ps)))); apply tidy_tagged; [apply no_commas; vm_compute; reflexivity|discriminate|discriminate|discriminate|vm_compute; reflexivity|vm_compute; reflexivity|] end end;
  [intros I gs; first [vm_compute; discriminate|cbn in I; intuition discriminate]].
Lemma ag_structs u fs : kindOf agE u = Some (KStruct fs) -> u = 8 /\ fs = fs8 \/ u = 10 /\ fs = fs10 \/ u = 11 /\ fs = [tagged (str "P") 9 (str "p")] \/ u = 13 /\ fs = [tagged (str "M") 12 (str "m")] \/ u = 14 /\ fs = [tagged (str "F") tFloat64 (str "f")].
Proof. intro K. do 15 (destruct u as [|u]; [vm_compute in K; try discriminate K; injection K as <-; auto 10|]). destruct u; discriminate K. Qed.
Lemma ag_tidy u fs : kindOf agE u = Some (KStruct fs) -> Forall (tidy agE) fs.
Proof.
  intro K. destruct (ag_structs u fs K) as [(_ & ->)|[(_ & ->)|[(_ & ->)|[(_ & ->)|(_ & ->)]]]]; unfold fs8, fs10.
  - apply Forall_cons; [tidied|]. apply Forall_cons; [tidied|]. apply Forall_nil.
  - do 5 (apply Forall_cons; [tidied|]). apply Forall_cons; [|apply Forall_nil]. repeat split; try discriminate; cbn in H0; discriminate.
  - apply Forall_cons; [tidied|apply Forall_nil].
  - apply Forall_cons; [tidied|apply Forall_nil].
  - apply Forall_cons; [tidied|apply Forall_nil].
Qed.
Lemma ag_usual fs : usual genG fs.
Proof. repeat split. left. reflexivity. Qed.
Definition names_of (G : gopts) (l : list mfield) : list (option bytes) := map (fun m => option_map fst (parseVar G m)) l.
Lemma check_distinct G l : (forall i j n, nth_error (names_of G l) i = Some (Some n) -> nth_error (names_of G l) j = Some (Some n) -> i = j) -> distinct G l.
Proof.
  intros H i j f g n ps qs A B P Q. apply C60_fields_lem in P. apply C60_fields_lem in Q. apply (H i j n); unfold names_of; apply map_nth_error with (f := fun m => option_map fst (parseVar G m)) in A; apply map_nth_error with (f := fun m => option_map fst (parseVar G m)) in B.
  - rewrite A, P. reflexivity.
  - rewrite B, Q. reflexivity.
Qed.
Lemma one_distinct m : distinct genG [m].
Proof. intros [|i] [|j] f g n ps qs A B _ _; auto; [destruct j; discriminate B|destruct i; discriminate A|destruct i; discriminate A]. Qed.
Lemma ag_distinct u fs : kindOf agE u = Some (KStruct fs) -> distinct genG (flattenX 0 fs).
Proof.
  intro K. destruct (ag_structs u fs K) as [(_ & ->)|[(_ & ->)|[(_ & ->)|[(_ & ->)|(_ & ->)]]]]; try apply one_distinct; apply check_distinct; intros i j n A B.
  - change (nth_error [Some (str "x"); Some (str "b")] i = Some (Some n)) in A. change (nth_error [Some (str "x"); Some (str "b")] j = Some (Some n)) in B.
    destruct i as [|[|i]]; cbn in A; [| |destruct i; discriminate]; destruct j as [|[|j]]; cbn in B; try reflexivity; try congruence; destruct j; discriminate.
  - change (nth_error [Some (str "id"); Some (str "name"); Some (str "tags"); Some (str "p"); Some (str "q"); None] i = Some (Some n)) in A. change (nth_error [Some (str "id"); Some (str "name"); Some (str "tags"); Some (str "p"); Some (str "q"); None] j = Some (Some n)) in B.
    do 6 (destruct i as [|i]; [do 6 (destruct j as [|j]; [cbn in A, B; try reflexivity; try congruence; injection A as <-; discriminate B|]); destruct j; discriminate B|]). destruct i; discriminate A.
Qed.
Definition closed72 : list (tid * bool) := [(10, false); (6, false); (tString, false); (7, false); (9, false); (8, false); (tBool, false)].
Lemma ag_same t : same_fields agE genG agM t.
Proof.
  intros u raw fs cs gs _ K Sf Io. assert (Ef : fieldsOf agM u = flattenX 0 fs) by (cbn [fieldsOf agM]; rewrite K; reflexivity).
  eapply C72_fields_lem; [exact K| | |apply ag_usual| |exact Sf|exact Io]; rewrite ?Ef; [apply ag_lists|eapply ag_tidy; exact K|eapply ag_distinct; exact K].
Qed.
Lemma ag_types t T : typeOf agE t = Some T -> tmeth T = noMethods /\ tptr T = noMethods.
Proof. intro H. do 15 (destruct t as [|t]; [injection H as <-; split; reflexivity|]). destruct t; discriminate H. Qed.
Lemma ag_methods t : no_methods agE genG agM t.
Proof. intros u raw T _ ET. destruct (ag_types _ _ ET) as (-> & ->). repeat split. Qed.
Lemma ag_env : wf_types agE /\ paths_ok agE agM /\ ftoa_spec (ftoa agE) /\ walks_maps agE /\ methods_return agE /\ methods_write_json agE /\ embeds_structs agE /\ tags_json agE defaultOptions.
Proof.
  split; [exact ag_wf|]. split; [exact ag_paths|]. split; [exact exact_spec|]. split; [intros b m; apply Permutation_refl|].
  split; [repeat split; intros; eexists; reflexivity|]. split; [repeat split; intros; discriminate|]. split; [apply check_embeds; vm_compute; reflexivity|apply check_tags; vm_compute; reflexivity].
Qed.
Definition v72 : gv := VStruct [VInt (-3); VString []; VSlice (Some ([VString [x61; x22; x62]], [])); VPtr (Some (VStruct [VInt 1; VBool true])); VPtr None; VInt 5].
Lemma flattenX_path fs : forall i f, In f (flattenX i fs) -> exists k, mpath f = [Z.of_nat (i + k)] /\ k < length fs.
Proof.
  induction fs as [|g fs IH]; intros i f I; [destruct I|]. destruct I as [<-|I]; [exists 0; rewrite Nat.add_0_r; cbn; split; [reflexivity|lia]|].
  destruct (IH (S i) f I) as (k & P & L). exists (S k). rewrite P. cbn [length]. split; [f_equal; f_equal; lia|lia].
Qed.
Lemma F2_len {A B} (P : A -> B -> Prop) a b : Forall2 P a b -> length a = length b.
Proof. induction 1; cbn; auto. Qed.
Lemma v72_agrees : agreeable agE genG agM v72.
Proof.
  split; [|split].
  - assert (H : forall x, inside v72 x -> match x with VFloat _ => False | _ => True end) by (unfold v72; parts). intros f s s' I. destruct (H _ I).
  - assert (H : forall x, inside v72 x -> match x with VMap _ => False | _ => True end) by (unfold v72; parts). intros m I. destruct (H _ I).
  - intros u l name params f I Tl L R.
    assert (H : forall x, inside v72 x -> match x with VStruct l => VStruct l = v72 \/ l = [VInt 1; VBool true] | _ => True end) by (unfold v72; parts; auto).
    specialize (H _ I). cbn beta iota in H. inversion Tl as [| | | | | | | | | | | | | |? fs ? K F|]; subst.
    assert (If : In f (fieldsOf agM u)) by (destruct L as (a & b & -> & _); apply in_or_app; right; left; reflexivity).
    cbn [fieldsOf agM] in If. rewrite K in If. destruct (flattenX_path fs 0 f If) as (k & Pf & _). rewrite Pf in R. inversion R as [|? i x ? ? N R' Ea Eb|]; subst. apply Nat2Z.inj in Eb. subst i. cbn [Nat.add] in *. inversion R'; subst.
    destruct H as [H| ->]; [|destruct k as [|[|[|k]]]; discriminate N]. injection H as ->.
    assert (k = 4) by (do 6 (destruct k as [|k]; [try discriminate N; reflexivity|]); destruct k; discriminate N). subst k.
    assert (Ef : fs = fs10).
    { assert (Ln : length fs = 6) by (apply F2_len in F; exact F). clear - K Ln. do 15 (destruct u as [|u]; [vm_compute in K; try discriminate K; injection K as <-; try discriminate Ln; reflexivity|]). destruct u; discriminate K. }
    subst fs. destruct L as (a & b & _ & Pv & _). cbn in If.
    destruct If as [<-|[<-|[<-|[<-|[<-|[<-|[]]]]]]]; try discriminate Pf. vm_compute in Pv. injection Pv as _ <-. left. reflexivity.
Qed.
Definition gen72 : bytes := str "{""id"":-3,""p"":{""b"":true,""x"":1},""tags"":[""a\""b""]}".
Definition enc72 : bytes := str "{""id"":-3,""tags"":[""a\""b""],""p"":{""x"":1,""b"":true}}".
Lemma ag_plain v : (forall x, inside v x -> match x with VFloat _ | VIface _ => False | _ => True end) -> finite_floats v /\ floats_json v /\ tops_ok agE v.
Proof. intro H. split; [|split]; [intros f I|intros f I|intros dt x I]; destruct (H _ I). Qed.
Lemma ex72_lem : (wf_types agE /\ paths_ok agE agM /\ ftoa_spec (ftoa agE) /\ walks_maps agE /\ methods_return agE /\ methods_write_json agE /\ embeds_structs agE /\ tags_json agE defaultOptions) /\
  names_json agE genG agM 10 /\ plain_keys agE genG agM 10 /\ no_methods agE genG agM 10 /\ same_fields agE genG agM 10 /\ typed agE 10 v72 /\ (finite_floats v72 /\ floats_json v72 /\ tops_ok agE v72) /\ top_ok agE 10 v72 /\ agreeable agE genG agM v72 /\
  AppendJSON agE [] (Some (10, v72)) = Ok (enc72, None) /\ exists c, Appender agE genG agM 10 = Ok (Some c) /\ compilesAppender agM 10 c = true /\ runAppender agE c [] (Some v72) = Ok (gen72, None).
Proof.
  split; [exact ag_env|]. split; [apply (check_names _ _ _ closed72); [checked|left; reflexivity|checked]|]. split; [apply (check_keys _ _ _ closed72); [checked|left; reflexivity|checked]|]. split; [apply ag_methods|]. split; [apply ag_same|].
  split; [unfold v72; ty|]. split; [apply ag_plain; unfold v72; parts|]. split; [unfold v72; top|]. split; [exact v72_agrees|]. split; [vm_compute; reflexivity|]. eexists. split; [found|]. split; vm_compute; reflexivity.
Qed.
(* where they differ *)
Definition differ (t : tid) (v : gv) (w w' : bytes) : Prop := exists c,
  (wf_types agE /\ paths_ok agE agM /\ ftoa_spec (ftoa agE) /\ walks_maps agE /\ methods_return agE /\ methods_write_json agE /\ embeds_structs agE /\ tags_json agE defaultOptions) /\
  names_json agE genG agM t /\ plain_keys agE genG agM t /\ no_methods agE genG agM t /\ same_fields agE genG agM t /\ typed agE t v /\ (finite_floats v /\ floats_json v /\ tops_ok agE v) /\ top_ok agE t v /\
  Appender agE genG agM t = Ok (Some c) /\ compilesAppender agM t c = true /\ runAppender agE c [] (Some v) = Ok (w, None) /\ AppendJSON agE [] (Some (t, v)) = Ok (w', None).
Lemma obj_one k v w : charsOk k = true -> rfc_value v w -> rfc_value (JObj [(k, v)]) (x7b :: (x22 :: k ++ x22 :: x3a :: w) ++ [x7d]).
Proof.
  intros K V. apply v_obj. pose proof (mem_one ws rfc_chars rfc_chars rfc_number [] k [] [] v w []) as H. rewrite app_nil_r in H. apply H; try constructor; [apply chars_ok; exact K|exact V].
Qed.
Lemma same_one k v k' v' : same (JObj [(k, v)]) (JObj [(k', v')]) -> same v v'.
Proof.
  intro S. inversion S as [| | | | | |? ns ? F P]; subst. inversion F as [|? [k1 v1] ? ? (Q & Sv) F']; subst. inversion F'; subst. apply Permutation_length_1 in P. injection P as -> ->. exact Sv.
Qed.
Lemma differ_trees j j' w w' : rfc_value j w -> rfc_value j' w' -> ~ same j j' -> forall i i', rfc_value i w -> rfc_value i' w' -> ~ same i i'.
Proof. intros A B N i i' A' B'. rewrite (rfc_unique _ _ _ A' A), (rfc_unique _ _ _ B' B). exact N. Qed.
Lemma ex72_nil : differ 11 (VStruct [VPtr None]) (str "{}") (str "{""p"":null}") /\ forall j j', rfc_value j (str "{}") -> rfc_value j' (str "{""p"":null}") -> ~ same j j'.
Proof.
  split.
  - eexists. split; [exact ag_env|]. pose (cl := [(11, false); (9, false); (8, false); (6, false); (tBool, false)]). split; [apply (check_names _ _ _ cl); [checked|left; reflexivity|checked]|]. split; [apply (check_keys _ _ _ cl); [checked|left; reflexivity|checked]|].
    split; [apply ag_methods|]. split; [apply ag_same|]. split; [ty|]. split; [apply ag_plain; parts|]. split; [top|]. split; [found|]. split; [vm_compute; reflexivity|]. split; vm_compute; reflexivity.
  - eapply differ_trees; [apply (v_obj0 _ _ _ _ []); constructor|apply (obj_one (str "p") JNull (str "null")); [reflexivity|constructor]|].
    intro S. inversion S as [| | | | | |? ns ? F P]; subst. inversion F; subst. apply Permutation_nil in P. discriminate.
Qed.
(* a map with integer keys: Marshal returns an error *)
Lemma ex72_map : AppendJSON agE [] (Some (13, VStruct [VMap (Some [(VInt 1, VBool true)])])) = Ok ([], Some UInvalidType) /\
  exists c, Appender agE genG agM 13 = Ok (Some c) /\ compilesAppender agM 13 c = true /\ runAppender agE c [] (Some (VStruct [VMap (Some [(VInt 1, VBool true)])])) = Ok (str "{""m"":{""1"":true}}", None).
Proof. split; [vm_compute; reflexivity|]. eexists. split; [found|]. split; vm_compute; reflexivity. Qed.
(* 1 + 2^-52 *)
Definition near_one : float := FFin false (2 ^ 52 + 1)%Z (-52)%Z.
Definition n64 : bytes := str "1.0000000000000002220446049250313080847263336181640625".
Definition n32 : bytes := str "1." ++ repeat x30 23.
Lemma frac_number d ds : digit19 d -> forallb (fun c => (48 <=? bN c)%N && (bN c <=? 57)%N) ds = true -> ds <> [] -> rfc_number (d :: x2e :: ds).
Proof.
  intros D F N. replace (d :: x2e :: ds) with ([] ++ [d] ++ (x2e :: ds) ++ []) by (rewrite app_nil_r; reflexivity). apply rfc_num; [auto|constructor; [exact D|constructor]| |constructor]. destruct ds as [|c ds]; [congruence|]. constructor.
  apply Forall_forall. intros x I. rewrite forallb_forall in F. specialize (F x I). apply andb_prop in F as (A & B). apply N.leb_le in A. apply N.leb_le in B. split; assumption.
Qed.
Lemma near_one_json : canonical b64 near_one /\ (finite near_one -> exists g, narrow 32 near_one g /\ finite g).
Proof.
  split; [vm_compute; repeat split; try discriminate; left; discriminate|]. intros _. exists (to32 near_one). split; [right; split; [reflexivity|]; apply to32_rounded; vm_compute; discriminate|vm_compute; exact Logic.I].
Qed.
Lemma ex72_float : differ 14 (VStruct [VFloat near_one]) (str "{""f"":" ++ n64 ++ str "}") (str "{""f"":" ++ n32 ++ str "}") /\
  forall j j', rfc_value j (str "{""f"":" ++ n64 ++ str "}") -> rfc_value j' (str "{""f"":" ++ n32 ++ str "}") -> ~ same j j'.
Proof.
  split.
  - eexists. split; [exact ag_env|]. pose (cl := [(14, false); (tFloat64, false)]). split; [apply (check_names _ _ _ cl); [checked|left; reflexivity|checked]|]. split; [apply (check_keys _ _ _ cl); [checked|left; reflexivity|checked]|].
    split; [apply ag_methods|]. split; [apply ag_same|]. split; [ty|].
    split.
    { split; [apply finite_list; parts; split; [exact (proj1 near_one_json)|exact Logic.I]|]. split.
      - assert (H : forall x, inside (VStruct [VFloat near_one]) x -> match x with VFloat f => canonical b64 f /\ (finite f -> exists g, narrow 32 f g /\ finite g) | _ => True end) by (parts; exact near_one_json). intros f I. exact (H _ I).
      - assert (H : forall x, inside (VStruct [VFloat near_one]) x -> match x with VIface _ => False | _ => True end) by parts. intros dt x I. destruct (H _ I). }
    split; [top|]. split; [found|]. split; [vm_compute; reflexivity|]. split; vm_compute; reflexivity.
  - eapply differ_trees; [apply (obj_one (str "f") (JNum n64) n64); [reflexivity|apply v_num; apply frac_number; [vm_compute; split; discriminate|reflexivity|discriminate]]|apply (obj_one (str "f") (JNum n32) n32); [reflexivity|apply v_num; apply frac_number; [vm_compute; split; discriminate|reflexivity|discriminate]]|].
    intro S. apply same_one in S. inversion S.
Qed.
Lemma ex72_fields : kindOf agE 10 = Some (KStruct fs10) /\ lists 0 fs10 (fieldsOf agM 10) /\ Forall (tidy agE) fs10 /\ usual genG fs10 /\ distinct genG (fieldsOf agM 10).
Proof.
  assert (K : kindOf agE 10 = Some (KStruct fs10)) by reflexivity. split; [exact K|]. split; [apply (ag_lists fs10 0)|]. split; [exact (ag_tidy 10 fs10 K)|]. split; [apply ag_usual|exact (ag_distinct 10 fs10 K)].
Qed.
Lemma C72_nil_lem : exists E G M t v w w' c, (wf_types E /\ paths_ok E M /\ ftoa_spec (ftoa E) /\ walks_maps E /\ methods_return E /\ methods_write_json E /\ embeds_structs E /\ tags_json E defaultOptions) /\
  names_json E G M t /\ plain_keys E G M t /\ no_methods E G M t /\ same_fields E G M t /\ typed E t v /\ (finite_floats v /\ floats_json v /\ tops_ok E v) /\ top_ok E t v /\ v = VStruct [VPtr None] /\
  Appender E G M t = Ok (Some c) /\ compilesAppender M t c = true /\ runAppender E c [] (Some v) = Ok (w, None) /\ AppendJSON E [] (Some (t, v)) = Ok (w', None) /\
  forall j j', rfc_value j w -> rfc_value j' w' -> ~ same j j'.
Proof. destruct ex72_nil as ((c & A1 & A2 & A3 & A4 & A5 & A6 & A7 & A8 & A9 & A10 & A11 & A12) & N). exists agE, genG, agM, 11. do 3 eexists. exists c. repeat (split; [first [eassumption|reflexivity]|]). exact N. Qed.
Lemma C72_float_lem : exists E G M t v w w' c, (wf_types E /\ paths_ok E M /\ ftoa_spec (ftoa E) /\ walks_maps E /\ methods_return E /\ methods_write_json E /\ embeds_structs E /\ tags_json E defaultOptions) /\
  names_json E G M t /\ plain_keys E G M t /\ no_methods E G M t /\ same_fields E G M t /\ typed E t v /\ (finite_floats v /\ floats_json v /\ tops_ok E v) /\ top_ok E t v /\ (exists f, v = VStruct [VFloat f]) /\
  Appender E G M t = Ok (Some c) /\ compilesAppender M t c = true /\ runAppender E c [] (Some v) = Ok (w, None) /\ AppendJSON E [] (Some (t, v)) = Ok (w', None) /\
  forall j j', rfc_value j w -> rfc_value j' w' -> ~ same j j'.
Proof. destruct ex72_float as ((c & A1 & A2 & A3 & A4 & A5 & A6 & A7 & A8 & A9 & A10 & A11 & A12) & N). exists agE, genG, agM, 14. do 3 eexists. exists c. repeat (split; [first [eassumption|eexists; reflexivity]|]). exact N. Qed.
