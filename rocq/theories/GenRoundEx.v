(* Concrete types and values for C63. *)
From Coq Require Import Permutation.
From Verif Require Import FloatSpec NumSpec FmtSpec StrSpec Bytes Types JsonSpec Parser Doc DocSpec DocProofs DocDec DocExamples Strjson Float Num NumInt FmtThms Iface IfaceSpec Options Codec CodecSpec CodecMerge CodecBase CodecBuild CodecEnc CodecJson CodecExamples CodecOmit ParserThms
  DecodeSpec DecodeTree DecodeThms DecodeExamples RoundSpec RoundThms RoundExamples MethodSpec MethodThms MethodExamples Coder CoderSpec CoderThms CoderExamples Gen GenSpec GenMake GenMakeU GenApp GenDec GenRound GenExamples.
Local Open Scope nat_scope.

(* 6 int64, 7 []string, 8 struct{X int64 "x"; Y float64 "y"}, 9 *T8, 10 struct{ID int64 "id"; Name string "name,omitempty";
   Tags []string "tags"; P *T8 "p"}, 11 int64 with MarshalText and UnmarshalText, 12 []*T8,
   13 struct{*T8; N T11 "n"; V T10 "v"; L []*T8 "l"}, 14 struct{}, 15 *struct{}, 16 struct{E *struct{} "e"; X int64 "x"},
   17 struct{A int64 "x,b"; B int64 "x,a"} *)
Definition rtE : env :=
  mkEnv [plainT (KInt 64); plainT (KSlice tString); plainT (KStruct [tagged (str "X") 6 (str "x"); tagged (str "Y") tFloat64 (str "y")]); plainT (KPtr 8);
      plainT (KStruct [tagged (str "ID") 6 (str "id"); tagged (str "Name") tString (str "name,omitempty"); tagged (str "Tags") 7 (str "tags"); tagged (str "P") 9 (str "p")]);
      mkT (KInt 64) textMU textMU; plainT (KSlice 9); plainT (KStruct [emb (str "T8") 9; tagged (str "N") 11 (str "n"); tagged (str "V") 10 (str "v"); tagged (str "L") 12 (str "l")]);
      plainT (KStruct []); plainT (KPtr 14); plainT (KStruct [tagged (str "E") 15 (str "e"); tagged (str "X") 6 (str "x")]); plainT (KStruct [tagged (str "A") 6 (str "x,b"); tagged (str "B") 6 (str "x,a")])]
    (fun _ _ b => Ok (b, Some UValue)) (fun _ _ => Ok (Some (str "true"), None)) (fun _ v => match v with VInt z => Ok (if (z =? 7)%Z then str "seven" else str "zero", None) | _ => Ok ([], Some UValue) end)
    (fun _ _ => Ok false) (fun _ _ => Ok true) (fun _ v _ _ => Ok (v, Some UValue)) (fun _ v _ => Ok (v, Some UValue))
    (fun t v s => if (t =? 11)%nat then if bseqb s (str "seven") then Ok (VInt 7, None) else Ok (VInt 0, None) else Ok (v, Some UValue)) (fun _ => None) exact_ftoa (fun _ m => m).
Definition rtM : genv :=
  mkGE (fun t => if (t =? 13)%nat then [mf (str "X") [0; -1; 0]%Z 6 (str "x"); mf (str "Y") [0; -1; 1]%Z tFloat64 (str "y"); mf (str "N") [1]%Z 11 (str "n"); mf (str "V") [2]%Z 10 (str "v"); mf (str "L") [3]%Z 12 (str "l")] else flat rtE t)
    (fun _ => false) (fun _ => false) (fun _ => inr UValue) (fun _ => false) (fun _ => false).
(* another order of the fields *)
Definition rtM' : genv := mkGE (fun t => rev (fieldsOf rtM t)) (isTime rtM) (isDuration rtM) (parseTime rtM) (hasAppend rtM) (hasUnmarshal rtM).

Definition rt_rank (t : tid) : nat := match t with 8 | 10 | 16 | 17 => 1 | 13 => 2 | _ => 0 end.
Lemma rt_wf : wf_types rtE.
Proof. apply (check_wf rtE rt_rank); [intro t; do 18 (destruct t as [|t]; [cbn; lia|]); cbn; lia|vm_compute; reflexivity]. Qed.
Lemma rt_paths : paths_ok rtE rtM.
Proof.
  intros t fs f K I. cbn [fieldsOf rtM] in I. destruct (t =? 13)%nat eqn:E13; [|eapply flat_ok; eauto]. apply Nat.eqb_eq in E13. subst t.
  assert (W8 : forall i g, nth_error [tagged (str "X") 6 (str "x"); tagged (str "Y") tFloat64 (str "y")] i = Some g -> walks rtE 13 [0; -1; Z.of_nat i]%Z (ftype g)).
  { intros i g N. change 0%Z with (Z.of_nat 0). eapply wk_field; [reflexivity|reflexivity|]. eapply wk_ptr; [reflexivity|]. eapply wk_field; [reflexivity|exact N|constructor]. }
  destruct I as [<-|[<-|[<-|[<-|[<-|[]]]]]]; (split; [|discriminate]); [apply (W8 0 _ eq_refl)|apply (W8 1 _ eq_refl)| | |];
    [change [1]%Z with [Z.of_nat 1]|change [2]%Z with [Z.of_nat 2]|change [3]%Z with [Z.of_nat 3]]; (eapply wk_field; [reflexivity|reflexivity|constructor]).
Qed.
Lemma rt_paths' : paths_ok rtE rtM'.
Proof. intros t fs f K I. apply (rt_paths t fs f K). cbn [fieldsOf rtM'] in I. apply in_rev in I. exact I. Qed.
Lemma rt_points : no_point_loop rtE.
Proof.
  apply (check_points rtE (fun t => match t with 4 | 7 | 9 | 15 => 1 | 12 => 2 | _ => 0 end)).
  pose proof (check_kind rtE (fun t k => match k with KPtr e | KSlice e => (match e with 4 | 7 | 9 | 15 => 1 | 12 => 2 | _ => 0 end) <? (match t with 4 | 7 | 9 | 15 => 1 | 12 => 2 | _ => 0 end) | _ => true end) ltac:(vm_compute; reflexivity)) as C.
  intros t e [u x K|u x K]; apply C in K; apply Nat.ltb_lt; exact K.
Qed.
Lemma rt_returns : methods_return rtE.
Proof. repeat split; intros; try (eexists; reflexivity). cbn [callText rtE]. destruct v; eexists; reflexivity. Qed.
Lemma rt_unmarshals : unmarshalers_return rtE rtM'.
Proof.
  split; [intros; eexists _, _; split; [reflexivity|assumption]|]. split; [|discriminate].
  intros t v s T. cbn [callTextU rtE]. destruct (t =? 11)%nat eqn:E11; [|eexists _, _; split; [reflexivity|assumption]]. apply Nat.eqb_eq in E11. subst t. destruct (bseqb s (str "seven")); eexists _, _; (split; [reflexivity|ty]).
Qed.

(* [paired], by computation, for structs without two fields of one name *)
Fixpoint apartB (p q : list Z) : bool := match p, q with i :: p, j :: q => if (i =? j)%Z then apartB p q else true | _, _ => false end.
Lemma apartB_ok p q : apartB p q = true -> apart p q.
Proof.
  revert q. induction p as [|i p IH]; intros [|j q] H; try discriminate. cbn [apartB] in H. destruct (i =? j)%Z eqn:Q.
  - apply Z.eqb_eq in Q. subst j. destruct (IH q H) as (a & x & y & p' & q' & -> & -> & N). exists (i :: a), x, y, p', q'. auto.
  - apply Z.eqb_neq in Q. exists [], i, j, p, q. auto.
Qed.
Definition named (G : gopts) (l : list mfield) : list (bytes * list bytes * mfield) := flat_map (fun f => match parseVar G f with Some (n, ps) => [(n, ps, f)] | None => [] end) l.
Lemma named_In G l n ps f : In f l -> parseVar G f = Some (n, ps) -> In (n, ps, f) (named G l).
Proof. intros I P. apply in_flat_map. exists f. split; auto. rewrite P. left. reflexivity. Qed.
Definition pairedB (E : env) (G : gopts) (M M' : genv) (p : tid * bool) : bool :=
  match typeOf E (fst p) with
  | None => true
  | Some T => isAppender (tmeth T) || isJSON (tmeth T) || isText (tmeth T) ||
      byKind E M' (fst p) && match tkind T with
        | KStruct _ => let l := named G (fieldsOf M (fst p)) in let l' := named G (fieldsOf M' (fst p)) in
            (if list_eq_dec (list_eq_dec byte_eq_dec) (nodup (list_eq_dec byte_eq_dec) (map (fun c => fst (fst c)) l')) (map (fun c => fst (fst c)) l') then true else false) &&
            forallb (fun c => (mtype (snd c) <? length (types E)) && canB E (mtype (snd c)) && forallb (fun d => bseqb (fst (fst c)) (fst (fst d)) || apartB (mpath (snd c)) (mpath (snd d))) l) l
        | _ => true
        end
  end.
Lemma named_app G a b : named G (a ++ b) = named G a ++ named G b.
Proof. apply flat_map_app. Qed.
Lemma check_paired E G M M' l t : wf_types E -> no_point_loop E -> (forall u f, In f (fieldsOf M u) <-> In f (fieldsOf M' u)) -> closedA E G M l = true -> In (t, false) l -> forallb (pairedB E G M M') l = true -> paired E G M M' t.
Proof.
  intros WF NP Q C I N u raw T S0 ET (N1 & N2 & N3). apply (star_closed _ _ _ _ _ _ C I) in S0. rewrite forallb_forall in N. specialize (N _ S0). unfold pairedB in N. cbn [fst] in N. rewrite ET, N1, N2, N3 in N. cbn [orb] in N.
  apply andb_prop in N as (B & N). split.
  - unfold byKind in B. rewrite ET in B. unfold by_kind_u, no_unmarshaler. destruct (isTime M' u), (isDuration M' u), (isNodeU (tptr T)), (isJSONU (tptr T)), (isTextU (tptr T)); try discriminate. auto.
  - intros fs K. rewrite K in N. apply andb_prop in N as (N4 & N5). rewrite forallb_forall in N5.
    assert (Ln : forall n ps f, leads G (fieldsOf M u) n ps f -> In f (fieldsOf M u) /\ parseVar G f = Some (n, ps) /\ In (n, ps, f) (named G (fieldsOf M u))).
    { intros n ps f L. pose proof (leads_In _ _ _ _ _ L) as If. destruct L as (a & b & _ & PV & _). split; auto. split; auto. apply named_In; auto. }
    split.
    + intros n ps f L. destruct (Ln _ _ _ L) as (If & PV & Inn). specialize (N5 _ Inn). cbn [fst snd] in N5. apply andb_prop in N5 as (N5 & _). apply andb_prop in N5 as (Lt & Ca). apply Nat.ltb_lt in Lt.
      apply (proj2 (canB_spec E WF NP _ Lt)) in Ca. destruct (in_split f (fieldsOf M' u) (proj1 (Q u f) If)) as (a & b & El). exists a, b. split; auto. split; auto. split; auto.
      intros g ps' Ig PG _. rewrite El in N4. destruct (list_eq_dec _ _ _) as [ND|]; [|discriminate]. rewrite named_app, map_app in ND.
      assert (NoDup (map (fun c => fst (fst c)) (named G a) ++ map (fun c => fst (fst c)) (named G (f :: b)))) as D by (rewrite <- ND; apply NoDup_nodup).
      cbn [named flat_map] in D. rewrite PV in D. cbn [map app fst] in D. apply NoDup_remove_2 in D. apply D. apply in_or_app. left. change n with (fst (fst (n, ps', g))). apply in_map with (f := fun c => fst (fst c)). apply named_In; auto.
    + intros n ps f n' ps' f' L L'. destruct (Ln _ _ _ L) as (_ & _ & I1). destruct (Ln _ _ _ L') as (_ & _ & I2). specialize (N5 _ I1). apply andb_prop in N5 as (_ & N5). rewrite forallb_forall in N5. specialize (N5 _ I2). cbn [fst snd] in N5.
      apply orb_prop in N5 as [N5|N5]; [left; apply bseqb_true; exact N5|right; apply apartB_ok; exact N5].
Qed.

Definition v10 : gv := VStruct [VInt (-3); VString []; VSlice (Some ([VString [x61; x22; x62]; VString (str "c")], [])); VPtr (Some (VStruct [VInt 1; VFloat two]))].
Definition v13 : gv := VStruct [VPtr (Some (VStruct [VInt 5; VFloat two])); VInt 7; v10; VSlice (Some ([VPtr None; VPtr (Some (VStruct [VInt 6; VFloat two]))], [VPtr None]))].
Definition z10 : gv := VStruct [VInt 0; VString []; VSlice None; VPtr None].
Definition z13 : gv := VStruct [VPtr None; VInt 0; z10; VSlice None].
Definition out13 : bytes := str "{""l"":[null,{""x"":6,""y"":2." ++ repeat x30 51 ++ str "}],""n"":""seven"",""v"":{""id"":-3,""p"":{""x"":1,""y"":2." ++ repeat x30 51 ++ str "},""tags"":[""a\""b"",""c""]},""x"":5,""y"":2." ++ repeat x30 51 ++ str "}".
Definition closed13 : list (tid * bool) := [(13, false); (10, false); (6, false); (tString, false); (7, false); (9, false); (8, false); (tFloat64, false); (11, false); (12, false)].

Lemma rt_fields u f : In f (fieldsOf rtM u) <-> In f (fieldsOf rtM' u).
Proof. cbn [fieldsOf rtM']. apply in_rev. Qed.
Lemma rt_names l t : closedA rtE genG rtM l = true -> In (t, false) l -> forallb (namesOk rtE genG rtM) l = true -> names_json rtE genG rtM t.
Proof. apply check_names. Qed.
Lemma rt_paired l t : closedA rtE genG rtM l = true -> In (t, false) l -> forallb (pairedB rtE genG rtM rtM') l = true -> paired rtE genG rtM rtM' t.
Proof. apply check_paired; [exact rt_wf|exact rt_points|exact rt_fields]. Qed.
(* every value that a struct is written with survives *)
Lemma rt_struct t fs l : written_kind rtE t (KStruct fs) -> Forall (fun c => exists x, reaches (VStruct l) (mpath (snd c)) x /\ (left_out rtE genG (snd (fst c)) (mtype (snd c)) x \/ gsurvives rtE genG rtM rtM' (mtype (snd c)) x)) (named genG (fieldsOf rtM t)) ->
  gsurvives rtE genG rtM rtM' t (VStruct l).
Proof.
  intros K F. eapply gs_struct; [exact K|]. intros name params f x L R N. pose proof (leads_In _ _ _ _ _ L) as If. destruct L as (a & b & _ & PV & _). rewrite Forall_forall in F. destruct (F _ (named_In _ _ _ _ _ If PV)) as (y & Ry & H).
  cbn [fst snd] in *. rewrite (reaches_same _ _ _ _ R Ry) in *. destruct H; [contradiction|assumption].
Qed.
Ltac wkind := eexists; split; [reflexivity|]; split; [repeat split; reflexivity|reflexivity].
Lemma two_back : gsurvives rtE genG rtM rtM' tFloat64 (VFloat two).
Proof. eapply gs_float64; [wkind|exact (proj1 two_fine)|exact (proj2 two_fine)|found|vm_compute; reflexivity]. Qed.
Ltac reach63 := repeat (first [eapply rc_here|eapply rc_ptr|eapply (rc_field _ 0); [reflexivity|]|eapply (rc_field _ 1); [reflexivity|]|eapply (rc_field _ 2); [reflexivity|]|eapply (rc_field _ 3); [reflexivity|]]).
Lemma seven_undone : undone rtE genG rtM rtM' 11 (VInt 7).
Proof.
  eexists. split; [reflexivity|]. split; [intros (_ & _ & H); discriminate|]. split; [discriminate|]. split; [intros _; discriminate|]. split.
  - intros _ _ _. exists (str "seven"). split; [reflexivity|]. split; [apply chars_ok; reflexivity|plainstr].
  - intros j Sh. right. right. split; [eexists; split; [reflexivity|]; repeat split; reflexivity|]. exists (str "seven"). split.
    + inversion Sh as [? ? ? ? ? ? ET A|? ? ? ? ? ET A1 A|? ? ? w ET A1 A2 A3 Cl|? ? ? ? ET A]; subst; try (injection ET as <-; discriminate); [injection Cl as <-; reflexivity|]. injection ET as <-. destruct A as (_ & _ & A). discriminate.
    + intros z _. reflexivity.
Qed.
Ltac survives63 := first [ eapply gs_int; [wkind|apply rep53; vm_compute; discriminate] | exact two_back | apply gs_string; [wkind|asciistr|plainstr] | eapply gs_ptr_nil; wkind | eapply gs_slice_nil; wkind | eapply gs_slice; [wkind|]
  | eapply gs_ptr; [wkind|wkind|] | apply gs_method; exact seven_undone | apply Forall_cons | apply Forall_nil | eapply rt_struct; [wkind|] ].
Ltac fields63 := eapply rt_struct; [wkind|]; match goal with |- Forall _ ?l => let r := eval vm_compute in l in change l with r end;
  repeat (apply Forall_cons; [eexists; split; [cbn [mpath snd]; reach63|]|]); try apply Forall_nil; cbn [fst snd mtype].
Lemma v8_back z : (Z.abs z <= 2 ^ 53)%Z -> gsurvives rtE genG rtM rtM' 8 (VStruct [VInt z; VFloat two]).
Proof. intro H. fields63; right; [eapply gs_int; [wkind|apply rep53; exact H]|exact two_back]. Qed.
Lemma v10_back : gsurvives rtE genG rtM rtM' 10 v10.
Proof.
  unfold v10. fields63.
  - right. survives63.
  - left. right. split; [left; reflexivity|]. eapply va_value; [reflexivity|reflexivity|discriminate|discriminate|constructor].
  - right. repeat survives63.
  - right. eapply gs_ptr; [wkind|wkind|]. apply v8_back. vm_compute. discriminate.
Qed.
Lemma v13_back : gsurvives rtE genG rtM rtM' 13 v13.
Proof.
  unfold v13. fields63.
  - right. survives63.
  - right. survives63.
  - right. apply gs_method. exact seven_undone.
  - right. exact v10_back.
  - right. eapply gs_slice; [wkind|]. apply Forall_cons; [eapply gs_ptr_nil; wkind|]. apply Forall_cons; [|apply Forall_nil]. eapply gs_ptr; [wkind|wkind|]. apply v8_back. vm_compute. discriminate.
Qed.
Ltac blank63 := repeat (first [eapply bl_bool; reflexivity|eapply bl_int; reflexivity|eapply bl_float; right; reflexivity|eapply bl_string; reflexivity|eapply bl_ptr; reflexivity|eapply bl_slice; reflexivity|eapply bl_struct; [reflexivity|]|constructor]).
Lemma ex63_lem : wf_types rtE /\ paths_ok rtE rtM /\ paths_ok rtE rtM' /\ no_point_loop rtE /\ ftoa_spec (ftoa rtE) /\ walks_maps rtE /\ methods_return rtE /\ unmarshalers_return rtE rtM' /\
  names_json rtE genG rtM 13 /\ paired rtE genG rtM rtM' 13 /\ (exists fs, written_kind rtE 13 (KStruct fs)) /\ typed rtE 13 v13 /\ gsurvives rtE genG rtM rtM' 13 v13 /\ blank rtE 13 z13 /\
  exists ca cu, Appender rtE genG rtM 13 = Ok (Some ca) /\ compilesAppender rtM 13 ca = true /\ Unmarshaler rtE genG rtM' 13 = Ok (Some cu) /\ compilesUnmarshaler rtM' 13 cu = true /\
    runAppender rtE ca [] (Some v13) = Ok (out13, None) /\
    exists v', runUnmarshaler rtE rtM' (worldOf out13) cu z13 (nodeOf out13) = Ok (v', None) /\ v' = VStruct [VPtr (Some (VStruct [VInt 5; VFloat two])); VInt 7; v10; VSlice (Some ([VPtr None; VPtr (Some (VStruct [VInt 6; VFloat two]))], []))].
Proof.
  split; [exact rt_wf|]. split; [exact rt_paths|]. split; [exact rt_paths'|]. split; [exact rt_points|]. split; [exact exact_spec|]. split; [intros b m; apply Permutation_refl|]. split; [exact rt_returns|]. split; [exact rt_unmarshals|].
  split; [apply (rt_names closed13); [checked|left; reflexivity|checked]|]. split; [apply (rt_paired closed13); [checked|left; reflexivity|checked]|]. split; [eexists; wkind|]. split; [unfold v13, v10; ty|]. split; [exact v13_back|]. split; [unfold z13, z10; blank63|].
  do 2 eexists. split; [found|]. split; [checked|]. split; [found|]. split; [checked|]. split; [checked|]. eexists. split; [found|]. vm_compute. reflexivity.
Qed.
Lemma rt_unmarshals0 : unmarshalers_return rtE rtM.
Proof. exact rt_unmarshals. Qed.
(* an integer that is no float64 value *)
Definition big : Z := 9007199254740993%Z.
Lemma gagree_int E G M t z v : gagree E G M t (VInt z) v -> v = VInt z.
Proof. inversion 1; reflexivity. Qed.
Lemma gagree_ptr E G M t x v : gagree E G M t (VPtr (Some x)) v -> v <> VPtr None.
Proof. inversion 1; discriminate. Qed.
Lemma gagree_field E G M t l l' name params f x : leads G (fieldsOf M t) name params f -> reaches (VStruct l) (mpath f) x -> ~ left_out E G params (mtype f) x -> gagree E G M t (VStruct l) (VStruct l') ->
  exists y, reaches (VStruct l') (mpath f) y /\ gagree E G M (mtype f) x y.
Proof.
  intros L R N A. inversion A as [| | | | | |t0 fs l0 l0' K F]; subst; [exists x; split; [exact R|constructor]|]. destruct (F _ _ _ L) as (_ & H). destruct (H x R) as [(_ & H')|(O & _)]; [exact H'|contradiction].
Qed.
Ltac not_out := intros [H|(H & _)]; [discriminate H|cbn in H; intuition discriminate].
Ltac env63 := split; [exact rt_wf|]; split; [exact rt_paths|]; split; [first [exact rt_paths'|exact rt_paths]|]; split; [exact rt_points|]; split; [exact exact_spec|]; split; [intros b m; apply Permutation_refl|]; split; [exact rt_returns|]; split; [exact rt_unmarshals|].
Lemma C63_values_refuted_lem : exists E G M M' t fs ca cu v z w, wf_types E /\ paths_ok E M /\ paths_ok E M' /\ no_point_loop E /\ ftoa_spec (ftoa E) /\ walks_maps E /\ methods_return E /\ unmarshalers_return E M' /\
  names_json E G M t /\ paired E G M M' t /\ written_kind E t (KStruct fs) /\ typed E t v /\ blank E t z /\
  Appender E G M t = Ok (Some ca) /\ compilesAppender M t ca = true /\ Unmarshaler E G M' t = Ok (Some cu) /\ compilesUnmarshaler M' t cu = true /\ runAppender E ca [] (Some v) = Ok (w, None) /\
  exists W n v', Document_Parse [mkDoc [] 0%N] 0 w = Ok (W, (n, [], None)) /\ runUnmarshaler E M' W cu z n = Ok (v', None) /\ ~ gagree E G M t v v'.
Proof.
  exists rtE, genG, rtM, rtM', 8. do 3 eexists. exists (VStruct [VInt big; VFloat two]), (VStruct [VInt 0; VFloat zeroF]). eexists. env63.
  split; [apply (rt_names [(8, false); (6, false); (tFloat64, false)]); [checked|left; reflexivity|checked]|]. split; [apply (rt_paired [(8, false); (6, false); (tFloat64, false)]); [checked|left; reflexivity|checked]|].
  split; [wkind|]. split; [ty|]. split; [blank63|]. split; [found|]. split; [checked|]. split; [found|]. split; [checked|]. split; [found|]. do 3 eexists. split; [found|]. split; [found|].
  intro A. eapply (gagree_field _ _ _ _ _ _ (str "x") [] (mf (str "X") [0]%Z 6 (str "x"))) in A; [|exists [], [mf (str "Y") [1]%Z tFloat64 (str "y")]; split; [reflexivity|]; split; [reflexivity|]; split; [intros ? ? []|intros g ps [<-|[]] H; discriminate H]|reach63|not_out]. destruct A as (y & R & A). apply gagree_int in A. subst y.
  eapply reaches_same in R; [|cbn [mpath mf]; reach63]. vm_compute in R. discriminate R.
Qed.
(* a pointer to an empty struct is written and not read *)
Lemma C63_paired_refuted_lem : exists E G M M' t fs ca cu v z w, wf_types E /\ paths_ok E M /\ paths_ok E M' /\ no_point_loop E /\ ftoa_spec (ftoa E) /\ walks_maps E /\ methods_return E /\ unmarshalers_return E M' /\
  names_json E G M t /\ written_kind E t (KStruct fs) /\ typed E t v /\ gsurvives E G M M' t v /\ blank E t z /\
  Appender E G M t = Ok (Some ca) /\ compilesAppender M t ca = true /\ Unmarshaler E G M' t = Ok (Some cu) /\ compilesUnmarshaler M' t cu = true /\ runAppender E ca [] (Some v) = Ok (w, None) /\
  exists W n v', Document_Parse [mkDoc [] 0%N] 0 w = Ok (W, (n, [], None)) /\ runUnmarshaler E M' W cu z n = Ok (v', None) /\ ~ gagree E G M t v v'.
Proof.
  exists rtE, genG, rtM, rtM', 16. do 3 eexists. exists (VStruct [VPtr (Some (VStruct [])); VInt 1]), (VStruct [VPtr None; VInt 0]). eexists. env63.
  split; [apply (rt_names [(16, false); (15, false); (14, false); (6, false)]); [checked|left; reflexivity|checked]|].
  split; [wkind|]. split; [ty|]. split; [fields63; right; [eapply gs_ptr; [wkind|wkind|]; fields63|survives63]|]. split; [blank63|]. split; [found|]. split; [checked|]. split; [found|]. split; [checked|]. split; [found|]. do 3 eexists. split; [found|]. split; [found|].
  intro A. eapply (gagree_field _ _ _ _ _ _ (str "e") [] (mf (str "E") [0]%Z 15 (str "e"))) in A; [|exists [], [mf (str "X") [1]%Z 6 (str "x")]; split; [reflexivity|]; split; [reflexivity|]; split; [intros ? ? []|intros g ps [<-|[]] H; discriminate H]|reach63|not_out]. destruct A as (y & R & A). apply gagree_ptr in A.
  eapply reaches_same in R; [|cbn [mpath mf]; reach63]. congruence.
Qed.
(* two fields of one name: the second is written and the first is read *)
Lemma C63_names_refuted_lem : exists E G M t fs ca cu v z w, wf_types E /\ paths_ok E M /\ no_point_loop E /\ ftoa_spec (ftoa E) /\ walks_maps E /\ methods_return E /\ unmarshalers_return E M /\
  names_json E G M t /\ written_kind E t (KStruct fs) /\ typed E t v /\ gsurvives E G M M t v /\ blank E t z /\
  Appender E G M t = Ok (Some ca) /\ compilesAppender M t ca = true /\ Unmarshaler E G M t = Ok (Some cu) /\ compilesUnmarshaler M t cu = true /\ runAppender E ca [] (Some v) = Ok (w, None) /\
  exists W n v', Document_Parse [mkDoc [] 0%N] 0 w = Ok (W, (n, [], None)) /\ runUnmarshaler E M W cu z n = Ok (v', None) /\ ~ gagree E G M t v v'.
Proof.
  exists rtE, genG, rtM, 17. do 3 eexists. exists (VStruct [VInt 1; VInt 2]), (VStruct [VInt 0; VInt 0]). eexists. split; [exact rt_wf|]. split; [exact rt_paths|]. split; [exact rt_points|]. split; [exact exact_spec|]. split; [intros b m; apply Permutation_refl|]. split; [exact rt_returns|]. split; [exact rt_unmarshals|].
  split; [apply (rt_names [(17, false); (6, false)]); [checked|left; reflexivity|checked]|]. split; [wkind|]. split; [ty|].
  split; [eapply gs_struct; [wkind|]; intros name params f x L R _; apply leads_In in L; destruct L as [<-|[<-|[]]]; (eapply reaches_same in R; [|cbn [mpath]; reach63]); subst x; (eapply gs_int; [wkind|apply rep53; vm_compute; discriminate])|].
  split; [blank63|]. split; [found|]. split; [checked|]. split; [found|]. split; [checked|]. split; [found|]. do 3 eexists. split; [found|]. split; [found|].
  intro A. eapply (gagree_field _ _ _ _ _ _ (str "x") [str "a"] (mf (str "B") [1]%Z 6 (str "x,a"))) in A; [|exists [mf (str "A") [0]%Z 6 (str "x,b")], []; split; [reflexivity|]; split; [reflexivity|]; split; [intros g ps [<-|[]] _; reflexivity|intros ? ? []]|reach63|not_out].
  destruct A as (y & R & A). apply gagree_int in A. subst y. eapply reaches_same in R; [|cbn [mpath mf]; reach63]. vm_compute in R. discriminate R.
Qed.
