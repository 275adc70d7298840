(* Concrete types, options and values for C60 to C62. *)
From Coq Require Import Permutation.
From Verif Require Import FloatSpec NumSpec FmtSpec StrSpec Bytes Types JsonSpec Parser Doc DocSpec DocProofs DocDec DocExamples Strjson Float Num NumInt FmtThms Iface IfaceSpec Options Codec CodecSpec CodecMerge CodecBase CodecBuild CodecEnc CodecJson CodecExamples ParserThms
  DecodeSpec DecodeTree DecodeThms DecodeExamples RoundSpec RoundThms RoundExamples MethodSpec MethodThms MethodExamples Coder CoderSpec CoderThms CoderExamples Gen GenSpec GenMake GenMakeU GenApp GenDec.
Local Open Scope nat_scope.

(* 6 int64, 7 []string, 8 struct{X int64 "x"; Y float64 "y"}, 9 *T8, 10 struct{ID int64 "id"; Name string "name,omitempty";
   Tags []string "tags"; P *T8 "p"}, 11 map[int64]bool, 12 struct{M T11 "m"}, 13 map[string]int64, 14 struct{M T13 "m"},
   15 [2]int64, 16 struct{A T15 "a"}, 17 struct{Next *T17 "next"}, 18 *T17, 19 a string type, 20 struct{N T19 "n"},
   21 *int64, 22 struct{P *int64 "p"}, 23 struct{}, 24 struct{E T23 "e"}, 25 int64 with UnmarshalNodeJSON on the pointer,
   26 struct{N T25 "n"}, 27 struct{A interface{} "a"}, 28 time.Duration, 29 struct{D T28 "d"}, 30 struct{*T8; Z int64 "z"},
   31 struct{S string "s,raw"}, 32 struct{A int64; B int64}, both tagged "x", 33 struct{F float64 "f"}, 34 time.Time,
   35 struct{T T34 "t"; N T36 "n"}, 36 int64 with MarshalText and UnmarshalText, 37 []int64, 38 struct{L T37 "l"; S T8 "s"; N string "n"},
   39 struct{A int64; B string}, untagged, 40 struct{S T8 "s,omitempty"} *)
Definition appendM : mset := mkM true false false false false false (fun _ => false).
Definition genE : env :=
  mkEnv [plainT (KInt 64); plainT (KSlice tString); plainT (KStruct [tagged (str "X") 6 (str "x"); tagged (str "Y") tFloat64 (str "y")]); plainT (KPtr 8);
      plainT (KStruct [tagged (str "ID") 6 (str "id"); tagged (str "Name") tString (str "name,omitempty"); tagged (str "Tags") 7 (str "tags"); tagged (str "P") 9 (str "p")]);
      plainT (KMap 6 tBool); plainT (KStruct [tagged (str "M") 11 (str "m")]); plainT (KMap tString 6); plainT (KStruct [tagged (str "M") 13 (str "m")]);
      plainT (KArray 2 6); plainT (KStruct [tagged (str "A") 15 (str "a")]); plainT (KStruct [tagged (str "Next") 18 (str "next")]); plainT (KPtr 17); plainT KString; plainT (KStruct [tagged (str "N") 19 (str "n")]);
      plainT (KPtr 6); plainT (KStruct [tagged (str "P") 21 (str "p")]); plainT (KStruct []); plainT (KStruct [tagged (str "E") 23 (str "e")]); mkT (KInt 64) noMethods (mkM false false false true false false (fun _ => false));
      plainT (KStruct [tagged (str "N") 25 (str "n")]); plainT (KStruct [tagged (str "A") tIface (str "a")]); plainT (KInt 64); plainT (KStruct [tagged (str "D") 28 (str "d")]); plainT (KStruct [emb (str "T8") 9; tagged (str "Z") 6 (str "z")]);
      plainT (KStruct [tagged (str "S") tString (str "s,raw")]); plainT (KStruct [tagged (str "A") 6 (str "x"); tagged (str "B") 6 (str "x")]); plainT (KStruct [tagged (str "F") tFloat64 (str "f")]);
      mkT (KStruct [fld (str "wall") 6]) jsonM (mkM false true false false true false (fun _ => false)); plainT (KStruct [tagged (str "T") 34 (str "t"); tagged (str "N") 36 (str "n")]); mkT (KInt 64) textMU textMU;
      plainT (KSlice 6); plainT (KStruct [tagged (str "L") 37 (str "l"); tagged (str "S") 8 (str "s"); tagged (str "N") tString (str "n")]); plainT (KStruct [fld (str "A") 6; fld (str "B") tString]);
      plainT (KStruct [tagged (str "S") 8 (str "s,omitempty")]); plainT (KPtr 23); plainT (KPtr 41); plainT (KStruct [tagged (str "P") 42 (str "p")]); plainT (KMap tIface 6); plainT (KStruct [tagged (str "M") 44 (str "m")]);
      mkT (KStruct [emb (str "T47") 47]) appendM appendM; mkT (KInt 64) appendM appendM; plainT (KStruct [tagged (str "A") 6 (str "a\tb")])]
    (fun _ _ b => Ok (b, Some UValue)) (fun _ _ => Ok (Some (str "true"), None))
    (fun _ v => match v with VInt 0 => Ok (str "zero", None) | VInt _ => Ok (str "some", None) | _ => Ok ([], Some UValue) end) (fun _ _ => Ok false) (fun _ _ => Ok true)
    (fun _ v _ _ => Ok (v, Some UValue)) (fun _ v _ => Ok (v, Some UValue)) (fun t v s => match s with [] => Ok (v, Some UValue) | _ => Ok (if (t =? 36)%nat then VInt 7 else v, None) end)
    (fun _ => None) exact_ftoa (fun _ m => m).
Definition genG : gopts := mkG (str "json") (str "Omit") true false false (fun _ => true) (fun s => s).
(* the fields of a struct that embeds none *)
Fixpoint flatten (i : nat) (fs : list sfield) : list mfield :=
  match fs with [] => [] | f :: r => mkMF (fname f) true [Z.of_nat i] (ftype f) (ftag f) (flookup f) :: flatten (S i) r end.
Definition flat (E : env) (t : tid) : list mfield := match kindOf E t with Some (KStruct fs) => flatten 0 fs | _ => [] end.
Definition mf (n : bytes) (path : list Z) (t : tid) (tag : bytes) : mfield := let f := tagged n t tag in mkMF n true path t (ftag f) (flookup f).
Definition genM : genv :=
  mkGE (fun t => if (t =? 30)%nat then [mf (str "X") [0; -1; 0]%Z 6 (str "x"); mf (str "Y") [0; -1; 1]%Z tFloat64 (str "y"); mf (str "Z") [1]%Z 6 (str "z")] else flat genE t)
    (fun t => (t =? 34)%nat) (fun t => (t =? 28)%nat) (fun s => if bseqb s (str "now") then inl (VStruct [VInt 1]) else inr UValue) (fun _ => false) (fun _ => false).

Definition gen_rank (t : tid) : nat := match t with 8 | 10 | 12 | 14 | 15 | 17 | 20 | 22 | 24 | 26 | 27 | 29 | 30 | 31 | 32 | 33 | 34 | 39 | 43 | 45 | 46 | 48 => 1 | 16 | 35 | 38 | 40 => 2 | _ => 0 end.
Lemma gen_rank_lt t : gen_rank t < 49.
Proof. do 49 (destruct t as [|t]; [cbn; lia|]). cbn. lia. Qed.
Lemma gen_wf : wf_types genE.
Proof. apply (check_wf genE gen_rank); [exact gen_rank_lt|vm_compute; reflexivity]. Qed.
Lemma flatten_ok E t fs : kindOf E t = Some (KStruct fs) -> forall a b f, fs = a ++ b -> In f (flatten (length a) b) -> walks E t (mpath f) (mtype f) /\ mpath f <> [].
Proof.
  intros K a b. revert a. induction b as [|g b IH]; intros a f -> I; [destruct I|]. destruct I as [<-|I].
  - cbn [mpath mtype]. split; [|discriminate]. eapply wk_field; [exact K| |constructor]. rewrite nth_error_app2, Nat.sub_diag by lia. reflexivity.
  - apply (IH (a ++ [g]) f); [rewrite <- app_assoc; reflexivity|]. rewrite app_length. cbn [length]. replace (length a + 1) with (S (length a)) by lia. exact I.
Qed.
Lemma flat_ok E t fs f : kindOf E t = Some (KStruct fs) -> In f (flat E t) -> walks E t (mpath f) (mtype f) /\ mpath f <> [].
Proof. intros K I. unfold flat in I. rewrite K in I. exact (flatten_ok E t fs K [] fs f eq_refl I). Qed.
Lemma gen_paths : paths_ok genE genM.
Proof.
  intros t fs f K I. cbn [fieldsOf genM] in I. destruct (t =? 30)%nat eqn:E30; [|eapply flat_ok; eauto]. apply Nat.eqb_eq in E30. subst t.
  assert (W8 : forall i g, nth_error [tagged (str "X") 6 (str "x"); tagged (str "Y") tFloat64 (str "y")] i = Some g -> walks genE 30 [0; -1; Z.of_nat i]%Z (ftype g)).
  { intros i g N. change 0%Z with (Z.of_nat 0). eapply wk_field; [reflexivity|reflexivity|]. eapply wk_ptr; [reflexivity|]. eapply wk_field; [reflexivity|exact N|constructor]. }
  destruct I as [<-|[<-|[<-|[]]]]; (split; [|discriminate]); [apply (W8 0 _ eq_refl)|apply (W8 1 _ eq_refl)|]. change [1]%Z with [Z.of_nat 1]. eapply wk_field; [reflexivity|reflexivity|constructor].
Qed.
Lemma check_points E rank : (forall t e, points E t e -> rank e < rank t) -> no_point_loop E.
Proof.
  intros H t (b & c & _ & P & Q). apply H in P. assert (rank b <= rank c); [|lia]. clear - Q H. induction Q as [a|a b c R _ IH]; [lia|]. apply H in R. lia.
Qed.
Definition point_rank (t : tid) : nat := match t with 4 | 7 | 9 | 18 | 21 | 37 | 41 => 1 | 42 => 2 | _ => 0 end.
Lemma gen_points : no_point_loop genE.
Proof.
  apply (check_points genE point_rank). pose proof (check_kind genE (fun t k => match k with KPtr e | KSlice e => point_rank e <? point_rank t | _ => true end) ltac:(vm_compute; reflexivity)) as C.
  intros t e [u x K|u x K]; apply C in K; apply Nat.ltb_lt; exact K.
Qed.
(* the types that the code for a type is made of *)
Definition succA (E : env) (G : gopts) (M : genv) (p : tid * bool) : list (tid * bool) :=
  match typeOf E (fst p) with
  | Some T => if isAppender (tmeth T) || isJSON (tmeth T) || isText (tmeth T) then [] else
      parts (tkind T) (snd p) ++ match tkind T with KStruct _ => map (fun c => (mtype (snd c), has rawParam (snd (fst c)))) (chosen G [] (sortTags (fieldsOf M (fst p)))) | _ => [] end
  | None => []
  end.
Lemma needs_succ E G M p q : needs E G M p q -> In q (succA E G M p).
Proof.
  intros [t raw T r ET (N1 & N2 & N3) I|t raw T fs name params f ET (N1 & N2 & N3) K L]; unfold succA; cbn [fst snd]; rewrite ET, N1, N2, N3; cbn [orb]; apply in_or_app; [left; exact I|right].
  rewrite K. apply (proj1 (chosen_order G (fieldsOf M t))) in L. exact (in_map (fun c => (mtype (snd c), has rawParam (snd (fst c)))) _ _ L).
Qed.
Definition same (p q : tid * bool) : bool := (fst p =? fst q)%nat && Bool.eqb (snd p) (snd q).
Definition closedA (E : env) (G : gopts) (M : genv) (l : list (tid * bool)) : bool := forallb (fun p => forallb (fun q => existsb (same q) l) (succA E G M p)) l.
Lemma star_closed E G M l p q : closedA E G M l = true -> In p l -> star (needs E G M) p q -> In q l.
Proof.
  intros C I S. induction S as [p|p r q N _ IH]; auto. apply IH. unfold closedA in C. rewrite forallb_forall in C. specialize (C p I). rewrite forallb_forall in C. specialize (C r (needs_succ _ _ _ _ _ N)).
  apply existsb_exists in C as ([u b] & I' & Q). unfold same in Q. destruct r as [t b']. cbn [fst snd] in Q. apply andb_prop in Q as (Q1 & Q2). apply Nat.eqb_eq in Q1. apply eqb_prop in Q2. subst. exact I'.
Qed.
Definition plainOk (name : bytes) : bool := forallb (fun c => (32 <=? bN c)%N && negb (beqb c x22) && negb (beqb c x5c)) name.
Lemma plain_ok name : plainOk name = true -> plain_name name.
Proof.
  unfold plainOk, plain_name. rewrite forallb_forall, Forall_forall. intros H c I. specialize (H c I). rewrite !andb_true_iff in H. destruct H as ((A & B) & D). apply N.leb_le in A. split; [exact A|].
  destruct (beqb_spec c x22) as [->|]; [discriminate|]. destruct (beqb_spec c x5c) as [->|]; [discriminate|]. auto.
Qed.
Definition namesOk (E : env) (G : gopts) (M : genv) (p : tid * bool) : bool :=
  negb (snd p) && forallb (fun c => plainOk (fst (fst c))) (chosen G [] (sortTags (fieldsOf M (fst p)))).
Lemma check_names E G M l t : closedA E G M l = true -> In (t, false) l -> forallb (namesOk E G M) l = true -> names_json E G M t.
Proof.
  intros C I N u raw S. apply (star_closed _ _ _ _ _ _ C I) in S. rewrite forallb_forall in N. specialize (N _ S). unfold namesOk in N. cbn [fst snd] in N. apply andb_prop in N as (N1 & N2). split; [destruct raw; [discriminate|reflexivity]|].
  intros fs name params f _ L. apply (proj1 (chosen_order G (fieldsOf M u))) in L. rewrite forallb_forall in N2. exact (plain_ok _ (N2 _ L)).
Qed.
Definition keysOk (E : env) (p : tid * bool) : bool :=
  match kindOf E (fst p) with
  | Some (KMap k _) => match typeOf E k with Some K => negb (isAppender (tmeth K) || isJSON (tmeth K) || isText (tmeth K)) && match tkind K with KBool | KInt _ | KUint _ => true | _ => false end | None => false end
  | _ => true
  end.
Lemma check_keys E G M l t : closedA E G M l = true -> In (t, false) l -> forallb (keysOk E) l = true -> plain_keys E G M t.
Proof.
  intros C I N u raw k e S K. apply (star_closed _ _ _ _ _ _ C I) in S. rewrite forallb_forall in N. specialize (N _ S). unfold keysOk in N. cbn [fst] in N. rewrite K in N. destruct (typeOf E k) as [T|] eqn:ET; [|discriminate].
  exists T. split; auto. apply andb_prop in N as (N1 & N2). split; [|destruct (tkind T); try discriminate; exact Logic.I]. unfold no_marshaler. destruct (isAppender (tmeth T)), (isJSON (tmeth T)), (isText (tmeth T)); try discriminate. auto.
Qed.
Lemma not_loops E G M t r : wf_types E -> paths_ok E M -> t < length (types E) -> Appender E G M t = Ok r -> ~ loops (needs_t E G M) t.
Proof. intros W P Lt H L. pose proof (proj1 (C60_lem E G M W P t Lt) L (S (length (types E))) false) as D. unfold Appender in H. congruence. Qed.
Lemma not_loops_u E G M t c : wf_types E -> paths_ok E M -> no_point_loop E -> t < length (types E) -> Unmarshaler E G M t = Ok (Some c) -> ~ loops (needs_u E G M) t.
Proof. intros W P NP Lt H L. exact (proj1 (C60_unmarshal_lem E G M W P NP t Lt) L (S (length (types E))) c H). Qed.
Lemma gen_returns : methods_return genE.
Proof. repeat split; intros; try (eexists; reflexivity). cbn [callText genE]. destruct v; try (eexists; reflexivity). destruct z; eexists; reflexivity. Qed.
Lemma gen_writes : methods_write_json genE.
Proof.
  split; [discriminate|]. split.
  - intros t v r H. injection H as <-. exists (str "true"), JTrue. split; [reflexivity|constructor].
  - intros t v w H. cbn [callText genE] in H. destruct v; try discriminate. destruct z; injection H as <-; apply chars_ok; reflexivity.
Qed.
Lemma gen_unmarshals : unmarshalers_return genE genM.
Proof.
  split; [intros; eexists _, _; split; [reflexivity|assumption]|]. split.
  - intros t v s T. cbn [callTextU genE]. destruct s; [eexists _, _; split; [reflexivity|assumption]|]. destruct (t =? 36)%nat eqn:E36; eexists _, _; (split; [reflexivity|]); auto. apply Nat.eqb_eq in E36. subst t. ty.
  - intros t s x H. cbn [isTime parseTime genM] in *. apply Nat.eqb_eq in H. subst t. destruct (bseqb s (str "now")); [|discriminate]. injection 1 as <-. ty.
Qed.

(* ---- C60 ---- *)
Ltac one_field := exists [], []; split; [reflexivity|]; split; [reflexivity|]; split; intros ? ? [].
Lemma loops17 : loops (needs_t genE genG genM) 17.
Proof.
  exists 17, 18. split; [constructor|]. split.
  - exists false, false. eapply (nd_field genE genG genM 17 false _ _ (str "next") [] (mf (str "Next") [0]%Z 18 (str "next"))); [reflexivity|repeat split; reflexivity|reflexivity|]. one_field.
  - eapply star_step; [|constructor]. exists false, false. eapply (nd_part genE genG genM 18 false _ (17, false)); [reflexivity|repeat split; reflexivity|left; reflexivity].
Qed.
Lemma can18 : can genE 18.
Proof. eapply can_elem; [constructor; reflexivity|]. eapply can_struct. reflexivity. Qed.
Lemma loops17_u : loops (needs_u genE genG genM) 17.
Proof.
  exists 17, 18. split; [constructor|]. split.
  - eapply (nu_field genE genG genM 17 _ _ (str "next") [] (mf (str "Next") [0]%Z 18 (str "next"))); [reflexivity|repeat split; reflexivity|reflexivity| |intros ([] & _)].
    exists [], []. split; [reflexivity|]. split; [reflexivity|]. split; [exact can18|]. intros ? ? [].
  - eapply star_step; [|constructor]. eapply nu_elem; [reflexivity|repeat split; reflexivity|reflexivity].
Qed.
Lemma codeless16 : star (needs genE genG genM) (16, false) (15, false) /\ codeless genE genG genM (15, false).
Proof.
  split.
  - eapply star_step; [|constructor]. eapply (nd_field genE genG genM 16 false _ _ (str "a") [] (mf (str "A") [0]%Z 15 (str "a"))); [reflexivity|repeat split; reflexivity|reflexivity|]. one_field.
  - eexists. split; [reflexivity|]. split; [repeat split; reflexivity|exact Logic.I].
Qed.
Lemma codeless40 : codeless genE genG genM (40, false).
Proof.
  eexists. split; [reflexivity|]. split; [repeat split; reflexivity|]. exists (str "s"), [omitEmpty], (mf (str "S") [0]%Z 8 (str "s,omitempty")), [tagged (str "X") 6 (str "x"); tagged (str "Y") tFloat64 (str "y")].
  split; [one_field|]. split; [left; reflexivity|]. split; [reflexivity|]. intros (T & ET & H). injection ET as <-. discriminate.
Qed.
Lemma ex60_lem : wf_types genE /\ paths_ok genE genM /\ loops (needs_t genE genG genM) 17 /\ Appender genE genG genM 17 = Diverge /\
  ~ loops (needs_t genE genG genM) 10 /\ (exists c, Appender genE genG genM 10 = Ok (Some c) /\ compilesAppender genM 10 c = true) /\
  ~ loops (needs_t genE genG genM) 16 /\ Appender genE genG genM 16 = Ok None /\ Appender genE genG genM 40 = Ok None.
Proof.
  split; [exact gen_wf|]. split; [exact gen_paths|]. split; [exact loops17|]. split; [vm_compute; reflexivity|]. split; [eapply not_loops; [exact gen_wf|exact gen_paths|vm_compute; lia|found]|].
  split; [eexists; split; [found|vm_compute; reflexivity]|]. split; [eapply not_loops; [exact gen_wf|exact gen_paths|vm_compute; lia|vm_compute; reflexivity]|]. split; vm_compute; reflexivity.
Qed.
Lemma ex60_u_lem : wf_types genE /\ paths_ok genE genM /\ no_point_loop genE /\ loops (needs_u genE genG genM) 17 /\ Unmarshaler genE genG genM 17 = Diverge /\
  ~ loops (needs_u genE genG genM) 38 /\ (exists c, Unmarshaler genE genG genM 38 = Ok (Some c) /\ compilesUnmarshaler genM 38 c = true) /\ Unmarshaler genE genG genM 15 = Ok None.
Proof.
  split; [exact gen_wf|]. split; [exact gen_paths|]. split; [exact gen_points|]. split; [exact loops17_u|]. split; [vm_compute; reflexivity|]. split; [eapply not_loops_u; [exact gen_wf|exact gen_paths|exact gen_points|vm_compute; lia|found]|].
  split; [eexists; split; [found|vm_compute; reflexivity]|]. vm_compute. reflexivity.
Qed.
(* a string type; a pointer to an int; interface{} *)
Lemma C60_refuted_lem : exists E G M t c, wf_types E /\ paths_ok E M /\ (exists fs, kindOf E t = Some (KStruct fs)) /\ Appender E G M t = Ok (Some c) /\ compilesAppender M t c = false.
Proof. exists genE, genG, genM, 20. eexists. split; [exact gen_wf|]. split; [exact gen_paths|]. split; [eexists; reflexivity|]. split; [found|vm_compute; reflexivity]. Qed.
Lemma ex60_wrong : Forall (fun t => exists c, Appender genE genG genM t = Ok (Some c) /\ compilesAppender genM t c = false) [20; 22; 24; 27; 6; 7].
Proof. repeat constructor; (eexists; split; [found|vm_compute; reflexivity]). Qed.
(* a type with a method UnmarshalNodeJSON *)
Lemma C60_refuted_u_lem : exists E G M t c, wf_types E /\ paths_ok E M /\ no_point_loop E /\ (exists fs, kindOf E t = Some (KStruct fs)) /\ Unmarshaler E G M t = Ok (Some c) /\ compilesUnmarshaler M t c = false.
Proof. exists genE, genG, genM, 26. eexists. split; [exact gen_wf|]. split; [exact gen_paths|]. split; [exact gen_points|]. split; [eexists; reflexivity|]. split; [found|vm_compute; reflexivity]. Qed.
Lemma ex60_wrong_u : Forall (fun t => exists c, Unmarshaler genE genG genM t = Ok (Some c) /\ compilesUnmarshaler genM t c = false) [26; 27; 29; 12; 16; 23; 21].
Proof. repeat constructor; (eexists; split; [found|vm_compute; reflexivity]). Qed.
(* the order of the fields *)
Definition closed10 : list (tid * bool) := [(10, false); (6, false); (tString, false); (7, false); (9, false); (8, false); (tFloat64, false)].
Definition genM' : genv := mkGE (fun t => rev (fieldsOf genM t)) (isTime genM) (isDuration genM) (parseTime genM) (hasAppend genM) (hasUnmarshal genM).
Lemma ex60_stable_lem : (forall u, Permutation (fieldsOf genM u) (fieldsOf genM' u)) /\ (forall u raw, star (needs genE genG genM) (10, false) (u, raw) -> NoDup (map mtag (fieldsOf genM u))) /\
  fieldsOf genM 10 <> fieldsOf genM' 10 /\ exists c, Appender genE genG genM 10 = Ok (Some c) /\ Appender genE genG genM' 10 = Ok (Some c).
Proof.
  split; [intro u; apply Permutation_rev|]. split; [|split; [discriminate|eexists; split; [found|vm_compute; reflexivity]]]. intros u raw S0.
  apply (star_closed genE genG genM closed10 _ _ ltac:(vm_compute; reflexivity) (or_introl eq_refl)) in S0. cbn [In closed10] in S0. repeat (destruct S0 as [S0|S0]; [injection S0 as <- <-; repeat constructor; cbn; intuition discriminate|]). destruct S0.
Qed.
Lemma C60_stable_refuted_lem : exists E G M M' t c c', (forall u, Permutation (fieldsOf M u) (fieldsOf M' u)) /\ Appender E G M t = Ok (Some c) /\ Appender E G M' t = Ok (Some c') /\
  compilesAppender M t c = true /\ compilesAppender M' t c' = true /\ exists v, typed E t v /\ runAppender E c [] (Some v) <> runAppender E c' [] (Some v).
Proof.
  exists genE, genG, genM, genM', 39. do 2 eexists. split; [intro u; apply Permutation_rev|]. split; [found|]. split; [found|]. split; [vm_compute; reflexivity|]. split; [vm_compute; reflexivity|].
  exists (VStruct [VInt 1; VString []]). split; [ty|]. vm_compute. discriminate.
Qed.
Lemma C60_reads_refuted_lem : exists E G M M' t c c', (forall u, Permutation (fieldsOf M u) (fieldsOf M' u)) /\ Unmarshaler E G M t = Ok (Some c) /\ Unmarshaler E G M' t = Ok (Some c') /\
  compilesUnmarshaler M t c = true /\ compilesUnmarshaler M' t c' = true /\ exists s v, typed E t v /\ runUnmarshaler E M (worldOf s) c v (nodeOf s) <> runUnmarshaler E M' (worldOf s) c' v (nodeOf s).
Proof.
  exists genE, genG, genM, genM', 32. do 2 eexists. split; [intro u; apply Permutation_rev|]. split; [found|]. split; [found|]. split; [vm_compute; reflexivity|]. split; [vm_compute; reflexivity|].
  exists (str "{""x"":1}"), (VStruct [VInt 0; VInt 0]). split; [ty|]. vm_compute. discriminate.
Qed.

(* ---- C61 ---- *)
Definition v61 : gv := VStruct [VInt (-3); VString []; VSlice (Some ([VString [x61; x22; x62]], [])); VPtr (Some (VStruct [VInt 1; VFloat two]))].
Definition out61 : bytes := str "{""id"":-3,""p"":{""x"":1,""y"":2." ++ repeat x30 51 ++ str "},""tags"":[""a\""b""]}".
Definition closed12 : list (tid * bool) := [(12, false); (11, false); (6, false); (tBool, false)].
Definition v12 : gv := VStruct [VMap (Some [(VInt (-1), VBool true); (VInt 2, VBool false)])].
Lemma finite_list (v : gv) : (forall x, inside v x -> match x with VFloat f => canonical b64 f /\ finite f | _ => True end) -> finite_floats v.
Proof. intros H f I. exact (H _ I). Qed.
Lemma two_fine : canonical b64 two /\ finite two. Proof. split; [exact (proj1 two_json)|exact Logic.I]. Qed.
Lemma ex61_lem : wf_types genE /\ paths_ok genE genM /\ ftoa_spec (ftoa genE) /\ walks_maps genE /\ methods_return genE /\ methods_write_json genE /\
  (names_json genE genG genM 10 /\ plain_keys genE genG genM 10 /\ typed genE 10 v61 /\ finite_floats v61 /\
    exists c, Appender genE genG genM 10 = Ok (Some c) /\ compilesAppender genM 10 c = true /\ runAppender genE c (str "x=") (Some v61) = Ok (str "x=" ++ out61, None)) /\
  (names_json genE genG genM 12 /\ plain_keys genE genG genM 12 /\ typed genE 12 v12 /\ finite_floats v12 /\
    exists c, Appender genE genG genM 12 = Ok (Some c) /\ compilesAppender genM 12 c = true /\ runAppender genE c [] (Some v12) = Ok (str "{""m"":{""-1"":true,""2"":false}}", None)).
Proof.
  split; [exact gen_wf|]. split; [exact gen_paths|]. split; [exact exact_spec|]. split; [intros b m; apply Permutation_refl|]. split; [exact gen_returns|]. split; [exact gen_writes|]. split.
  - split; [apply (check_names _ _ _ closed10); [checked|left; reflexivity|checked]|]. split; [apply (check_keys _ _ _ closed10); [checked|left; reflexivity|checked]|]. split; [unfold v61; ty|]. split; [apply finite_list; unfold v61; parts; exact two_fine|].
    eexists. split; [found|]. split; vm_compute; reflexivity.
  - split; [apply (check_names _ _ _ closed12); [checked|left; reflexivity|checked]|]. split; [apply (check_keys _ _ _ closed12); [checked|left; reflexivity|checked]|]. split; [unfold v12; ty|]. split; [apply finite_list; unfold v12; parts|].
    eexists. split; [found|]. split; vm_compute; reflexivity.
Qed.
(* an error from a method *)
Lemma ex61_error : exists c, typed genE 35 (VStruct [VStruct [VInt 0]; VInt 5]) /\ Appender genE genG genM 35 = Ok (Some c) /\ compilesAppender genM 35 c = true /\
  runAppender genE c [] (Some (VStruct [VStruct [VInt 0]; VInt 5])) = Ok (str "{""n"":""some"",""t"":true}", None).
Proof. eexists. split; [ty|]. split; [found|]. split; vm_compute; reflexivity. Qed.
(* keys that are strings; a float that is not a number *)
Lemma chars_split name : Forall (fun c => c <> x22 /\ c <> x5c) name -> forall k a b, rfc_chars k -> k ++ x22 :: a = name ++ x22 :: b -> k = name /\ a = b.
Proof.
  induction 1 as [|c name (C1 & C2) _ IH]; intros k a b K Q; cbn [app] in Q.
  - destruct k as [|x k]; [injection Q as <-; auto|]. injection Q as -> _. inversion K; subst; congruence.
  - destruct k as [|x k]; [injection Q as <- _; congruence|]. injection Q as -> Q. inversion K; subst; try congruence. match goal with R : rfc_chars k |- _ => destruct (IH k a b R Q) as (-> & ->) end. auto.
Qed.
Lemma ws_head s a c r : ws s -> s ++ a = c :: r -> ~ ws_byte c -> s = [] /\ a = c :: r.
Proof. intros Hs Q N. destruct s as [|x s]; [auto|]. injection Q as -> _. inversion Hs. contradiction. Qed.
Lemma number_nonempty w : rfc_number w -> w <> [].
Proof. intros [m i f e _ Hi _ _] Q. apply app_eq_nil in Q as (_ & Q). apply app_eq_nil in Q as (-> & _). inversion Hi. Qed.
Lemma first_member name r j u t : Forall (fun c => c <> x22 /\ c <> x5c) name -> rfc_value j u -> u ++ t = x7b :: x22 :: name ++ x22 :: r -> rfc_chars name /\ exists s2 s3 v w r', r = s2 ++ x3a :: s3 ++ w ++ r' /\ ws s2 /\ ws s3 /\ rfc_value v w.
Proof.
  intros Fn V Eu. assert (N22 : ~ ws_byte x22) by (intros [H|[H|[H|H]]]; discriminate). inversion V as [w Hw Ej Ew|w Hw Ej Ew| | | | | |s0 Hs Ej Ew|ms w Hm Ej Ew]; subst u; subst; try discriminate.
  - exfalso. destruct w as [|c w]; [exact (number_nonempty _ Hw eq_refl)|]. injection Eu as -> _. apply (not_number false x7b w); try discriminate; [|exact Hw]. intros [_ H]. vm_compute in H. apply H. reflexivity.
  - exfalso. injection Eu as Eu. rewrite <- app_assoc in Eu. destruct (ws_head _ _ _ _ Hs Eu N22) as (_ & Q). discriminate.
  - injection Eu as Eu. assert (Q : exists s1 k s2 s3 v w1 r', w = s1 ++ x22 :: k ++ x22 :: s2 ++ x3a :: s3 ++ w1 ++ r' /\ ws s1 /\ rfc_chars k /\ ws s2 /\ ws s3 /\ rfc_value v w1).
    { inversion Hm; subst; do 7 eexists; (split; [reflexivity|]); repeat (split; [assumption|]); eassumption. }
    destruct Q as (s1 & k & s2 & s3 & v & w1 & r' & -> & W1 & Ck & W2 & W3 & Vv). repeat (rewrite <- ?app_assoc in Eu; cbn [app] in Eu). destruct (ws_head _ _ _ _ W1 Eu N22) as (-> & Q'). injection Q' as Q'. destruct (chars_split name Fn _ _ _ Ck Q') as (<- & <-). split; [exact Ck|]. exists s2, s3, v, w1. eexists. split; [reflexivity|]. auto.
Qed.
Lemma one_member name r j u t : Forall (fun c => c <> x22 /\ c <> x5c) name -> rfc_value j u -> u ++ t = x7b :: x22 :: name ++ x22 :: r -> exists s2 s3 v w r', r = s2 ++ x3a :: s3 ++ w ++ r' /\ ws s2 /\ ws s3 /\ rfc_value v w.
Proof. intros Fn V Q. exact (proj2 (first_member name r j u t Fn V Q)). Qed.
Lemma one_field name c r j : Forall (fun c => c <> x22 /\ c <> x5c) name -> ~ ws_byte c -> rfc_value j (x7b :: x22 :: name ++ x22 :: x3a :: c :: r) -> exists v w r', w ++ r' = c :: r /\ rfc_value v w.
Proof.
  intros Fn Nc V. destruct (one_member name (x3a :: c :: r) j _ [] Fn V) as (s2 & s3 & v & w & r' & Q & W2 & W3 & Vv); [rewrite app_nil_r; reflexivity|]. symmetry in Q.
  apply ws_head in Q as (-> & Q); [|exact W2|intros [H|[H|[H|H]]]; discriminate]. injection Q as Q. apply ws_head in Q as (-> & Q); [|exact W3|exact Nc]. eauto.
Qed.
Lemma C61_keys_refuted_lem : exists E G M t c v out, wf_types E /\ paths_ok E M /\ ftoa_spec (ftoa E) /\ walks_maps E /\ methods_return E /\ methods_write_json E /\ names_json E G M t /\ typed E t v /\ finite_floats v /\ Appender E G M t = Ok (Some c) /\ compilesAppender M t c = true /\
  runAppender E c [] (Some v) = Ok (out, None) /\ forall j, ~ rfc_value j out.
Proof.
  exists genE, genG, genM, 14. eexists. exists (VStruct [VMap (Some [(VString (str "a"), VInt 1)])]), (str "{""m"":{""""a"""":1}}"). split; [exact gen_wf|]. split; [exact gen_paths|]. split; [exact exact_spec|]. split; [intros b m; apply Permutation_refl|]. split; [exact gen_returns|]. split; [exact gen_writes|].
  split; [apply (check_names _ _ _ [(14, false); (13, false); (6, false); (tString, false)]); [checked|left; reflexivity|checked]|]. split; [ty|]. split; [apply finite_list; parts|]. split; [found|]. split; [vm_compute; reflexivity|]. split; [vm_compute; reflexivity|].
  intros j V. destruct (one_field (str "m") x7b (str """""a"""":1}}") j) as (v & w & r' & Q & Vv); [repeat constructor; discriminate|intros [H|[H|[H|H]]]; discriminate|exact V|].
  destruct (one_member [] (str "a"""":1}}") v w r') as (s2 & s3 & v' & w' & r2 & Q' & W2 & _); [constructor|exact Vv|exact Q|].
  symmetry in Q'. apply ws_head in Q' as (_ & Q'); [discriminate|exact W2|intros [H|[H|[H|H]]]; discriminate].
Qed.
Lemma C61_floats_refuted_lem : exists E G M t c v out, wf_types E /\ paths_ok E M /\ ftoa_spec (ftoa E) /\ walks_maps E /\ methods_return E /\ methods_write_json E /\ names_json E G M t /\ plain_keys E G M t /\ typed E t v /\ Appender E G M t = Ok (Some c) /\ compilesAppender M t c = true /\
  runAppender E c [] (Some v) = Ok (out, None) /\ forall j, ~ rfc_value j out.
Proof.
  exists genE, genG, genM, 33. eexists. exists (VStruct [VFloat FNaN]), (str "{""f"":NaN}"). split; [exact gen_wf|]. split; [exact gen_paths|]. split; [exact exact_spec|]. split; [intros b m; apply Permutation_refl|]. split; [exact gen_returns|]. split; [exact gen_writes|].
  split; [apply (check_names _ _ _ [(33, false); (tFloat64, false)]); [checked|left; reflexivity|checked]|]. split; [apply (check_keys _ _ _ [(33, false); (tFloat64, false)]); [checked|left; reflexivity|checked]|]. split; [ty|]. split; [found|]. split; [vm_compute; reflexivity|]. split; [vm_compute; reflexivity|].
  intros j V. destruct (one_field (str "f") x4e (str "aN}") j) as (v & w & r' & Q & Vv); [repeat constructor; discriminate|intros [H|[H|[H|H]]]; discriminate|exact V|].
  destruct w as [|c w]; [|injection Q as -> _; revert Vv; apply no_json_word; try discriminate; intros [_ H]; vm_compute in H; apply H; reflexivity].
  inversion Vv as [| w0 Hw Ej Ew| | | | | | |]; subst. exact (number_nonempty _ Hw eq_refl).
Qed.

(* a name with a backslash: the tag says a\tb, and a tab is written *)
Lemma C61_names_refuted_lem : exists E G M t c v out, wf_types E /\ paths_ok E M /\ ftoa_spec (ftoa E) /\ walks_maps E /\ methods_return E /\ methods_write_json E /\ plain_keys E G M t /\ typed E t v /\ finite_floats v /\
  (forall u raw fs name params f, star (needs E G M) (t, false) (u, raw) -> raw = false /\ (kindOf E u = Some (KStruct fs) -> leads G (fieldsOf M u) name params f -> rfc_chars name)) /\
  Appender E G M t = Ok (Some c) /\ compilesAppender M t c = true /\ runAppender E c [] (Some v) = Ok (out, None) /\ forall j, ~ rfc_value j out.
Proof.
  exists genE, genG, genM, 48. eexists. exists (VStruct [VInt 1]), (x7b :: x22 :: [x61; x09; x62] ++ x22 :: str ":1}"). split; [exact gen_wf|]. split; [exact gen_paths|]. split; [exact exact_spec|]. split; [intros b m; apply Permutation_refl|]. split; [exact gen_returns|]. split; [exact gen_writes|].
  split; [apply (check_keys _ _ _ [(48, false); (6, false)]); [checked|left; reflexivity|checked]|]. split; [ty|]. split; [apply finite_list; parts|]. split; [|split; [found|]; split; [vm_compute; reflexivity|]; split; [vm_compute; reflexivity|]].
  - intros u raw fs name params f Su. apply (star_closed genE genG genM [(48, false); (6, false)] _ _ ltac:(vm_compute; reflexivity) (or_introl eq_refl)) in Su. destruct Su as [Q|[Q|[]]]; injection Q as <- <-; (split; [reflexivity|]); intros _ L; [|apply (leads_In genG) in L; destruct L].
    apply (proj1 (chosen_order genG (fieldsOf genM 48))) in L. change (In (name, params, f) [(str "a\tb", @nil bytes, mf (str "A") [0]%Z 6 (str "a\tb"))]) in L. destruct L as [Q|[]]. injection Q as <- _ _. apply chars_plain; [vm_compute; discriminate|discriminate|discriminate|]. apply chars_esc; [cbn; tauto|]. apply chars_plain; [vm_compute; discriminate|discriminate|discriminate|constructor].
  - intros j V. destruct (first_member [x61; x09; x62] (str ":1}") j _ [] ltac:(repeat constructor; discriminate) V ltac:(rewrite app_nil_r; reflexivity)) as (C & _). inversion C as [|c w _ _ _ C'| |]; subst. inversion C' as [|c w H _ _ _| |]; subst. vm_compute in H. apply H. reflexivity.
Qed.
(* a struct that embeds a type with a method AppendJSON: the generated method calls itself *)
Lemma C61_self_refuted_lem : exists E G M t c v, wf_types E /\ paths_ok E M /\ ftoa_spec (ftoa E) /\ walks_maps E /\ methods_return E /\ methods_write_json E /\ names_json E G M t /\ plain_keys E G M t /\ typed E t v /\ finite_floats v /\
  Appender E G M t = Ok (Some c) /\ compilesAppender M t c = true /\ forall out, runAppender E c out (Some v) = Diverge.
Proof.
  exists genE, genG, genM, 46. eexists. exists (VStruct [VInt 1]). split; [exact gen_wf|]. split; [exact gen_paths|]. split; [exact exact_spec|]. split; [intros b m; apply Permutation_refl|]. split; [exact gen_returns|]. split; [exact gen_writes|].
  split; [apply (check_names _ _ _ [(46, false); (47, false)]); [checked|left; reflexivity|checked]|]. split; [apply (check_keys _ _ _ [(46, false); (47, false)]); [checked|left; reflexivity|checked]|]. split; [ty|]. split; [apply finite_list; parts|]. split; [found|]. split; vm_compute; reflexivity.
Qed.
(* a pointer to a pointer to an empty struct *)
Lemma ex61_hollow : exists c, Appender genE genG genM 43 = Ok (Some c) /\ compilesAppender genM 43 c = true /\ runAppender genE c [] (Some (VStruct [VPtr (Some (VPtr (Some (VStruct []))))])) = Ok (str "{""p"":{}}", None).
Proof. eexists. split; [found|]. split; vm_compute; reflexivity. Qed.

(* ---- C62 ---- *)
(* the types that values of a type are read with, and more *)
Definition succU (E : env) (G : gopts) (M : genv) (t : tid) : list tid :=
  match kindOf E t with
  | Some (KPtr x) | Some (KSlice x) | Some (KMap _ x) => [x]
  | Some (KStruct _) => map mtype (filter (fun f => match parseVar G f with Some _ => true | None => false end) (fieldsOf M t))
  | _ => []
  end.
Definition byKind (E : env) (M : genv) (t : tid) : bool :=
  match typeOf E t with Some T => negb (isTime M t || isDuration M t || isNodeU (tptr T) || isJSONU (tptr T) || isTextU (tptr T)) | None => false end.
Lemma check_by_kind E G M l t : forallb (fun t => byKind E M t && forallb (fun u => existsb (Nat.eqb u) l) (succU E G M t)) l = true -> In t l -> read_by_kind E G M t.
Proof.
  intros C I u Q. rewrite forallb_forall in C. assert (In u l) as J.
  { induction Q as [t|t r u N _ IH]; auto. apply IH. specialize (C t I). apply andb_prop in C as (_ & C). rewrite forallb_forall in C.
    assert (Ir : In r (succU E G M t)).
    { destruct N as [t T e ET _ K|t T fs name params f ET _ K (a & b & El & PV & _) _]; unfold succU, kindOf; rewrite ET; cbn [option_map].
      - destruct (tkind T); try destruct K; left; reflexivity.
      - rewrite K. apply in_map, filter_In. rewrite PV. split; auto. rewrite El. apply in_or_app. right. left. reflexivity. }
    apply C in Ir. apply existsb_exists in Ir as (x & Ix & Q'). apply Nat.eqb_eq in Q'. subst x. exact Ix. }
  apply C in J. apply andb_prop in J as (B & _). unfold byKind in B. destruct (typeOf E u) as [T|]; [|discriminate]. exists T. split; auto. unfold by_kind_u, no_unmarshaler.
  destruct (isTime M u), (isDuration M u), (isNodeU (tptr T)), (isJSONU (tptr T)), (isTextU (tptr T)); try discriminate. auto.
Qed.
Definition doc38 : bytes := str "{""l"":[1,2],""zz"":true,""n"":""a\nb"",""s"":{""x"":""5""}}".
Definition tree38 : jval := JObj [(str "l", JArr [JNum (str "1"); JNum (str "2")]); (str "zz", JTrue); (str "n", JStr (str "a\nb")); (str "s", JObj [(str "x", JStr (str "5"))])].
Definition v38 : gv := VStruct [VSlice (Some ([VInt 9], [VInt 8; VInt 7])); VStruct [VInt 1; VFloat two]; VString (str "old")].
Definition w38 : gv := VStruct [VSlice (Some ([VInt 1; VInt 2], [VInt 7])); VStruct [VInt 5; VFloat two]; VString [x61; x0a; x62]].
Definition doc30 : bytes := str "{""x"":4,""q"":[],""z"":""-1""}".
Definition tree30 : jval := JObj [(str "x", JNum (str "4")); (str "q", JArr []); (str "z", JStr (str "-1"))].
Definition doc35 : bytes := str "{""t"":""now"",""n"":""any""}".
Definition tree35 : jval := JObj [(str "t", JStr (str "now")); (str "n", JStr (str "any"))].
Lemma ex62_lem : wf_types genE /\ paths_ok genE genM /\ no_point_loop genE /\ unmarshalers_return genE genM /\
  (read_by_kind genE genG genM 38 /\ typed genE 38 v38 /\ tree_of (worldOf doc38) (nodeOf doc38) tree38 /\ exists c, Unmarshaler genE genG genM 38 = Ok (Some c) /\ compilesUnmarshaler genM 38 c = true /\
    runUnmarshaler genE genM (worldOf doc38) c v38 (nodeOf doc38) = Ok (w38, None)) /\
  (typed genE 30 (VStruct [VPtr None; VInt 0]) /\ tree_of (worldOf doc30) (nodeOf doc30) tree30 /\ exists c, Unmarshaler genE genG genM 30 = Ok (Some c) /\ compilesUnmarshaler genM 30 c = true /\
    runUnmarshaler genE genM (worldOf doc30) c (VStruct [VPtr None; VInt 0]) (nodeOf doc30) = Ok (VStruct [VPtr (Some (VStruct [VInt 4; VFloat zeroF])); VInt (-1)], None)) /\
  (typed genE 35 (VStruct [VStruct [VInt 0]; VInt 0]) /\ tree_of (worldOf doc35) (nodeOf doc35) tree35 /\ exists c, Unmarshaler genE genG genM 35 = Ok (Some c) /\ compilesUnmarshaler genM 35 c = true /\
    runUnmarshaler genE genM (worldOf doc35) c (VStruct [VStruct [VInt 0]; VInt 0]) (nodeOf doc35) = Ok (VStruct [VStruct [VInt 1]; VInt 7], None)).
Proof.
  split; [exact gen_wf|]. split; [exact gen_paths|]. split; [exact gen_points|]. split; [exact gen_unmarshals|]. split; [|split].
  - split; [apply (check_by_kind _ _ _ [38; 37; 6; 8; tFloat64; tString]); [vm_compute; reflexivity|left; reflexivity]|]. split; [unfold v38; ty|]. split; [apply tree_parsed; vm_compute; reflexivity|]. eexists. split; [found|]. split; vm_compute; reflexivity.
  - split; [ty|]. split; [apply tree_parsed; vm_compute; reflexivity|]. eexists. split; [found|]. split; vm_compute; reflexivity.
  - split; [ty|]. split; [apply tree_parsed; vm_compute; reflexivity|]. eexists. split; [found|]. split; vm_compute; reflexivity.
Qed.
(* keys in interfaces *)
Lemma ex62_keys : exists c, Unmarshaler genE genG genM 45 = Ok (Some c) /\ compilesUnmarshaler genM 45 c = true /\
  typed genE 45 (VStruct [VMap (Some [(VIface (Some (6, VInt 1)), VInt 2); (VIface (Some (tString, VString (str "a"))), VInt 3)])]) /\
  let doc := str "{""m"":{""a"":4,""b"":5}}" in
  runUnmarshaler genE genM (worldOf doc) c (VStruct [VMap (Some [(VIface (Some (6, VInt 1)), VInt 2); (VIface (Some (tString, VString (str "a"))), VInt 3)])]) (nodeOf doc) =
    Ok (VStruct [VMap (Some [(VIface (Some (6, VInt 1)), VInt 2); (VIface (Some (tString, VString (str "a"))), VInt 4); (VIface (Some (tString, VString (str "b"))), VInt 5)])], None).
Proof. eexists. split; [found|]. split; [vm_compute; reflexivity|]. split; [ty|]. vm_compute. reflexivity. Qed.
(* more elements than the array has *)
Lemma C62_length_refuted_lem : exists E G M w t c v n js l s, wf_types E /\ paths_ok E M /\ no_point_loop E /\ unmarshalers_return E M /\ read_by_kind E G M t /\ typed E t v /\ tree_of w n (JArr js) /\
  Unmarshaler E G M t = Ok (Some c) /\ compilesUnmarshaler M t c = true /\ runUnmarshaler E M w c v n = Ok (VSlice (Some (l, s)), None) /\ length l <> length js.
Proof.
  exists genE, genG, genM, (worldOf (str "[1,2]")), 37. eexists. exists (VSlice (Some ([VInt 9], []))), (nodeOf (str "[1,2]")), [JNum (str "1"); JNum (str "2")], [VInt 1; VInt 2; VInt 0], [].
  split; [exact gen_wf|]. split; [exact gen_paths|]. split; [exact gen_points|]. split; [exact gen_unmarshals|]. split; [apply (check_by_kind _ _ _ [37; 6]); [vm_compute; reflexivity|left; reflexivity]|]. split; [ty|].
  split; [apply tree_parsed; vm_compute; reflexivity|]. split; [found|]. split; [vm_compute; reflexivity|]. split; [vm_compute; reflexivity|]. discriminate.
Qed.
(* an object in place of a string is no error *)
Lemma C62_string_refuted_lem : exists E G M w t c n ms, wf_types E /\ paths_ok E M /\ no_point_loop E /\ unmarshalers_return E M /\ read_by_kind E G M t /\ kindOf E t = Some KString /\ tree_of w n (JObj ms) /\
  Unmarshaler E G M t = Ok (Some c) /\ compilesUnmarshaler M t c = true /\ forall s, runUnmarshaler E M w c (VString s) n = Ok (VString [], None).
Proof.
  exists genE, genG, genM, (worldOf (str "{""a"":1}")), 19. eexists. exists (nodeOf (str "{""a"":1}")), [(str "a", JNum (str "1"))].
  split; [exact gen_wf|]. split; [exact gen_paths|]. split; [exact gen_points|]. split; [exact gen_unmarshals|]. split; [apply (check_by_kind _ _ _ [19]); [vm_compute; reflexivity|left; reflexivity]|]. split; [reflexivity|].
  split; [apply tree_parsed; vm_compute; reflexivity|]. split; [found|]. split; [vm_compute; reflexivity|]. intro s. vm_compute. reflexivity.
Qed.
(* null in place of an object is an error in a field, though not at the top *)
Lemma C62_null_refuted_lem : exists E G M w t c v n name, wf_types E /\ paths_ok E M /\ no_point_loop E /\ unmarshalers_return E M /\ read_by_kind E G M t /\ typed E t v /\ tree_of w n (JObj [(name, JNull)]) /\
  Unmarshaler E G M t = Ok (Some c) /\ compilesUnmarshaler M t c = true /\ exists e, runUnmarshaler E M w c v n = Ok (v, Some e).
Proof.
  exists genE, genG, genM, (worldOf (str "{""s"":null}")), 38. eexists. exists v38, (nodeOf (str "{""s"":null}")), (str "s").
  split; [exact gen_wf|]. split; [exact gen_paths|]. split; [exact gen_points|]. split; [exact gen_unmarshals|]. split; [apply (check_by_kind _ _ _ [38; 37; 6; 8; tFloat64; tString]); [vm_compute; reflexivity|left; reflexivity]|]. split; [unfold v38; ty|].
  split; [apply tree_parsed; vm_compute; reflexivity|]. split; [found|]. split; [vm_compute; reflexivity|]. eexists. vm_compute. reflexivity.
Qed.
